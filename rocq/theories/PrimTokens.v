(** * The macros [vectors!] and [matrices!] at the level of tokens

    Prims.v gives the types of /repo/src/std140/primitives.rs and /repo/src/std430/primitives.rs as rows.  Here is what
    the macros expand a row to; SpecPrimTokens.v reads it back as Rust.  (The expansion of [macro_rules] itself,
    the substitution of the row for the variables, is written out here by hand.) *)

From Coq Require Import NArith String Bool List.
From Verif Require Import Rust Derive GlslGen Tokens Prims.
Import ListNotations.
Local Open Scope string_scope.

(* The names at /repo/src/std140/primitives.rs:3, 6-26, 69-87, /repo/src/std430/primitives.rs:3, 6-26, 69-87. *)
Definition prim_name (p : prim) : string :=
  match p with PF32 => "f32" | PF64 => "f64" | PI32 => "i32" | PU32 => "u32" | PBool => "Bool" | PU8 => "u8" end.

(* [$field_ty], /repo/src/std140/primitives.rs:95-97, 123-179, /repo/src/std430/primitives.rs:95-97, 123-177. *)
Definition mfield_toks (m : mfield) : list tok :=
  match m with
  | MVec n => [kw n]
  | MPrim p => [kw (prim_name p)]
  | MArr p n => [TG Brack [kw (prim_name p); TP ";"; TInt n ""]]
  end.

(** The body of both macros: they differ in how the fields are written and, in std140, in [PartialEq]. *)
(* /repo/src/std140/primitives.rs:46-63, 101-118, /repo/src/std430/primitives.rs:46-63, 101-118. *)
Definition layout_type_toks (l : lay) (partial_eq : bool) (doc : string) (align : N) (glsl name : string) (fields : list tok) : list tok :=
  [TP "#"; TG Brack [kw "doc"; TP "="; TStr doc];
   TP "#"; TG Brack [kw "allow"; TG Paren [kw "missing_docs"]];
   TP "#"; TG Brack [kw "derive"; TG Paren ([kw "Debug"; TP ","; kw "Clone"; TP ","; kw "Copy"] ++ if partial_eq then [TP ","; kw "PartialEq"] else [])%list];
   TP "#"; TG Brack [kw "repr"; TG Paren [kw "C"]];
   kw "pub"; kw "struct"; kw name; TG Brace fields;
   kw "unsafe"; kw "impl"; kw "Zeroable"; kw "for"; kw name; TG Brace [];
   kw "unsafe"; kw "impl"; kw "Pod"; kw "for"; kw name; TG Brace [];
   kw "unsafe"; kw "impl"; kw (trait_name l); kw "for"; kw name;
     TG Brace [kw "const"; kw "ALIGNMENT"; TP ":"; kw "usize"; TP "="; TInt align ""; TP ";"];
   kw "unsafe"; kw "impl"; kw "Glsl"; kw "for"; kw name;
     TG Brace [kw "const"; kw "NAME"; TP ":"; TP "&"; TP "'"; kw "static"; kw "str"; TP "="; kw "stringify"; TP "!"; TG Paren [kw glsl]; TP ";"]].

(* [$(pub $field: $prim,)+] and the derived traits, /repo/src/std140/primitives.rs:48,51, /repo/src/std430/primitives.rs:48,51. *)
Definition vector_toks (l : lay) (doc : string) (r : vec_row) : list tok :=
  layout_type_toks l (match l with L140 => true | L430 => false end) doc (vr_align r) (vr_glsl r) (vr_name r)
    (flat_map (fun f => [kw "pub"; kw f; TP ":"; kw (prim_name (vr_prim r)); TP ","]) (vr_fields r)).

(* [$(pub $field: $field_ty,)+], /repo/src/std140/primitives.rs:106, /repo/src/std430/primitives.rs:106. *)
Definition matrix_toks (l : lay) (doc : string) (r : mat_row) : list tok :=
  layout_type_toks l false doc (mr_align r) (mr_glsl r) (mr_name r)
    (flat_map (fun f => [kw "pub"; kw (fst f); TP ":"] ++ mfield_toks (snd f) ++ [TP ","])%list (mr_fields r)).

(** What both macros add to the module; [doc]: the texts of the comments *)
(* /repo/src/std140/primitives.rs:68-88, 123-179, /repo/src/std430/primitives.rs:68-88, 123-177. *)
Definition module_toks (l : lay) (doc : string -> string) (vs : list vec_row) (ms : list mat_row) : list tok :=
  (flat_map (fun r => vector_toks l (doc (vr_name r)) r) vs ++ flat_map (fun r => matrix_toks l (doc (mr_name r)) r) ms)%list.
