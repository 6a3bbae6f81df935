(** * /repo/crevice-derive/src/layout.rs at the level of tokens

    Derive.v gives the code that the layout derives generate as syntax.  Here is the token stream itself, as
    [quote!] builds it; SpecTokens.v reads it back as Rust.  ([#[derive(AsStd140)]] without the feature
    debug-methods; what that feature adds is [debug_definitions] below and [DebugMetrics.v].) *)

From Coq Require Import NArith String Bool List.
From Verif Require Import Rust Internal Prims Derive GlslGen.
Import ListNotations.
Local Open Scope string_scope.

(** Token trees of proc_macro2.  (Simplification: [::], [->] and [..] are one token each; [<] and [>] never are
    part of a longer one.) *)
(* proc_macro2's TokenTree, as used at /repo/crevice-derive/src/layout.rs:1-2. *)
Inductive delim := Paren | Brack | Brace.
(* The same place. *)
Inductive tok :=
| TId (i : ident)
| TP (p : string)                       (* punctuation *)
| TInt (n : N) (suffix : string)
| TStr (s : string)
| TG (d : delim) (ts : list tok).

(* An identifier written in [quote!], or made by [format_ident!] (which drops [r#]). *)
Definition kw (s : string) : tok := TId (Ident false s).

(** syn's [DeriveInput] and what [split_for_impl] makes of its generics *)
(* /repo/crevice-derive/src/layout.rs:6, 22-24, 30-37. *)
Inductive tok_data :=
| TNamed (fs : list (ident * list tok))
| TUnnamed
| TUnit
| TEnum
| TUnion.
(* The same. *)
Record tok_input := TokInput {
  ti_vis : list tok;
  ti_ident : ident;
  ti_impl_generics : list tok;
  ti_ty_generics : list tok;
  ti_where : list tok;
  ti_data : tok_data
}.

(* /repo/crevice-derive/src/lib.rs:11,19. *)
Definition mod_name (l : lay) : string := match l with L140 => "std140" | L430 => "std430" end.
(* /repo/crevice-derive/src/layout.rs:14-15. *)
Definition mod_path (l : lay) : list tok := [TP "::"; kw "crevice"; TP "::"; kw (mod_name l)].
Definition trait_path (l : lay) : list tok := (mod_path l ++ [TP "::"; kw (trait_name l)])%list.
(* /repo/crevice-derive/src/layout.rs:17-18. *)
Definition as_trait_path (l : lay) : list tok := (mod_path l ++ [TP "::"; kw ("As" ++ trait_name l)])%list.
(* /repo/crevice-derive/src/layout.rs:19-20. *)
Definition as_trait_method (l : lay) : tok := kw ("as_" ++ mod_name l).
Definition from_trait_method (l : lay) : tok := kw ("from_" ++ mod_name l).

(* /repo/crevice-derive/src/layout.rs:40-44. *)
Definition layout_version_of_ty (l : lay) (ty : list tok) : list tok :=
  ([TP "<"] ++ ty ++ [kw "as"] ++ as_trait_path l ++ [TP ">"; TP "::"; kw "Output"])%list.
(* /repo/crevice-derive/src/layout.rs:47-51. *)
Definition layout_alignment_of_ty (l : lay) (ty : list tok) : list tok :=
  ([TP "<"; TP "<"] ++ ty ++ [kw "as"] ++ as_trait_path l ++ [TP ">"; TP "::"; kw "Output"; kw "as"]
   ++ trait_path l ++ [TP ">"; TP "::"; kw "ALIGNMENT"])%list.

(* [::crevice::internal::f], /repo/crevice-derive/src/layout.rs:55, 121. *)
Definition internal (f : string) : list tok := [TP "::"; kw "crevice"; TP "::"; kw "internal"; TP "::"; kw f].

(* /repo/crevice-derive/src/layout.rs:53-59. *)
Definition struct_alignment_toks (l : lay) (fields : list (ident * list tok)) : list tok :=
  (internal "max_arr" ++ [TG Paren [TG Brack
     ([TInt (min_struct_alignment l) "usize"; TP ","]
      ++ flat_map (fun field => layout_alignment_of_ty l (snd field) ++ [TP ","]) fields)]])%list.

(* /repo/crevice-derive/src/layout.rs:70-93, the closure [offset_after_field]; [None]: an index out of bounds. *)
Fixpoint offset_after_toks (l : lay) (fields : list (ident * list tok)) (pad_fns : list string) (target : nat)
    (indices : list nat) (output : list tok) : option (list tok) :=
  match indices with
  | [] => Some output
  | index :: rest =>
    match nth_error fields index with
    | None => None
    | Some (_, field_ty) =>
      let output := (output ++ [TP "+"; TP "::"; kw "core"; TP "::"; kw "mem"; TP "::"; kw "size_of"; TP "::"; TP "<"]
                       ++ layout_version_of_ty l field_ty ++ [TP ">"; TG Paren []])%list in
      if Nat.ltb index target then
        match nth_error pad_fns index with
        | None => None
        | Some pad_fn => offset_after_toks l fields pad_fns target rest (output ++ [TP "+"; kw pad_fn; TG Paren []])%list
        end
      else offset_after_toks l fields pad_fns target rest output
    end
  end.

(** One padding function; the doc comment becomes two attributes ([#index] in a comment is not interpolated). *)
(* /repo/crevice-derive/src/layout.rs:95-126. *)
Definition pad_fn_toks (l : lay) (fields : list (ident * list tok)) (pad_fns : list string) (index : nat) (pad_fn : string)
    : option (list tok) :=
  match offset_after_toks l fields pad_fns index (seq 0 (S index)) [TInt 0 "usize"] with
  | None => None
  | Some starting_offset =>
    let next_field_or_self_alignment :=
      match nth_error fields (index + 1) with
      | Some next_field => layout_alignment_of_ty l (snd next_field)
      | None => struct_alignment_toks l fields
      end in
    Some ([TP "#"; TG Brack [kw "doc"; TP "="; TStr " Tells how many bytes of padding have to be inserted after"];
           TP "#"; TG Brack [kw "doc"; TP "="; TStr " the field with index #index."];
           TP "#"; TG Brack [kw "allow"; TG Paren [kw "non_snake_case"]];
           kw "const"; kw "fn"; kw pad_fn; TG Paren []; TP "->"; kw "usize";
           TG Brace ([kw "let"; kw "starting_offset"; TP "="] ++ starting_offset ++ [TP ";"]
                     ++ [kw "let"; kw "alignment"; TP "="] ++ next_field_or_self_alignment ++ [TP ";"]
                     ++ internal "align_offset" ++ [TG Paren [kw "starting_offset"; TP ","; kw "alignment"]])])%list
  end.

(* /repo/crevice-derive/src/layout.rs:128-142. *)
Fixpoint struct_fields_toks (l : lay) (pad_fns : list string) (index : nat) (fields : list (ident * list tok)) : option (list tok) :=
  match fields with
  | [] => Some []
  | (field_name, field_ty) :: rest =>
    match nth_error pad_fns index, struct_fields_toks l pad_fns (S index) rest with
    | Some pad_fn, Some r =>
      Some ([TId field_name; TP ":"] ++ layout_version_of_ty l field_ty ++ [TP ",";
             kw (pad_field_name index); TP ":"; TG Brack [kw "u8"; TP ";"; kw pad_fn; TG Paren []]; TP ","] ++ r)%list
    | _, _ => None
    end
  end.

(* /repo/crevice-derive/src/layout.rs:144-153. *)
Definition field_init_toks (l : lay) (fields : list (ident * list tok)) : list tok :=
  flat_map (fun field => [TId (fst field); TP ":"; kw "self"; TP "."; TId (fst field); TP "."; as_trait_method l; TG Paren []; TP ","]) fields.
(* /repo/crevice-derive/src/layout.rs:155-164. *)
Definition input_init_toks (l : lay) (fields : list (ident * list tok)) : list tok :=
  flat_map (fun field => [TId (fst field); TP ":"] ++ as_trait_path l
     ++ [TP "::"; from_trait_method l; TG Paren [kw "input"; TP "."; TId (fst field)]; TP ","])%list fields.

(* [::crevice::internal::bytemuck::f], /repo/crevice-derive/src/layout.rs:238-239, 252. *)
Definition bytemuck (f : string) : list tok := (internal "bytemuck" ++ [TP "::"; kw f])%list.

(** [emit]: (the padding functions, the struct, the impls); [None]: it panics *)
(* /repo/crevice-derive/src/layout.rs:5-174, 227-261. *)
Definition emit_parts (l : lay) (input : tok_input) : option (list tok * list tok * list tok) :=
  let generated_name := kw (trait_name l ++ id_name (ti_ident input)) in                                    (* 26 *)
  match ti_data input with
  | TNamed fields =>
    let pad_fns := map (pad_fn_name l (id_name (ti_ident input))) (seq 0 (length fields)) in                (* 62-64 *)
    match map_opt (fun p => pad_fn_toks l fields pad_fns (fst p) (snd p)) (combine (seq 0 (length pad_fns)) pad_fns),
          struct_fields_toks l pad_fns 0 fields with
    | Some pad_fn_impls, Some generated_struct_fields =>
      let struct_definition :=                                                                              (* 166-174 *)
        ([TP "#"; TG Brack [kw "derive"; TG Paren [kw "Debug"; TP ","; kw "Clone"; TP ","; kw "Copy"]];
          TP "#"; TG Brack [kw "repr"; TG Paren [kw "C"]];
          TP "#"; TG Brack [kw "doc"; TG Paren [kw "hidden"]];
          TP "#"; TG Brack [kw "allow"; TG Paren [kw "warnings"]]]
         ++ ti_vis input ++ [kw "struct"; generated_name] ++ ti_ty_generics input ++ ti_where input
         ++ [TG Brace generated_struct_fields])%list in
      let for_generated := ([kw "for"; generated_name] ++ ti_ty_generics input ++ ti_where input)%list in
      Some (concat pad_fn_impls, struct_definition,
        [kw "impl"] ++ ti_impl_generics input ++ [generated_name] ++ ti_ty_generics input ++ ti_where input ++      (* 231-236 *)
        [TG Brace [TP "#"; TG Brack [kw "allow"; TG Paren [kw "warnings"]];
                   kw "pub"; kw "fn"; kw "as_bytes"; TG Paren [TP "&"; kw "self"]; TP "->"; TP "&"; TG Brack [kw "u8"];
                   TG Brace ([TP "<"; generated_name] ++ ti_ty_generics input ++ [kw "as"] ++ trait_path l
                             ++ [TP ">"; TP "::"; kw "as_bytes"; TG Paren [kw "self"]])]]
        ++ [kw "unsafe"; kw "impl"] ++ ti_impl_generics input ++ bytemuck "Zeroable" ++ for_generated ++ [TG Brace []]   (* 238 *)
        ++ [kw "unsafe"; kw "impl"] ++ ti_impl_generics input ++ bytemuck "Pod" ++ for_generated ++ [TG Brace []]        (* 239 *)
        ++ [kw "unsafe"; kw "impl"] ++ ti_impl_generics input ++ trait_path l ++ for_generated                          (* 241-243 *)
        ++ [TG Brace ([kw "const"; kw "ALIGNMENT"; TP ":"; kw "usize"; TP "="] ++ struct_alignment_toks l fields ++ [TP ";"])]
        ++ [kw "impl"] ++ ti_impl_generics input ++ as_trait_path l ++ [kw "for"; TId (ti_ident input)]                 (* 245-261 *)
        ++ ti_ty_generics input ++ ti_where input
        ++ [TG Brace
             ([kw "type"; kw "Output"; TP "="; generated_name; TP ";";
               kw "fn"; as_trait_method l; TG Paren [TP "&"; kw "self"]; TP "->"; kw "Self"; TP "::"; kw "Output";
               TG Brace [kw "Self"; TP "::"; kw "Output";
                         TG Brace (field_init_toks l fields ++ [TP ".."] ++ bytemuck "Zeroable" ++ [TP "::"; kw "zeroed"; TG Paren []])];
               kw "fn"; from_trait_method l; TG Paren [kw "input"; TP ":"; kw "Self"; TP "::"; kw "Output"]; TP "->"; kw "Self";
               TG Brace [kw "Self"; TG Brace (input_init_toks l fields)]])])%list
    | _, _ => None
    end
  | TUnnamed | TUnit | TEnum | TUnion => None
  end.

(** the generated code *)
(* /repo/crevice-derive/src/layout.rs:227-264, without [#debug_methods]. *)
Definition emit_toks (l : lay) (input : tok_input) : option (list tok) :=
  match emit_parts l input with
  | Some (pad_fn_impls, struct_definition, impls) => Some (pad_fn_impls ++ struct_definition ++ impls)%list
  | None => None
  end.

(** the tokens that [debug_definitions] prints *)
(* /repo/crevice-derive/src/layout.rs:215-220. *)
Definition debug_definitions (l : lay) (input : tok_input) : option (list tok) :=
  match emit_parts l input with
  | Some (pad_fn_impls, struct_definition, _) => Some (struct_definition ++ pad_fn_impls)%list
  | None => None
  end.
