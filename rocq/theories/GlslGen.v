(** * /repo/src/glsl.rs and /repo/crevice-derive/src/glsl.rs

    Names of types in GLSL, [derive(GlslStruct)] and [glsl_definition]. *)

From Coq Require Import NArith String Ascii Bool List.
From Verif Require Import Rust Internal Prims Derive Host.
Import ListNotations.
Local Open Scope string_scope.

(** ** [derive(GlslStruct)] *)

(** An identifier token; [id_raw] when written with the [r#] prefix.
    [proc_macro2::Ident::to_string] keeps the prefix. *)
(* syn's Ident, as used at /repo/crevice-derive/src/glsl.rs:18-19,25. *)
Record ident := Ident { id_raw : bool; id_name : string }.
(* /repo/crevice-derive/src/glsl.rs:19,25. *)
Definition ident_to_string (i : ident) : string :=
  if id_raw i then "r#" ++ id_name i else id_name i.

(** A field type, as far as this macro can tell types apart: a type that implements
    [Glsl] (represented by its [NAME]), one that does not, or a type parameter of
    the struct. *)
(* /repo/crevice-derive/src/glsl.rs:24,29. *)
Inductive glsl_fty :=
| FNamed (name : string)
| FNoGlsl
| FParam (index : nat).

(* /repo/crevice-derive/src/glsl.rs:6-13. *)
Inductive glsl_data :=
| LNamed (fs : list (ident * glsl_fty))
| LUnnamed
| LUnit
| LEnum
| LUnion.

(** syn's [DeriveInput]; attributes, visibility and where clauses dropped. *)
(* /repo/crevice-derive/src/glsl.rs:5,18,21. *)
Record glsl_input := GlslInput {
  gi_ident : ident;
  gi_generics : nat;          (* number of type parameters, all bounded by [Glsl] *)
  gi_data : glsl_data
}.

(** The generated impls: [const NAME] and [const FIELDS] (type, name). *)
(* /repo/crevice-derive/src/glsl.rs:35-45. *)
Record glsl_impl := GlslImpl {
  gl_name : string;
  gl_fields : list (glsl_fty * string)
}.

(** crevice-derive/src/glsl.rs:5-47 [emit]; [None] = panic (8-13), a compile error. *)
Definition glsl_emit (input : glsl_input) : option glsl_impl :=
  match gi_data input with
  | LNamed fields =>
    let name_str := ident_to_string (gi_ident input) in              (* 20 *)
    let glsl_fields :=                                               (* 24-34 *)
      map (fun field => (snd field, ident_to_string (fst field))) fields in
    Some {| gl_name := name_str; gl_fields := glsl_fields |}
  | LUnnamed => None
  | LUnit => None
  | LEnum => None
  | LUnion => None
  end.

(** rustc: [<ty as Glsl>::NAME] at an instantiation of the type parameters;
    [None] = the trait is not implemented (compile error). *)
(* /repo/crevice-derive/src/glsl.rs:29. *)
Definition fty_name (inst : list string) (t : glsl_fty) : option string :=
  match t with
  | FNamed n => Some n
  | FNoGlsl => None
  | FParam i => nth_error inst i
  end.

(** [Self::FIELDS] (src/glsl.rs:46-53, 62): pairs (ty, name) *)
Definition glsl_fields (inst : list string) (g : glsl_impl) : option (list (string * string)) :=
  map_opt (fun f => match fty_name inst (fst f) with
                    | Some ty => Some (ty, snd f) | None => None end) (gl_fields g).

(* /repo/src/glsl.rs:73. *)
Definition tab : string := String (ascii_of_nat 9) "".
(* /repo/src/glsl.rs:70,77. *)
Definition nl : string := String (ascii_of_nat 10) "".

(** src/glsl.rs:71-77, the loop over [Self::FIELDS]; [output] is the string so far *)
Fixpoint definition_loop (fields : list (string * string)) (output : string) : string :=
  match fields with
  | [] => output
  | (ty, name) :: rest =>
    let output := output ++ tab in
    let output := output ++ ty in
    let output := output ++ " " in
    let output := output ++ name in
    let output := output ++ (";" ++ nl) in
    definition_loop rest output
  end.

(** src/glsl.rs:65-81 [glsl_definition] *)
Definition glsl_text (name : string) (fields : list (string * string)) : string :=
  let output := "" in
  let output := output ++ "struct " in
  let output := output ++ name in
  let output := output ++ (" {" ++ nl) in
  let output := definition_loop fields output in
  output ++ "};".

(* /repo/src/glsl.rs:66-82. *)
Definition glsl_definition (inst : list string) (g : glsl_impl) : option string :=
  match glsl_fields inst g with
  | Some fs => Some (glsl_text (gl_name g) fs)
  | None => None
  end.

(** ** [Glsl::NAME] of the host types *)

(** src/glsl.rs:84-98; neither [bool] nor [Bool] implements [Glsl] *)
Definition prim_glsl (p : prim) : option string :=
  match p with
  | PF32 => Some "float" | PF64 => Some "double" | PI32 => Some "int" | PU32 => Some "uint"
  | PBool => None | PU8 => None
  end.

(** [<<h as AsStdL>::Output as Glsl>::NAME]: primitives are their own [Output];
    the built-in vector and matrix types implement [Glsl] (/repo/src/std{140,430}/primitives.rs:61-63,
    116-118); generated structs and [DynamicUniformStd140] do not. *)
Fixpoint out_glsl (l : lay) (h : hty) : option string :=
  match h with
  | HPrim p => prim_glsl p
  | HBool => None
  | HEasy _ std _ => std_glsl_name l std
  | HMinty _ m => out_glsl l m
  | HDyn _ => None
  | HStruct _ _ => None
  | HOut l' h' => out_glsl l' h'
  end.

(** [<h as Glsl>::NAME].  [HStruct] stands for a struct that also derives
    [GlslStruct] and whose name and field names are written without [r#]. *)
(* /repo/src/glsl.rs:85-99, /repo/src/std140/primitives.rs:61-63,116-118, /repo/src/std430/primitives.rs:61-63,116-118, /repo/src/util.rs:54-56,94-96, /repo/crevice-derive/src/glsl.rs:36-38. *)
Fixpoint glsl_name (h : hty) : option string :=
  match h with
  | HPrim p => prim_glsl p
  | HBool => None
  | HEasy _ std _ => std_glsl_name L140 std           (* /repo/src/util.rs:54-56 *)
  | HMinty _ m => glsl_name m                         (* /repo/src/util.rs:94-96 *)
  | HDyn _ => None
  | HStruct name fs =>
    let fields := map (fun nf => (Ident false (fst nf),
                                  match glsl_name (snd nf) with
                                  | Some n => FNamed n | None => FNoGlsl end)) fs in
    match glsl_emit (GlslInput (Ident false name) 0 (LNamed fields)) with
    | Some g => match glsl_fields [] g with Some _ => Some (gl_name g) | None => None end
    | None => None
    end
  | HOut l h' => out_glsl l h'
  end.

(** [<h as GlslStruct>::glsl_definition()] *)
(* /repo/crevice-derive/src/glsl.rs:35-45 and /repo/src/glsl.rs:66-82. *)
Definition struct_glsl (h : hty) : option string :=
  match h with
  | HStruct name fs =>
    let fields := map (fun nf => (Ident false (fst nf),
                                  match glsl_name (snd nf) with
                                  | Some n => FNamed n | None => FNoGlsl end)) fs in
    match glsl_emit (GlslInput (Ident false name) 0 (LNamed fields)) with
    | Some g => glsl_definition [] g
    | None => None
    end
  | _ => None
  end.
