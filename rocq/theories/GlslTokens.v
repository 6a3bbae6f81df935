(** * /repo/crevice-derive/src/glsl.rs at the level of tokens

    GlslGen.v gives the impls that [derive(GlslStruct)] generates as data.  Here is the token stream itself,
    as [quote!] builds it; SpecGlslTokens.v reads it back as Rust. *)

From Coq Require Import NArith String Bool List.
From Verif Require Import Rust Derive GlslGen Tokens.
Import ListNotations.
Local Open Scope string_scope.

(* [::crevice::glsl::s], /repo/crevice-derive/src/glsl.rs:15-16, 28-29, 41. *)
Definition glsl_path (s : string) : list tok := [TP "::"; kw "crevice"; TP "::"; kw "glsl"; TP "::"; kw s].

(* /repo/crevice-derive/src/glsl.rs:23-33, and the comma of 42. *)
Definition glsl_field_toks (field : ident * list tok) : list tok :=
  (glsl_path "GlslField" ++
   [TG Brace ([kw "ty"; TP ":"; TP "<"] ++ snd field ++ [kw "as"] ++ glsl_path "Glsl" ++ [TP ">"; TP "::"; kw "NAME"; TP ",";
              kw "name"; TP ":"; TStr (ident_to_string (fst field)); TP ","]);
    TP ","])%list.

(* [&'static], /repo/crevice-derive/src/glsl.rs:37, 41. *)
Definition static_ref : list tok := [TP "&"; TP "'"; kw "static"].

(** [emit]; [None]: it panics *)
(* /repo/crevice-derive/src/glsl.rs:5-46. *)
Definition glsl_toks (input : tok_input) : option (list tok) :=
  match ti_data input with
  | TNamed fields =>
    let for_name := ([kw "for"; TId (ti_ident input)] ++ ti_ty_generics input ++ ti_where input)%list in
    Some ([kw "unsafe"; kw "impl"] ++ ti_impl_generics input ++ glsl_path "Glsl" ++ for_name ++                (* 36-38 *)
          [TG Brace ([kw "const"; kw "NAME"; TP ":"] ++ static_ref ++ [kw "str"; TP "="; TStr (ident_to_string (ti_ident input)); TP ";"])]
          ++ [kw "unsafe"; kw "impl"] ++ ti_impl_generics input ++ glsl_path "GlslStruct" ++ for_name ++       (* 40-44 *)
          [TG Brace ([kw "const"; kw "FIELDS"; TP ":"] ++ static_ref ++ [TG Brack (glsl_path "GlslField"); TP "="; TP "&";
                     TG Brack (flat_map glsl_field_toks fields); TP ";"])])%list
  | TUnnamed | TUnit | TEnum | TUnion => None
  end.
