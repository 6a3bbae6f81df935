(** * Property theorems (generated from Proofs_GlslTokens.v by tools/genprops.py; statements only) *)

From Coq Require Import NArith String Bool List Lia ZArith PeanoNat.
From Coq Require Import ZifyBool ZifyN ZifyNat.
From Verif Require Import Proofs_GlslTokens Rust Internal Prims Derive GlslGen Tokens SpecTokens GlslTokens SpecGlslTokens Proofs_Tokens.
Import ListNotations.
Local Open Scope string_scope.


(** C93.  The tokens that [derive(GlslStruct)] generates, read as Rust, are one impl of [Glsl] and one of [GlslStruct], both with the
    generic parameters, arguments and where clause of the struct, with the name and the fields of GlslGen.v. *)
Theorem C93_code : forall R input n fields fs ts,
  generics_ok (ti_impl_generics input) -> generics_ok (ti_ty_generics input) -> where_ok (ti_where input) ->
  ti_data input = Tokens.TNamed fields ->
  Forall2 (fun f nt => fst nt = fst f /\ balanced 0 (snd f) = true /\ R (snd f) = Some (snd nt)) fields fs ->
  glsl_toks input = Some ts ->
  exists g, glsl_emit (GlslInput (ti_ident input) n (LNamed fs)) = Some g
    /\ let h := Header (ti_impl_generics input) (ti_ident input) (ti_ty_generics input) (ti_where input) in
       read_glsl R ts = Some (h, h, g).
Proof. exact C93_code_proof. Qed.
Print Assumptions C93_code.

(** C93.  The macro generates code for exactly the structs with named fields. *)
Theorem C93_emits : forall input, glsl_toks input <> None <-> exists fields, ti_data input = Tokens.TNamed fields.
Proof. exact C93_emits_proof. Qed.
Print Assumptions C93_emits.

Example C93_ex :
  generics_ok (ti_impl_generics light_input) /\ generics_ok (ti_ty_generics light_input) /\ where_ok (ti_where light_input)
  /\ (let ts := match glsl_toks light_input with Some ts => ts | None => [] end in
      let h := Header [TP "<"; kw "T"; TP ":"; kw "Glsl"; TP ">"] (Ident false "Light") [TP "<"; kw "T"; TP ">"] [kw "where"; kw "T"; TP ":"; kw "Copy"] in
      read_glsl light_types ts = Some (h, h, {| gl_name := "Light"; gl_fields := [(FNamed "vec3", "pos"); (FParam 0, "r#in")] |})
      /\ read_glsl light_types (ts ++ ts)%list = None).
Proof. exact C93_ex_proof. Qed.
