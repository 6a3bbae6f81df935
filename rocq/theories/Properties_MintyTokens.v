(** * Property theorems (generated from Proofs_MintyTokens.v by tools/genprops.py; statements only) *)

From Coq Require Import NArith String Bool List Lia ZArith PeanoNat.
From Coq Require Import ZifyBool ZifyN ZifyNat.
From Verif Require Import Proofs_MintyTokens Rust Internal Prims Derive GlslGen Tokens SpecTokens SpecGlslTokens EasyTokens SpecEasyTokens MintyTokens SpecMintyTokens Proofs_Tokens Proofs_GlslTokens.
Import ListNotations.
Local Open Scope string_scope.


(** C96.  Whatever a row of [minty_impl!] is, its expansion, read as Rust, is the impls of [AsStd140], [AsStd430] and [Glsl] for the row's type
    that take [Output], both conversions and the GLSL name from the row's type of mint, with [into] between the two types. *)
Theorem C96_code : forall r, (forall b, ~ In (TG Brace b) (mn_ty r)) -> balanced 0 (mn_mint r) = true -> ~ In (TP "=") (mn_mint r) ->
  let c := Via (mn_ty r) (mn_mint r) (mn_mint r) (mn_mint r) in
  read_via (minty_toks r) = Some (c, c, mn_ty r, mn_mint r).
Proof. exact C96_code_proof. Qed.
Print Assumptions C96_code.

Example C96_ex :
  let v := MintyRow [kw "mint"; TP "::"; kw "Vector2"; TP "<"; kw "f32"; TP ">"] [kw "Vector2"; TP "<"; kw "f32"; TP ">"] in
  (forall b, ~ In (TG Brace b) (mn_ty v)) /\ balanced 0 (mn_mint v) = true /\ ~ In (TP "=") (mn_mint v)
  /\ option_map snd (read_via (minty_toks v)) = Some (mn_mint v)
  /\ read_via (minty_toks v ++ minty_toks v)%list = None.
Proof. exact C96_ex_proof. Qed.
