(** * Property theorems (generated from Proofs_EasyTokens.v by tools/genprops.py; statements only) *)

From Coq Require Import NArith String Bool List Lia ZArith PeanoNat.
From Coq Require Import ZifyBool ZifyN ZifyNat.
From Verif Require Rows.
From Verif Require Import Proofs_EasyTokens Rust Internal Prims Derive Host GlslGen Tokens SpecTokens EasyTokens SpecEasyTokens Proofs_GlslTokens.
Import ListNotations.
Local Open Scope string_scope.


(** C95.  Whatever a row of [easy_impl!] is, its expansion, read as Rust, is the impls of [AsStd140], [AsStd430] and [Glsl] for the row's type:
    [Output] and what as_stdN builds are the row's layout type in the same module; every listed field, and no other, is converted to and
    from the field of the same name; the GLSL name is that of the row's layout type. *)
Theorem C95_code : forall r, (forall b, ~ In (TG Brace b) (er_ty r)) ->
  let c := Conversions (er_ty r) (er_std r) (er_std r) (map (fun f => (f, f)) (er_fields r)) (map (fun f => (f, f)) (er_fields r)) in
  read_easy (easy_toks r) = Some (c, c, er_ty r, er_std r).
Proof. exact C95_code_proof. Qed.
Print Assumptions C95_code.

(** C95.  So for every row of a table of a math library, the host type from which the properties of that library's types start is the one
    of the impls that the row expands to: the same layout type, the same fields in both directions, and its GLSL name. *)
Theorem C95_hosts : forall lib rows r h, Rows.row_hty lib rows r = Some h ->
  exists nm std fs c ty, h = HEasy nm std fs
    /\ read_easy (easy_toks (row_toks lib r)) = Some (c, c, ty, std)
    /\ c_ty c = ty /\ c_output c = std /\ c_built c = std
    /\ c_as c = map (fun f => (fst f, fst f)) fs /\ c_from c = map (fun f => (fst f, fst f)) fs
    /\ glsl_name h = std_glsl_name L140 std.
Proof. exact C95_hosts_proof. Qed.
Print Assumptions C95_hosts.

Example C95_ex :
  let v := EasyRow "Vec2" [kw "cgmath"; TP "::"; kw "Point2"; TP "<"; kw "f32"; TP ">"] ["x"; "y"] in
  (forall b, ~ In (TG Brace b) (er_ty v))
  /\ option_map (fun c => c_as (fst (fst (fst c)))) (read_easy (easy_toks v)) = Some [("x", "x"); ("y", "y")]
  /\ option_map snd (read_easy (easy_toks v)) = Some "Vec2"
  /\ read_easy (tl (easy_toks v)) = None.
Proof. exact C95_ex_proof. Qed.

(** the tables: every row has a host type *)
Example C95_ex_hosts :
  length (filter (fun r => match Rows.row_hty "mint" Rows.mint_rows r with Some _ => true | None => false end) Rows.mint_rows) = 31%nat
  /\ forallb (fun r => match Rows.row_hty "cgmath" Rows.cgmath_rows r with Some _ => true | None => false end) Rows.cgmath_rows = true.
Proof. exact C95_ex_hosts_proof. Qed.
