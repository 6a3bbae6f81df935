(** * Property theorems (generated from Proofs_Equality.v by tools/genprops.py; statements only) *)

From Coq Require Import NArith String Bool List Lia ZArith.
From Coq Require Import ZifyBool ZifyN ZifyNat.
From Coq Require Import Strings.Byte.
From Verif Require Import Proofs_Equality Rust Internal Prims Derive Host Rows Buffer Equality SpecEq SpecBuf SpecGlsl SpecHost SpecTypes
  Arith RustFacts DeriveFacts TypeFacts HostFacts Samples Proofs_Types.
Import ListNotations.
Local Open Scope string_scope.
Local Open Scope N_scope.


(** C67.  [==] on the std140 vector types compares component by component: integers and booleans
    by their words; floating-point numbers by value, so that the two zeros are equal and NaN is
    unequal to everything. *)
Theorem C67_vector_equality : forall r xs ys, In r vectors140 ->
  length xs = length (vr_fields r) -> length ys = length (vr_fields r) ->
  Forall (fun x => pbits_ok (vr_prim r) x = true) xs -> Forall (fun y => pbits_ok (vr_prim r) y = true) ys ->
  exists b, std_eq (vec_sty L140 r) (vec_of r xs) (vec_of r ys) = Some b
    /\ (b = true <-> Forall2 (comp_same (vr_prim r)) xs ys).
Proof. exact C67_vector_equality_proof. Qed.
Print Assumptions C67_vector_equality.

(** C67.  [==] is symmetric and transitive, and reflexive exactly on vectors without NaN. *)
Theorem C67_equivalence : forall r xs ys zs, In r vectors140 ->
  Forall (fun vs => length vs = length (vr_fields r) /\ Forall (fun x => pbits_ok (vr_prim r) x = true) vs) [xs; ys; zs] ->
  let eq a b := std_eq (vec_sty L140 r) (vec_of r a) (vec_of r b) in
  eq xs ys = eq ys xs
  /\ (eq xs ys = Some true -> eq ys zs = Some true -> eq xs zs = Some true)
  /\ (eq xs xs = Some true <-> Forall (fun x => ~ comp_nan (vr_prim r) x) xs).
Proof. exact C67_equivalence_proof. Qed.
Print Assumptions C67_equivalence.

(** C67.  Vectors that are equal and have no floating-point zero have the same bytes; vectors
    with the same bytes and no NaN are equal.  So for integer and boolean vectors [==] is
    equality of the bytes. *)
Theorem C67_equality_and_bytes : forall tg r xs ys, target_ok tg = true -> In r vectors140 ->
  length xs = length (vr_fields r) -> length ys = length (vr_fields r) ->
  Forall (fun x => pbits_ok (vr_prim r) x = true) xs -> Forall (fun y => pbits_ok (vr_prim r) y = true) ys ->
  let t := vec_sty L140 r in
  (std_eq t (vec_of r xs) (vec_of r ys) = Some true -> Forall (fun x => ~ comp_fzero (vr_prim r) x) xs ->
     bytes_of tg t (vec_of r xs) = bytes_of tg t (vec_of r ys))
  /\ (bytes_of tg t (vec_of r xs) = bytes_of tg t (vec_of r ys) -> Forall (fun x => ~ comp_nan (vr_prim r) x) xs ->
     std_eq t (vec_of r xs) (vec_of r ys) = Some true).
Proof. exact C67_equality_and_bytes_proof. Qed.
Print Assumptions C67_equality_and_bytes.

(** C67.  [==] is neither equality of the bytes nor of what a shader sees: a vector with NaN is
    not equal to itself, vectors that differ in the sign of a zero are equal, and boolean
    vectors whose components are the same for a shader can be unequal. *)
Theorem C67_equality_is_sameness_refuted : forall tg, target_ok tg = true ->
  exists v3 b2, In v3 vectors140 /\ In b2 vectors140 /\ vr_glsl v3 = "vec3" /\ vr_glsl b2 = "bvec2"
  /\ std_eq (vec_sty L140 v3) (vec_of v3 [2143289344; 0; 0]) (vec_of v3 [2143289344; 0; 0]) = Some false
  /\ std_eq (vec_sty L140 v3) (vec_of v3 [0; 0; 0]) (vec_of v3 [2147483648; 0; 0]) = Some true
  /\ bytes_of tg (vec_sty L140 v3) (vec_of v3 [0; 0; 0]) <> bytes_of tg (vec_sty L140 v3) (vec_of v3 [2147483648; 0; 0])
  /\ std_eq (vec_sty L140 b2) (vec_of b2 [1; 0]) (vec_of b2 [2; 0]) = Some false
  /\ map bool_from_Bool [1; 0] = map bool_from_Bool [2; 0].
Proof. exact C67_equality_is_sameness_refuted_proof. Qed.
Print Assumptions C67_equality_is_sameness_refuted.

(** C67: two dvec4 values, equal although one has a negative zero; one with another last component. *)
Example C67_ex :
  let r := VecRow 32 "dvec4" "DVec4" PF64 ["x"; "y"; "z"; "w"] in
  let a := [0; 4607182418800017408; 9218868437227405312; 5] in
  let b := [9223372036854775808; 4607182418800017408; 9218868437227405312; 5] in
  let c := [0; 4607182418800017408; 9218868437227405312; 6] in
  In r vectors140 /\ Forall (fun vs => length vs = length (vr_fields r) /\ Forall (fun x => pbits_ok (vr_prim r) x = true) vs) [a; b; c]
  /\ std_eq (vec_sty L140 r) (vec_of r a) (vec_of r b) = Some true
  /\ std_eq (vec_sty L140 r) (vec_of r a) (vec_of r c) = Some false
  /\ fdecode 8 23 1065353216 = FFin (2 ^ 149)%Z /\ fdecode 8 23 3212836864 = FFin (- 2 ^ 149)%Z.
Proof. exact C67_ex_proof. Qed.
