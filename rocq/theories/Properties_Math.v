(** * Property theorems (generated from Proofs_Math.v by tools/genprops.py; statements only) *)

From Coq Require Import NArith String Bool List Lia ZArith PeanoNat.
From Coq Require Import ZifyBool ZifyN ZifyNat.
From Coq Require Import Strings.Byte.
From Verif Require Import Proofs_Math Rust Internal Prims Derive Host Rows Buffer SpecGlsl SpecHost SpecTypes SpecMath
  Arith RustFacts DeriveFacts TypeFacts HostFacts GlslFacts BufferFacts Proofs_Types Proofs_Buffer Samples.
Import ListNotations.
Local Open Scope string_scope.
Local Open Scope N_scope.


(** C25.  The value with components [cs] of each supported vector type is a value of that type,
    and in both layouts a shader sees in its bytes the vector with these components, [x] first; a
    [bool] component is seen as that truth value. *)
Theorem C25_vector_values : forall name s n, In (name, GVec s n) math_names ->
  exists h, In (Some h) all_math_types /\ rust_name h = name
    /\ forall tg l cs xs, target_ok tg = true -> length cs = n -> Forall2 (scalar_is s) cs xs ->
       hval_ok tg h (math_value h cs) = true
       /\ exists bs, as_std_bytes tg l h (math_value h cs) = Some bs /\ gread tg l (GVec s n) bs 0 = Some (GVVec xs).
Proof. exact C25_vector_values_proof. Qed.
Print Assumptions C25_vector_values.

(** C25.  Likewise for matrices, by columns. *)
Theorem C25_matrix_values : forall name s c r, In (name, GMat s c r) math_names ->
  exists h, In (Some h) all_math_types /\ rust_name h = name
    /\ forall tg l cols xss, target_ok tg = true -> length cols = c ->
       Forall2 (fun col xs => length col = r /\ Forall2 (scalar_is s) col xs) cols xss ->
       hval_ok tg h (math_value h (map fields_of cols)) = true
       /\ exists bs, as_std_bytes tg l h (math_value h (map fields_of cols)) = Some bs
            /\ gread tg l (GMat s c r) bs 0 = Some (GVMat (map GVVec xss)).
Proof. exact C25_matrix_values_proof. Qed.
Print Assumptions C25_matrix_values.

(** [mint::Vector3<bool>] and [glam::Mat2] *)
Example C25_values_ex :
  In ("mint::Vector3<bool>", GVec GBool 3) math_names
  /\ Forall2 (scalar_is GBool) [HVBool true; HVBool false; HVBool true] [GVBool true; GVBool false; GVBool true]
  /\ In ("glam::Mat2", GMat GFloat 2 2) math_names
  /\ Forall2 (fun col xs => length col = 2%nat /\ Forall2 (scalar_is GFloat) col xs)
       [[HVBits 1; HVBits 2]; [HVBits 3; HVBits 4]] [[GVBits 1; GVBits 2]; [GVBits 3; GVBits 4]].
Proof. exact C25_values_ex_proof. Qed.
