(** * Property theorems (generated from Proofs_Declare.v by tools/genprops.py; statements only) *)

From Coq Require Import NArith String Bool List Lia ZArith PeanoNat.
From Coq Require Import ZifyBool ZifyN ZifyNat.
From Coq Require Import Strings.Byte.
From Verif Require Import Proofs_Declare Rust Internal Prims Derive Host Rows Buffer SpecGlsl SpecHost SpecTypes SpecBuf
  Arith RustFacts DeriveFacts TypeFacts HostFacts GlslFacts BufferFacts WriterFacts GpuFacts Proofs_Types Proofs_Buffer Proofs_Struct Samples.
Import ListNotations.
Local Open Scope string_scope.
Local Open Scope N_scope.


(** C80.  Where a matrix was written, a shader that declares the array of its column vectors
    instead ([vec3 m[3]] for [mat3 m], rule 5 of the layout rules) sees the columns; the two
    declarations have the same size and alignment. *)
Theorem C80_matrix_as_columns : forall tg l h t s c r v bs buf off,
  target_ok tg = true -> out_ty tg l h = Some t -> gty_of h = Some (GMat s c r) -> hval_ok tg h v = true ->
  as_std_bytes tg l h v = Some bs -> read_at buf off (len bs) = Some bs ->
  base_align l (GArr (GVec s r) c) = base_align l (GMat s c r)
  /\ gsize l (GArr (GVec s r) c) = gsize l (GMat s c r)
  /\ exists cols, gval_of tg h v = Some (GVMat cols) /\ length cols = c
       /\ gread tg l (GArr (GVec s r) c) buf off = Some (GVArr cols).
Proof. exact C80_matrix_as_columns_proof. Qed.
Print Assumptions C80_matrix_as_columns.

(** C80.  Where a vector was written, a shader sees component [k] in a scalar declared [k]
    scalar sizes further; in std430 also in an array of scalars. *)
Theorem C80_vector_as_scalars : forall tg l h t s n v bs buf off,
  target_ok tg = true -> out_ty tg l h = Some t -> gty_of h = Some (GVec s n) -> hval_ok tg h v = true ->
  as_std_bytes tg l h v = Some bs -> read_at buf off (len bs) = Some bs ->
  exists cs, gval_of tg h v = Some (GVVec cs) /\ length cs = n
    /\ (forall k x, nth_error cs k = Some x -> gread tg l (GScalar s) buf (off + N.of_nat k * scalar_size s) = Some x)
    /\ gread tg L430 (GArr (GScalar s) n) buf off = Some (GVArr cs).
Proof. exact C80_vector_as_scalars_proof. Qed.
Print Assumptions C80_vector_as_scalars.

(** in std140 the array of scalars is not where the components of the vector are *)
Theorem C80_std140_scalar_array_refuted :
  exists bs, as_std_bytes x86_64 L140 vec3f (v3 1 2 3) = Some bs
  /\ gread x86_64 L140 (GVec GFloat 3) bs 0 = Some (GVVec [GVBits 1; GVBits 2; GVBits 3])
  /\ gread x86_64 L140 (GArr (GScalar GFloat) 3) (bs ++ repeat x00 24)%list 0 = Some (GVArr [GVBits 1; GVBits 0; GVBits 0]).
Proof. exact C80_std140_scalar_array_refuted_proof. Qed.
Print Assumptions C80_std140_scalar_array_refuted.

(** C80.  A struct with a single field is the field followed by zero bytes up to a multiple of
    ALIGNMENT, which is that of the field (at least 16 in std140); hence a shader may declare the
    field itself in its place. *)
Theorem C80_newtype : forall tg l name f h t v bs bs' a,
  target_ok tg = true -> out_ty tg l (HStruct name [(f, h)]) = Some t ->
  hval_ok tg h v = true -> as_std_bytes tg l h v = Some bs -> out_align tg l h = Some a ->
  as_std_bytes tg l (HStruct name [(f, h)]) (HVRec [(f, v)]) = Some bs' ->
  let A := N.max a (match l with L140 => 16 | L430 => 0 end) in
  std_align l t = Some A
  /\ (exists k, bs' = (bs ++ repeat x00 k)%list)
  /\ len bs' = next_aligned (len bs) A
  /\ (forall g buf off, gty_of h = Some g -> read_at buf off (len bs') = Some bs' ->
        exists x, gval_of tg h v = Some x /\ gread tg l g buf off = Some x).
Proof. exact C80_newtype_proof. Qed.
Print Assumptions C80_newtype.

Example C80_ex :
  (exists t bs, out_ty x86_64 L140 mat3f = Some t /\ gty_of mat3f = Some (GMat GFloat 3 3)
     /\ as_std_bytes x86_64 L140 mat3f (HVRec [("x", v3 1 2 3); ("y", v3 4 5 6); ("z", v3 7 8 9)]) = Some bs
     /\ gread x86_64 L140 (GArr (GVec GFloat 3) 3) bs 0
        = Some (GVArr [GVVec [GVBits 1; GVBits 2; GVBits 3]; GVVec [GVBits 4; GVBits 5; GVBits 6]; GVVec [GVBits 7; GVBits 8; GVBits 9]]))
  /\ (exists bs, as_std_bytes x86_64 L430 vec3f (v3 1 2 3) = Some bs
     /\ gread x86_64 L430 (GArr (GScalar GFloat) 3) bs 0 = Some (GVArr [GVBits 1; GVBits 2; GVBits 3]))
  /\ (exists t bs bs', out_ty x86_64 L140 foo_s = Some t /\ foo_s = HStruct "Foo" [("x", HPrim PF32)]
     /\ as_std_bytes x86_64 L140 (HPrim PF32) (bits 5) = Some bs
     /\ as_std_bytes x86_64 L140 foo_s (HVRec [("x", bits 5)]) = Some bs' /\ len bs = 4 /\ len bs' = 16).
Proof. exact C80_ex_proof. Qed.
