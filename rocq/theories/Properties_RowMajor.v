(** * Property theorems (generated from Proofs_RowMajor.v by tools/genprops.py; statements only) *)

From Coq Require Import NArith String Bool List Lia ZArith.
From Coq Require Import ZifyBool ZifyN ZifyNat.
From Coq Require Import Strings.Byte PeanoNat.
From Verif Require Import Proofs_RowMajor Rust Internal Prims Derive Host Rows SpecGlsl SpecHost SpecRowMajor
  Arith RustFacts TypeFacts HostFacts GlslFacts GpuFacts Samples Proofs_Types.
Import ListNotations.
Local Open Scope string_scope.
Local Open Scope N_scope.


(** C78.  If the bytes of a value are in a buffer and a shader declares a variable of the
    corresponding type there in a [layout(row_major)] block: all offsets, sizes and alignments
    are the same as in a column-major block, and the shader sees the value with every matrix in
    it transposed, everything else unchanged. *)
Theorem C78_row_major_transposes : forall tg l h t g v bs buf off,
  target_ok tg = true -> out_ty tg l h = Some t -> gty_of h = Some g -> hval_ok tg h v = true ->
  as_std_bytes tg l h v = Some bs -> read_at buf off (len bs) = Some bs ->
  rm_align l g = base_align l g /\ rm_size l g = gsize l g
  /\ exists x y, gval_of tg h v = Some x /\ rm_read tg l g buf off = Some y /\ flipped x y.
Proof. exact C78_row_major_transposes_proof. Qed.
Print Assumptions C78_row_major_transposes.

(** C78.  A row-major shader sees the value itself exactly if every matrix in it is symmetric. *)
Theorem C78_same_iff_symmetric : forall tg l h t g v bs buf off x,
  target_ok tg = true -> out_ty tg l h = Some t -> gty_of h = Some g -> hval_ok tg h v = true ->
  as_std_bytes tg l h v = Some bs -> read_at buf off (len bs) = Some bs -> gval_of tg h v = Some x ->
  (rm_read tg l g buf off = Some x <-> flipped x x).
Proof. exact C78_same_iff_symmetric_proof. Qed.
Print Assumptions C78_same_iff_symmetric.

(** C78.  Host and row-major shader: what the host reads from a buffer ([from_bytes],
    [from_stdN]) is the transpose of what such a shader reads from the same bytes, so a shader
    storing into a row-major block is seen transposed. *)
Theorem C78_host_reads_transposed : forall tg l h t g buf off bs,
  target_ok tg = true -> out_ty tg l h = Some t -> gty_of h = Some g ->
  read_at buf off (size_of tg t) = Some bs ->
  exists s v x y, from_bytes tg t bs = Some s /\ from_std tg l h s = Some v
    /\ gval_of tg h v = Some x /\ rm_read tg l g buf off = Some y /\ flipped x y.
Proof. exact C78_host_reads_transposed_proof. Qed.
Print Assumptions C78_host_reads_transposed.

(** C78: a struct with a mat3 and a float. *)
Example C78_ex :
  exists t g bs x y, out_ty x86_64 L140 mat3_padding = Some t /\ gty_of mat3_padding = Some g
  /\ (let v := HVRec [("one", HVRec [("x", v3 1 2 3); ("y", v3 4 5 6); ("z", v3 7 8 9)]); ("two", bits 10)] in
      hval_ok x86_64 mat3_padding v = true /\ as_std_bytes x86_64 L140 mat3_padding v = Some bs
      /\ gval_of x86_64 mat3_padding v = Some x)
  /\ rm_read x86_64 L140 g bs 0 = Some y
  /\ (exists f, x = GVStruct [("one", GVMat [GVVec [GVBits 1; GVBits 2; GVBits 3]; GVVec [GVBits 4; GVBits 5; GVBits 6]; GVVec [GVBits 7; GVBits 8; GVBits 9]]); f])
  /\ (exists f, y = GVStruct [("one", GVMat [GVVec [GVBits 1; GVBits 4; GVBits 7]; GVVec [GVBits 2; GVBits 5; GVBits 8]; GVVec [GVBits 3; GVBits 6; GVBits 9]]); f]).
Proof. exact C78_ex_proof. Qed.
