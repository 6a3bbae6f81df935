(** * Property theorems (generated from Proofs_Change.v by tools/genprops.py; statements only) *)

From Coq Require Import NArith String Bool List Lia ZArith Permutation.
From Coq Require Import ZifyBool ZifyN ZifyNat.
From Coq Require Import Strings.Byte.
From Verif Require Import Proofs_Change Rust Internal Prims Derive Host Rows Buffer SpecBuf SpecGlsl SpecHost SpecTypes SpecUse SpecEvolve SpecChange
  Arith RustFacts DeriveFacts TypeFacts SpecLayout LayoutFacts HostFacts GlslFacts PadFacts BufferFacts WriterFacts Samples
  Proofs_Buffer Proofs_Types Proofs_Struct Proofs_Use Proofs_Evolve Proofs_Cast.
Import ListNotations.
Local Open Scope string_scope.
Local Open Scope N_scope.


(** C64.  Two histories that write values of the same types in the same order, all
    operations succeeding, send the same number of bytes to the sink, and they send the same
    bytes exactly when all values are the same: comparing the bytes of two frames detects
    every change and reports no change that is not there.  (No bound on the total: also when
    [len()] wraps around.) *)
Theorem C64_bytes_detect_changes : forall W tg l (wi : write_impl W) delivered i1 i2 os1 os2 w1 w2 rs1 rs2,
  target_ok tg = true -> lawful wi delivered ->
  Forall (op_ok tg l) os1 -> Forall (op_ok tg l) os2 -> Forall2 same_op os1 os2 ->
  run_ops tg l wi os1 (writer_new i1) = (w1, rs1) -> all_ok rs1 ->
  run_ops tg l wi os2 (writer_new i2) = (w2, rs2) -> all_ok rs2 ->
  exists img1 img2,
    delivered (w_inner w1) = (delivered i1 ++ img1)%list /\ delivered (w_inner w2) = (delivered i2 ++ img2)%list
    /\ len img1 = len img2
    /\ (img1 = img2 <-> os1 = os2).
Proof. exact C64_bytes_detect_changes_proof. Qed.
Print Assumptions C64_bytes_detect_changes.

(** C64.  For slices of one type (of nonzero size) the lengths need not agree beforehand:
    the bytes are the same exactly when the slices are. *)
Theorem C64_slices : forall W tg l (wi : write_impl W) delivered i1 i2 h t vs1 vs2 w1 w2 o1 o2,
  target_ok tg = true -> lawful wi delivered ->
  out_ty tg l h = Some t -> 0 < size_of tg t ->
  Forall (fun v => hval_ok tg h v = true) vs1 -> Forall (fun v => hval_ok tg h v = true) vs2 ->
  writer_write tg l wi (writer_new i1) (WSeq (map (WLeaf h) vs1)) = (w1, WOk o1) ->
  writer_write tg l wi (writer_new i2) (WSeq (map (WLeaf h) vs2)) = (w2, WOk o2) ->
  exists img1 img2,
    delivered (w_inner w1) = (delivered i1 ++ img1)%list /\ delivered (w_inner w2) = (delivered i2 ++ img2)%list
    /\ (img1 = img2 <-> vs1 = vs2).
Proof. exact C64_slices_proof. Qed.
Print Assumptions C64_slices.

(** C64: a frame and the same frame with one NaN payload changed; the condition on the size is
    needed, slices of empty structs all have no bytes in std430. *)
Example C64_ex :
  let os1 := sample_ops in
  let os2 := [OpWrite (WLeaf (HPrim PU32) (bits 2)); OpWrite (WSeq [WLeaf point_light light1; WLeaf point_light (HVRec [("position", v3 7 8 9); ("color", v3 10 11 12); ("brightness", bits 2143289345)])]);
              OpIter [WLeaf HBool (HVBool true)]; OpStd (TPrim PF64) (SBits 5)] in
  Forall2 same_op os1 os2 /\ os1 <> os2
  /\ (exists w1 rs1 w2 rs2, run_ops x86_64 L140 vec_sink os1 (writer_new []) = (w1, rs1) /\ all_ok rs1
        /\ run_ops x86_64 L140 vec_sink os2 (writer_new []) = (w2, rs2) /\ all_ok rs2
        /\ len (w_inner w1) = len (w_inner w2) /\ w_inner w1 <> w_inner w2)
  /\ (let e := HStruct "Empty" [] in
      writer_write x86_64 L430 vec_sink (writer_new []) (WSeq [WLeaf e (HVRec [])])
      = writer_write x86_64 L430 vec_sink (writer_new []) (WSeq [WLeaf e (HVRec []); WLeaf e (HVRec [])])).
Proof. exact C64_ex_proof. Qed.

(** C65.  Replacing one value after the fact: copying [v'.as_stdN().as_bytes()] over the bytes
    at the offset [write] returned for [v] gives exactly the buffer that writing [v'] in its
    place would have produced; the offsets of all values stay the same. *)
Theorem C65_update_in_place : forall tg l pre h v v' post w offs o bs',
  target_ok tg = true -> typed_all tg l (pre ++ (h, v) :: post)%list -> hval_ok tg h v' = true ->
  write_vals tg l vec_sink (map leaf (pre ++ (h, v) :: post)) (writer_new []) = (w, (offs, None)) ->
  (t_checks tg = true \/ len (w_inner w) < umod tg) ->
  nth_error offs (length pre) = Some o -> as_std_bytes tg l h v' = Some bs' ->
  exists w', write_vals tg l vec_sink (map leaf (pre ++ (h, v') :: post)) (writer_new []) = (w', (offs, None))
    /\ copy_at (w_inner w) o bs' = Some (w_inner w').
Proof. exact C65_update_in_place_proof. Qed.
Print Assumptions C65_update_in_place.

(** C65: the scene in the middle of a buffer is replaced. *)
Example C65_ex :
  let pre := [(HPrim PU32, bits 2); (point_light, light1)] in
  let post := [(HBool, HVBool true)] in
  typed_all x86_64 L140 (pre ++ (vec3f, v3 1 2 3) :: post)%list /\ hval_ok x86_64 vec3f (v3 4 5 6) = true
  /\ exists w bs w', write_vals x86_64 L140 vec_sink (map leaf (pre ++ (vec3f, v3 1 2 3) :: post)) (writer_new []) = (w, ([0; 16; 48; 60], None))
       /\ as_std_bytes x86_64 L140 vec3f (v3 4 5 6) = Some bs
       /\ write_vals x86_64 L140 vec_sink (map leaf (pre ++ (vec3f, v3 4 5 6) :: post)) (writer_new []) = (w', ([0; 16; 48; 60], None))
       /\ copy_at (w_inner w) 48 bs = Some (w_inner w') /\ w_inner w <> w_inner w'.
Proof. exact C65_ex_proof. Qed.

(** C66.  Reordering the fields of a derived struct does not change its ALIGNMENT, and the size
    is never less than the sum of the field sizes.  If the fields are in order of decreasing
    ALIGNMENT and the size of each is a multiple of its ALIGNMENT, there is no padding between
    fields and no other order gives a smaller struct. *)
Theorem C66_field_order : forall tg l name name' fs fs' t t' ms,
  target_ok tg = true -> Permutation fs fs' ->
  out_ty tg l (HStruct name fs) = Some t -> out_ty tg l (HStruct name' fs') = Some t' ->
  field_metrics tg l fs = Some ms ->
  std_align l t' = std_align l t
  /\ sum_sizes ms <= size_of tg t'
  /\ (decreasing ms -> full ms ->
        size_of tg t <= size_of tg t'
        /\ exists offs, map (fun nf => assoc (fst nf) (field_offsets tg t)) fs = map Some offs
             /\ contiguous 0 (map snd ms) offs (sum_sizes ms)).
Proof. exact C66_field_order_proof. Qed.
Print Assumptions C66_field_order.

(** C66.  The condition on the sizes is needed: with 3-vectors (12 bytes, aligned to 16)
    decreasing ALIGNMENT is not the best order. *)
Theorem C66_decreasing_alignment_refuted : forall l,
  let fs := [("a", vec3f); ("b", vec3f); ("c", HPrim PF32); ("d", HPrim PF32)] in
  let fs' := [("a", vec3f); ("c", HPrim PF32); ("b", vec3f); ("d", HPrim PF32)] in
  Permutation fs fs' /\ (exists ms, field_metrics x86_64 l fs = Some ms /\ decreasing ms)
  /\ std_size_static x86_64 l (HStruct "S" fs) = Some 48 /\ std_size_static x86_64 l (HStruct "S" fs') = Some 32.
Proof. exact C66_decreasing_alignment_refuted_proof. Qed.
Print Assumptions C66_decreasing_alignment_refuted.

(** C66: a struct with a matrix, a double and a float in the good order and in another one. *)
Example C66_ex :
  let fs := [("m", mat3f); ("d", HPrim PF64); ("x", HPrim PF32)] in
  let fs' := [("x", HPrim PF32); ("m", mat3f); ("d", HPrim PF64)] in
  Permutation fs fs'
  /\ (exists ms, field_metrics x86_64 L430 fs = Some ms /\ decreasing ms /\ full ms /\ sum_sizes ms = 60)
  /\ std_size_static x86_64 L430 (HStruct "S" fs) = Some 64 /\ std_size_static x86_64 L430 (HStruct "S" fs') = Some 80.
Proof. exact C66_ex_proof. Qed.
