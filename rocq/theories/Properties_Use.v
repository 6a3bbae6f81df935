(** * Property theorems (generated from Proofs_Use.v by tools/genprops.py; statements only) *)

From Coq Require Import NArith String Bool List Lia ZArith Permutation.
From Coq Require Import ZifyBool ZifyN ZifyNat.
From Coq Require Import Strings.Byte.
From Verif Require Import Proofs_Use Rust Internal Prims Derive Host Rows Buffer SpecBuf SpecGlsl SpecHost SpecTypes SpecUse
  Arith RustFacts DeriveFacts TypeFacts HostFacts GlslFacts PadFacts BufferFacts WriterFacts Samples
  Proofs_Buffer Proofs_Types Proofs_Struct.
Import ListNotations.
Local Open Scope string_scope.
Local Open Scope N_scope.


(** C54.  Asking a [Sizer] for the offsets, allocating [len()] zero bytes and copying the
    [as_stdN().as_bytes()] of each value to its offset — in any order — never goes out of
    bounds and produces the bytes a [Writer] produces. *)
Theorem C54_copying_by_hand : forall tg l xs ps places total os s bss order,
  target_ok tg = true -> typed_all tg l xs ->
  parts tg l (WSeq (map leaf xs)) = Some ps -> laid_out 0 ps places total ->
  (t_checks tg = true \/ total < umod tg) ->
  sizer_run tg l (map fst xs) sizer_new = Some (Done (os, s)) ->
  map_opt (fun x => as_std_bytes tg l (fst x) (snd x)) xs = Some bss ->
  Permutation order (combine os bss) ->
  exists w, write_vals tg l vec_sink (map leaf xs) (writer_new []) = (w, (os, None))
    /\ copy_all (repeat x00 (N.to_nat (sizer_len s))) order = Some (w_inner w).
Proof. exact C54_copying_by_hand_proof. Qed.
Print Assumptions C54_copying_by_hand.

(** C55.  After a sequence of successful writes, every value can be found again at the offset
    its [write] returned: the host reads it back with [from_bytes] and [from_stdN], and a
    shader that declares a variable of the corresponding GLSL type at that offset sees the
    value written. *)
Theorem C55_found_at_returned_offset : forall W tg l (wi : write_impl W) delivered inner xs w offs ps places total,
  target_ok tg = true -> lawful wi delivered -> typed_all tg l xs ->
  write_vals tg l wi (map leaf xs) (writer_new inner) = (w, (offs, None)) ->
  parts tg l (WSeq (map leaf xs)) = Some ps -> laid_out 0 ps places total ->
  (t_checks tg = true \/ total < umod tg) ->
  exists img, delivered (w_inner w) = (delivered inner ++ img)%list
  /\ length offs = length xs
  /\ forall i h v o, nth_error xs i = Some (h, v) -> nth_error offs i = Some o ->
       exists t a bs s, out_ty tg l h = Some t /\ std_align l t = Some a /\ aligned a o
         /\ read_at img o (size_of tg t) = Some bs
         /\ from_bytes tg t bs = Some s /\ from_std tg l h s = Some v
         /\ (forall g, gty_of h = Some g -> exists x, gval_of tg h v = Some x /\ gread tg l g img o = Some x).
Proof. exact C55_found_at_returned_offset_proof. Qed.
Print Assumptions C55_found_at_returned_offset.

(** C57.  Zeroed memory is the zero value: reading [size] zero bytes as [T::Output] gives
    [Zeroable::zeroed()], whose [as_bytes()] are zero, and the host ([from_stdN]) and a shader
    both see the value whose components are all zero (false). *)
Theorem C57_zeroed_memory : forall tg l h t,
  target_ok tg = true -> out_ty tg l h = Some t ->
  let zs := repeat x00 (N.to_nat (size_of tg t)) in
  from_bytes tg t zs = Some (zeroed t) /\ bytes_of tg t (zeroed t) = Some zs
  /\ exists v, from_std tg l h (zeroed t) = Some v /\ hval_ok tg h v = true
       /\ as_std_bytes tg l h v = Some zs
       /\ (forall g, gty_of h = Some g -> gval_of tg h v = Some (gzero g) /\ gread tg l g zs 0 = Some (gzero g)).
Proof. exact C57_zeroed_memory_proof. Qed.
Print Assumptions C57_zeroed_memory.

(** C56.  A slice of [DynamicUniform<T>] written by [std140::Writer]: element [i] is at
    [i * stride], where the stride is the size of [T] rounded up to 256 (so every element
    offset is usable as a dynamic offset on any device that allows multiples of 256), and
    at each of these offsets the host reads back the element and a shader declaring a [T]
    sees it.  std430 has no [DynamicUniform]. *)
Theorem C56_dynamic_slice : forall tg h n vs w offs,
  target_ok tg = true -> std_size_static tg L140 h = Some n ->
  Forall (fun v => hval_ok tg h v = true) vs ->
  write_vals tg L140 vec_sink (map (fun v => WLeaf (HDyn h) (HVDyn v)) vs) (writer_new []) = (w, (offs, None)) ->
  (t_checks tg = true \/ N.of_nat (length vs) * round_up n 256 < umod tg) ->
  offs = map (fun i => N.of_nat i * round_up n 256) (seq 0 (length vs))
  /\ (forall i v, nth_error vs i = Some v ->
        let o := N.of_nat i * round_up n 256 in
        (exists bs, as_std_bytes tg L140 h v = Some bs /\ read_at (w_inner w) o n = Some bs)
        /\ (forall g, gty_of h = Some g -> exists x, gval_of tg h v = Some x /\ gread tg L140 g (w_inner w) o = Some x)).
Proof. exact C56_dynamic_slice_proof. Qed.
Print Assumptions C56_dynamic_slice.

(** C56.  [DynamicUniform] is for std140 only: no type that contains one, however deeply, has
    a std430 version. *)
Theorem C56_std140_only : forall tg h, target_ok tg = true -> has_dyn h = true -> out_ty tg L430 h = None.
Proof. exact C56_std140_only_proof. Qed.
Print Assumptions C56_std140_only.

(** [C54]: the sample values, copied in reverse order *)
Example C54_ex :
  exists ps os s bss w, typed_all x86_64 L140 sample_xs
  /\ parts x86_64 L140 (WSeq (map leaf sample_xs)) = Some ps
  /\ sizer_run x86_64 L140 (map fst sample_xs) sizer_new = Some (Done (os, s))
  /\ map_opt (fun x => as_std_bytes x86_64 L140 (fst x) (snd x)) sample_xs = Some bss
  /\ write_vals x86_64 L140 vec_sink (map leaf sample_xs) (writer_new []) = (w, (os, None))
  /\ copy_all (repeat x00 (N.to_nat (sizer_len s))) (rev (combine os bss)) = Some (w_inner w)
  /\ os = [0; 16; 48; 64; 76; 96].
Proof. exact C54_ex_proof. Qed.

(** [C56]: two lights *)
Example C56_ex :
  exists w, write_vals x86_64 L140 vec_sink (map (fun v => WLeaf (HDyn point_light) (HVDyn v)) [light1; light2]) (writer_new [])
            = (w, ([0; 256], None))
  /\ std_size_static x86_64 L140 point_light = Some 32 /\ round_up 32 256 = 256
  /\ hval_ok x86_64 point_light light1 = true /\ hval_ok x86_64 point_light light2 = true
  /\ has_dyn (HDyn (HDyn point_light)) = true /\ out_ty x86_64 L140 (HDyn (HDyn point_light)) <> None.
Proof. exact C56_ex_proof. Qed.

(** [C57]: a struct with booleans and doubles *)
Example C57_ex :
  exists t g, out_ty x86_64 L140 contains_bools = Some t /\ gty_of contains_bools = Some g
  /\ gzero g = GVStruct [("x", GVBool false); ("y", GVVec [GVBool false; GVBool false])]
  /\ gread x86_64 L140 g (repeat x00 16) 0 = Some (gzero g).
Proof. exact C57_ex_proof. Qed.

(** C55: the sample values, written after three bytes of other output, satisfy the hypotheses. *)
Example C55_ex :
  exists w offs ps places total, typed_all x86_64 L140 sample_xs
  /\ write_vals x86_64 L140 vec_sink (map leaf sample_xs) (writer_new [xff; xfe; xfd]) = (w, (offs, None))
  /\ offs = [0; 16; 48; 64; 76; 96] /\ len (w_inner w) = 259
  /\ parts x86_64 L140 (WSeq (map leaf sample_xs)) = Some ps /\ laid_out 0 ps places total /\ t_checks x86_64 = true.
Proof. exact C55_ex_proof. Qed.
