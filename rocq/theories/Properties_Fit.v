(** * Property theorems (generated from Proofs_Fit.v by tools/genprops.py; statements only) *)

From Coq Require Import NArith String Bool List Lia ZArith.
From Coq Require Import ZifyBool ZifyN ZifyNat.
From Coq Require Import Strings.Byte.
From Verif Require Import Proofs_Fit Rust Internal Prims Derive Host Rows Buffer SpecBuf SpecGlsl SpecHost SpecTypes
  Arith RustFacts DeriveFacts TypeFacts HostFacts BufferFacts WriterFacts Samples
  Proofs_Buffer.
Import ListNotations.
Local Open Scope string_scope.
Local Open Scope N_scope.


(** C63.  Allocate [x.std140_size()] bytes for any writable value (slices, composites of
    dynamic size) and write it there: the write succeeds and fills the buffer exactly.  With
    any other buffer, the write succeeds exactly when the buffer is at least that large, the
    rest of the buffer is untouched; otherwise the error is [WriteZero] and the whole buffer
    holds the beginning of the image. *)
Theorem C63_presized_buffer : forall tg l x n buf ps places total,
  target_ok tg = true -> wval_ok tg l x ->
  parts tg l x = Some ps -> laid_out 0 ps places total -> total < umod tg ->
  std_size tg l x = Some (Done n) ->
  exists w r full, writer_write tg l slice_sink (writer_new ([], buf)) x = (w, r)
    /\ image places total full /\ len full = n
    /\ w_inner w = (firstn (length buf) full, skipn (length full) buf)
    /\ (n <= len buf -> exists o, r = WOk o)
    /\ (len buf < n -> r = WErr WriteZero).
Proof. exact C63_presized_buffer_proof. Qed.
Print Assumptions C63_presized_buffer.

(** C63.  How far the sum of the sizes is off: [Sizer::len()] after adding some types is at least
    the sum of their sizes and at most that sum plus [ALIGNMENT - 1] for each of them (if
    overflow is checked, or that bound fits in [usize]). *)
Theorem C63_sum_of_sizes : forall tg l hs ms os s,
  target_ok tg = true ->
  map_opt (fun h => match out_align tg l h, std_size_static tg l h with
                    | Some a, Some n => Some (a, n) | _, _ => None end) hs = Some ms ->
  sizer_run tg l hs sizer_new = Some (Done (os, s)) ->
  t_checks tg = true \/ fold_right N.add 0 (map (fun m => snd m + (fst m - 1)) ms) < umod tg ->
  fold_right N.add 0 (map snd ms) <= sizer_len s
  /\ sizer_len s <= fold_right N.add 0 (map (fun m => snd m + (fst m - 1)) ms).
Proof. exact C63_sum_of_sizes_proof. Qed.
Print Assumptions C63_sum_of_sizes.

(** C63.  Allocating the sum of the sizes is not enough: an [f32] and a [vec3] have 4 and 12
    bytes, but writing them needs 28. *)
Theorem C63_sum_suffices_refuted : forall l,
  std_size_static x86_64 l (HPrim PF32) = Some 4 /\ std_size_static x86_64 l vec3f = Some 12
  /\ exists w, write_vals x86_64 l slice_sink [WLeaf (HPrim PF32) (bits 1); WLeaf vec3f (v3 1 2 3)] (writer_new ([], repeat xff 16))
     = (w, ([0], Some (WErr WriteZero))).
Proof. exact C63_sum_suffices_refuted_proof. Qed.
Print Assumptions C63_sum_suffices_refuted.

(** C63: two lights after their number, into buffers of 80, 40 and 100 bytes. *)
Example C63_ex :
  exists x ps, x = WSeq [WLeaf (HPrim PU32) (bits 2); light_slice] /\ wval_ok x86_64 L140 x
    /\ parts x86_64 L140 x = Some ps /\ std_size x86_64 L140 x = Some (Done 80)
    /\ (exists w, writer_write x86_64 L140 slice_sink (writer_new ([], repeat xee 80)) x = (w, WOk 0) /\ snd (w_inner w) = [])
    /\ (exists w, writer_write x86_64 L140 slice_sink (writer_new ([], repeat xee 40)) x = (w, WErr WriteZero)
          /\ length (fst (w_inner w)) = 40%nat)
    /\ (exists w, writer_write x86_64 L140 slice_sink (writer_new ([], repeat xee 100)) x = (w, WOk 0)
          /\ snd (w_inner w) = repeat xee 20).
Proof. exact C63_ex_proof. Qed.

(** C09, for any sequence of writable values (slices, user-defined composites): if the sink
    fails, what it received is a prefix of the fault-free image that ends inside (or in the
    padding before) one of the elements; everything before that element arrived, nothing
    after it was tried; the error is reported and [len()] is at most the number of bytes
    received. *)
Theorem C09_slices_and_composites : forall W tg l (wi : write_impl W) delivered inner xs w offs e ps places total,
  target_ok tg = true -> lawful wi delivered -> Forall (wval_ok tg l) xs ->
  write_vals tg l wi xs (writer_new inner) = (w, (offs, e)) ->
  parts tg l (WSeq xs) = Some ps -> laid_out 0 ps places total -> total < umod tg ->
  exists full got, image places total full
    /\ delivered (w_inner w) = (delivered inner ++ got)%list /\ prefix got full
    /\ writer_len w <= len got
    /\ match e with
       | None => got = full /\ length offs = length xs /\ writer_len w = total
       | Some r => (exists err, r = WErr err) /\ (length offs < length xs)%nat
           /\ exists k o bs, nth_error places k = Some (o, bs) /\ len got <= o + len bs
              /\ forall j o' bs', (j < k)%nat -> nth_error places j = Some (o', bs') -> o' + len bs' <= len got
       end.
Proof. exact C09_slices_and_composites_proof. Qed.
Print Assumptions C09_slices_and_composites.

(** C09: a slice of lights after its length; the sink fails 25 bytes into the image. *)
Example C09_ex2 :
  Forall (wval_ok x86_64 L140) [WLeaf (HPrim PU32) (bits 2); light_slice]
  /\ (let '(w, (offs, e)) := write_vals x86_64 L140 script_sink [WLeaf (HPrim PU32) (bits 2); light_slice]
        (writer_new ([RAccept 4; RAccept 1; RAccept 1; RAccept 1; RAccept 1; RAccept 1; RAccept 1; RAccept 1; RAccept 1;
                      RAccept 1; RAccept 1; RAccept 1; RAccept 1; RAccept 5; RInterrupted; RAccept 4; RError 5], [])) in
      offs = [0] /\ e = Some (WErr (OtherError 5)) /\ len (snd (w_inner w)) = 25 /\ writer_len w = 16).
Proof. exact C09_ex2_proof. Qed.
