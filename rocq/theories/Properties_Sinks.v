(** * Property theorems (generated from Proofs_Sinks.v by tools/genprops.py; statements only) *)

From Coq Require Import NArith String Bool List Lia ZArith.
From Coq Require Import ZifyBool ZifyN ZifyNat.
From Coq Require Import Strings.Byte PeanoNat.
From Verif Require Import Proofs_Sinks Rust Internal Prims Derive Host Rows Buffer Sinks SpecBuf SpecUse SpecSinks
  Arith RustFacts BufferFacts WriterFacts Samples Proofs_Buffer.
Import ListNotations.
Local Open Scope string_scope.
Local Open Scope N_scope.


(** C76.  A Writer on a [Cursor<Vec<u8>>] at position [p] does what a Writer on an empty [Vec]
    does: every operation of any history returns the same, [len()] is the same, the position
    advances by the number of bytes written, and the buffer is overwritten at [p] with the bytes
    the [Vec] would hold. *)
Theorem C76_cursor_over_vec : forall tg l os p buf w rs,
  run_ops tg l vec_sink os (writer_new []) = (w, rs) ->
  exists b, run_ops tg l cursor_vec_sink os (writer_new (Cursor p buf))
      = (Writer (Cursor (p + len (w_inner w)) b) (writer_len w), rs)
    /\ overwritten buf p (w_inner w) b
    /\ (p + len (w_inner w) <= len buf -> copy_at buf p (w_inner w) = Some b).
Proof. exact C76_cursor_over_vec_proof. Qed.
Print Assumptions C76_cursor_over_vec.

(** C76.  A Writer on a [Cursor<&mut [u8]>] at position [p] does what a Writer on the part of the
    slice from [p] on does, including its failures. *)
Theorem C76_cursor_over_slice : forall tg l os p buf filled rest n rs,
  p <= len buf ->
  run_ops tg l slice_sink os (writer_new ([], skipn (N.to_nat p) buf)) = (Writer (filled, rest) n, rs) ->
  run_ops tg l cursor_slice_sink os (writer_new (Cursor p buf))
    = (Writer (Cursor (p + len filled) (firstn (N.to_nat p) buf ++ filled ++ rest)%list) n, rs).
Proof. exact C76_cursor_over_slice_proof. Qed.
Print Assumptions C76_cursor_over_slice.

(** C77.  A [BufWriter] of any capacity, on a sink that makes short writes, is interrupted or
    fails, obeys the contract of [Write]; so everything said about Writers on lawful sinks holds
    for it, with "the bytes that reached the sink" being those passed on and those buffered. *)
Theorem C77_buffered_lawful : forall cap, lawful (buf_sink cap) buf_accepted.
Proof. exact C77_buffered_lawful_proof. Qed.
Print Assumptions C77_buffered_lawful.

(** C77.  After a history of successful operations on a new [BufWriter], followed by a [flush]:
    the sink behind it has received a prefix of the expected bytes; if the flush succeeded, all of
    them, and nothing is left in the buffer. *)
Theorem C77_flush : forall tg l cap script data os w rs ps places total b e,
  target_ok tg = true -> Forall (op_ok tg l) os ->
  ops_parts tg l os = Some ps -> laid_out 0 ps places total -> (t_checks tg = true \/ total < umod tg) ->
  run_ops tg l (buf_sink cap) os (writer_new (buf_new script data)) = (w, rs) -> all_ok rs ->
  buf_flush (w_inner w) = (b, e) ->
  exists img got, image places total img /\ writer_len w = total
    /\ bw_data b = (data ++ got)%list /\ prefix got img
    /\ (e = None -> got = img /\ bw_buf b = []).
Proof. exact C77_flush_proof. Qed.
Print Assumptions C77_flush.

(** C77.  Whatever happens (errors included), the sink behind a [BufWriter] has received a prefix
    of the bytes a Writer on a [Vec] would have produced, before and after a [flush]. *)
Theorem C77_prefix : forall tg l cap script data xs w offs e ps places total,
  target_ok tg = true -> typed_all tg l xs ->
  parts tg l (WSeq (map leaf xs)) = Some ps -> laid_out 0 ps places total -> total < umod tg ->
  write_vals tg l (buf_sink cap) (map leaf xs) (writer_new (buf_new script data)) = (w, (offs, e)) ->
  exists full got got', image places total full
    /\ bw_data (w_inner w) = (data ++ got)%list
    /\ bw_data (fst (buf_flush (w_inner w))) = (data ++ got')%list
    /\ prefix got got' /\ prefix got' full.
Proof. exact C77_prefix_proof. Qed.
Print Assumptions C77_prefix.

(** C77.  It is not true that the bytes of values written successfully have reached the sink
    behind a [BufWriter]. *)
Theorem C77_success_means_delivered_refuted :
  exists cap x w o, wval_ok x86_64 L140 x
    /\ writer_write x86_64 L140 (buf_sink cap) (writer_new (buf_new [] [])) x = (w, WOk o)
    /\ writer_len w = 4 /\ bw_data (w_inner w) = []
    /\ (exists b, buf_flush (w_inner w) = (b, None) /\ len (bw_data b) = 4).
Proof. exact C77_success_means_delivered_refuted_proof. Qed.
Print Assumptions C77_success_means_delivered_refuted.

(** C77: the sample history through a buffer of 20 bytes, on a sink that already holds a byte, makes short
    writes and is interrupted. *)
Example C77_ex :
  Forall (op_ok x86_64 L140) sample_ops
  /\ (exists w rs b, run_ops x86_64 L140 (buf_sink 20) sample_ops (writer_new (buf_new [RAccept 3; RInterrupted; RAccept 10] [xff])) = (w, rs)
      /\ rs = [WOk 0; WOk 16; WOk 80; WOk 88] /\ writer_len w = 96
      /\ (1 <= length (bw_data (w_inner w)) < 97)%nat
      /\ buf_flush (w_inner w) = (b, None) /\ bw_buf b = [] /\ len (bw_data b) = 97
      /\ bw_data b = w_inner (fst (run_ops x86_64 L140 vec_sink sample_ops (writer_new [xff]))))
  /\ (exists w offs, write_vals x86_64 L140 (buf_sink 20) (map leaf sample_xs) (writer_new (buf_new [RAccept 3; RError 5] [xff])) = (w, (offs, Some (WErr (OtherError 5))))
      /\ offs = [0] /\ len (bw_data (w_inner w)) = 4).
Proof. exact C77_ex_proof. Qed.

(** C76: the sample history over the middle of a buffer of 200 bytes; past the end of a short
    one; and a slice that is too short. *)
Example C76_ex :
  (exists w rs b, run_ops x86_64 L140 vec_sink sample_ops (writer_new []) = (w, rs) /\ len (w_inner w) = 96
     /\ run_ops x86_64 L140 cursor_vec_sink sample_ops (writer_new (Cursor 16 (repeat xaa 200))) = (Writer (Cursor 112 b) 96, rs)
     /\ len b = 200 /\ byte_at b 15 = Some xaa /\ byte_at b 16 = Some x02 /\ byte_at b 112 = Some xaa)
  /\ (exists b rs, run_ops x86_64 L140 cursor_vec_sink sample_ops (writer_new (Cursor 16 (repeat xaa 10))) = (Writer (Cursor 112 b) 96, rs)
     /\ len b = 112 /\ byte_at b 9 = Some xaa /\ byte_at b 10 = Some x00)
  /\ (exists f r rs, run_ops x86_64 L140 slice_sink sample_ops (writer_new ([], skipn 16 (repeat xaa 50))) = (Writer (f, r) 16, rs)
     /\ rs = [WOk 0; WErr WriteZero; WErr WriteZero; WErr WriteZero]).
Proof. exact C76_ex_proof. Qed.
