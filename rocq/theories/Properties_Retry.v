(** * Property theorems (generated from Proofs_Retry.v by tools/genprops.py; statements only) *)

From Coq Require Import NArith String Bool List Lia ZArith.
From Coq Require Import ZifyBool ZifyN ZifyNat.
From Coq Require Import Strings.Byte.
From Verif Require Import Proofs_Retry Rust RustFacts Internal Prims Derive Host Buffer Samples.
From Verif Require Import SpecBuf SpecRetry Arith DeriveFacts TypeFacts HostFacts GlslFacts BufferFacts WriterFacts Proofs_Buffer.
Import ListNotations.
Local Open Scope string_scope.
Local Open Scope N_scope.


Theorem C82_retry : forall W tg l (wi : write_impl W) delivered inner xs w offs ps places total,
  target_ok tg = true -> lawful wi delivered -> typed_all tg l xs ->
  parts tg l (WSeq (map leaf xs)) = Some ps -> laid_out 0 ps places total -> total < umod tg ->
  retried_all tg l wi (writer_new inner) (map leaf xs) w offs ->
  offs = map fst places /\ writer_len w = total
  /\ exists got d ds, delivered (w_inner w) = (delivered inner ++ got)%list
     /\ len got = writer_len w + d
     /\ shifted 0 places ds d got
     /\ (d = 0 <-> image places total got).
Proof. exact C82_retry_proof. Qed.
Print Assumptions C82_retry.

Theorem C82_ignored_errors : forall W tg l (wi : write_impl W) delivered inner xs w rs ps places total,
  target_ok tg = true -> lawful wi delivered -> typed_all tg l xs ->
  parts tg l (WSeq (map leaf xs)) = Some ps -> laid_out 0 ps places total -> total < umod tg ->
  run_ops tg l wi (map (fun x => OpWrite (leaf x)) xs) (writer_new inner) = (w, rs) ->
  length rs = length xs
  /\ Forall (fun r => (exists o, r = WOk o) \/ (exists e, r = WErr e)) rs
  /\ exists got d ds, delivered (w_inner w) = (delivered inner ++ got)%list
     /\ len got = writer_len w + d
     /\ shifted 0 (succeeded rs ps) ds d got
     /\ (d = 0 <-> image (succeeded rs ps) (writer_len w) got).
Proof. exact C82_ignored_errors_proof. Qed.
Print Assumptions C82_ignored_errors.

(** C82, offsets when errors are ignored.  The values whose write returned [Ok] do not overlap, each is at
    a multiple of its alignment, none is later than it would be without errors, and [len()] is at or after
    the end of the last one and at most what it would be without errors. *)
Theorem C82_ignored_offsets : forall W tg l (wi : write_impl W) delivered inner xs w rs ps places total,
  target_ok tg = true -> lawful wi delivered -> typed_all tg l xs ->
  parts tg l (WSeq (map leaf xs)) = Some ps -> laid_out 0 ps places total -> total < umod tg ->
  run_ops tg l wi (map (fun x => OpWrite (leaf x)) xs) (writer_new inner) = (w, rs) ->
  increasing 0 (succeeded rs ps) (writer_len w) /\ writer_len w <= total
  /\ forall i o al bs, nth_error rs i = Some (WOk o) -> nth_error ps i = Some (al, bs) ->
     aligned al o /\ forall o' bs', nth_error places i = Some (o', bs') -> o <= o'.
Proof. exact C82_ignored_offsets_proof. Qed.
Print Assumptions C82_ignored_offsets.

Theorem C82_atomic_sink : forall W tg l (wi : write_impl W) delivered inner xs w offs ps places total,
  target_ok tg = true -> atomic wi delivered -> typed_all tg l xs ->
  parts tg l (WSeq (map leaf xs)) = Some ps -> laid_out 0 ps places total -> total < umod tg ->
  total = len (concat (map snd ps)) ->
  retried_all tg l wi (writer_new inner) (map leaf xs) w offs ->
  offs = map fst places /\ writer_len w = total
  /\ exists got, delivered (w_inner w) = (delivered inner ++ got)%list /\ image places total got.
Proof. exact C82_atomic_sink_proof. Qed.
Print Assumptions C82_atomic_sink.

Theorem C82_atomic_sink_refuted :
  exists (wi : write_impl (list bool * list byte)) inner xs w offs ps places total,
    atomic wi snd /\ typed_all x86_64 L140 xs
    /\ parts x86_64 L140 (WSeq (map leaf xs)) = Some ps /\ laid_out 0 ps places total
    /\ retried_all x86_64 L140 wi (writer_new inner) (map leaf xs) w offs
    /\ offs = [0; 16] /\ writer_len w = 48 /\ len (snd (w_inner w)) = 50
    /\ ~ image places total (snd (w_inner w)).
Proof. exact C82_atomic_sink_refuted_proof. Qed.
Print Assumptions C82_atomic_sink_refuted.

Theorem C82_slice_retry_refuted :
  exists (wi : write_impl (list bool * list byte)) inner x w o,
    atomic wi snd /\ wval_ok x86_64 L140 x
    /\ x = WSeq [WLeaf (HPrim PU32) (bits 1); WLeaf (HPrim PU32) (bits 2)]
    /\ retried x86_64 L140 wi (writer_new inner) x w o
    /\ snd inner = [] /\ o = 4 /\ writer_len w = 12 /\ len (snd (w_inner w)) = 12
    /\ read_at (snd (w_inner w)) 0 4 = read_at (snd (w_inner w)) 4 4.
Proof. exact C82_slice_retry_refuted_proof. Qed.
Print Assumptions C82_slice_retry_refuted.

Example C82_ex_retry :
  exists inner xs w offs ps places total,
    lawful script_sink snd /\ typed_all x86_64 L140 xs
    /\ parts x86_64 L140 (WSeq (map leaf xs)) = Some ps /\ laid_out 0 ps places total /\ total < umod x86_64
    /\ retried_all x86_64 L140 script_sink (writer_new inner) (map leaf xs) w offs
    /\ offs = [0; 16] /\ writer_len w = 48 /\ len (snd (w_inner w)) = 48.
Proof. exact C82_ex_retry_proof. Qed.

Example C82_ex_ignored :
  exists inner xs w rs, typed_all x86_64 L140 xs
    /\ run_ops x86_64 L140 script_sink (map (fun x => OpWrite (leaf x)) xs) (writer_new inner) = (w, rs)
    /\ rs = [WOk 0; WErr (OtherError 3); WOk 16] /\ writer_len w = 28 /\ len (snd (w_inner w)) = 33
    /\ read_at (snd (w_inner w)) (16 + 5) 4 = Some [x01; x00; x00; x00].
Proof. exact C82_ex_ignored_proof. Qed.

Example C82_ex_atomic :
  exists inner xs w offs ps places total,
    typed_all x86_64 L140 xs
    /\ parts x86_64 L140 (WSeq (map leaf xs)) = Some ps /\ laid_out 0 ps places total /\ total < umod x86_64
    /\ total = len (concat (map snd ps))
    /\ retried_all x86_64 L140 answers_sink (writer_new inner) (map leaf xs) w offs
    /\ offs = [0; 32] /\ total = 36 /\ fst inner = [false; true; false; false].
Proof. exact C82_ex_atomic_proof. Qed.
