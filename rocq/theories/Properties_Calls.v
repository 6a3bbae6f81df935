(** * Property theorems (generated from Proofs_Calls.v by tools/genprops.py; statements only) *)

From Coq Require Import NArith String Bool List Lia ZArith.
From Coq Require Import ZifyBool ZifyN ZifyNat.
From Coq Require Import Strings.Byte PeanoNat.
From Verif Require Import Proofs_Calls Rust Internal Prims Derive Host Rows Buffer SpecBuf SpecCalls SpecGlsl SpecHost
  Arith RustFacts DeriveFacts TypeFacts HostFacts GlslFacts BufferFacts WriterFacts Samples Proofs_Buffer Proofs_Evolve.
Import ListNotations.
Local Open Scope string_scope.
Local Open Scope N_scope.


(** C69.  The calls of [write_all] that writing a sequence of values makes on a sink (any sink,
    also one that breaks the contract of [Write]): one per byte of padding and one per value,
    in order; after a call that failed there are no more, and its error is what [write]
    returns.  Listening does not change anything. *)
Theorem C69_calls : forall W tg l (wi : write_impl W) inner xs w offs e ps places total,
  target_ok tg = true -> typed_all tg l xs ->
  parts tg l (WSeq (map leaf xs)) = Some ps -> laid_out 0 ps places total -> total < umod tg ->
  write_vals tg l (recording wi) (map leaf xs) (writer_new (inner, [])) = (w, (offs, e)) ->
  made (calls_for 0 places) (snd (w_inner w)) e
  /\ write_vals tg l wi (map leaf xs) (writer_new inner) = (Writer (fst (w_inner w)) (writer_len w), (offs, e)).
Proof. exact C69_calls_proof. Qed.
Print Assumptions C69_calls.

(** C69.  The same for successful histories of all operations (slices, composites, [write_iter],
    [write_std140]). *)
Theorem C69_calls_of_histories : forall W tg l (wi : write_impl W) inner os w rs ps places total,
  target_ok tg = true -> Forall (op_ok tg l) os ->
  ops_parts tg l os = Some ps -> laid_out 0 ps places total -> total < umod tg ->
  run_ops tg l (recording wi) os (writer_new (inner, [])) = (w, rs) -> all_ok rs ->
  map fst (snd (w_inner w)) = calls_for 0 places /\ Forall (fun c => snd c = None) (snd (w_inner w)).
Proof. exact C69_calls_of_histories_proof. Qed.
Print Assumptions C69_calls_of_histories.

(** C68.  Some values are written with one Writer, some more with a new Writer on the same sink.
    The offsets of the new Writer are those one Writer would have returned, less the bytes written
    before, exactly if that number of bytes is a multiple of the ALIGNMENT of every later value;
    and then the sink holds the same bytes and the lengths add up. *)
Theorem C68_second_writer : forall W tg l (wi : write_impl W) delivered inner xs1 xs2 w1 o1 w2 o2 w o ps places total,
  target_ok tg = true -> lawful wi delivered -> typed_all tg l xs1 -> typed_all tg l xs2 ->
  parts tg l (WSeq (map leaf (xs1 ++ xs2)%list)) = Some ps -> laid_out 0 ps places total -> total < umod tg ->
  write_vals tg l wi (map leaf xs1) (writer_new inner) = (w1, (o1, None)) ->
  write_vals tg l wi (map leaf xs2) (writer_new (w_inner w1)) = (w2, (o2, None)) ->
  write_vals tg l wi (map leaf (xs1 ++ xs2)%list) (writer_new inner) = (w, (o, None)) ->
  let fits := Forall (fun x => exists a, out_align tg l (fst x) = Some a /\ aligned a (writer_len w1)) xs2 in
  (o = (o1 ++ map (N.add (writer_len w1)) o2)%list <-> fits)
  /\ (fits -> delivered (w_inner w2) = delivered (w_inner w) /\ writer_len w = writer_len w1 + writer_len w2).
Proof. exact C68_second_writer_proof. Qed.
Print Assumptions C68_second_writer.

(** C68.  It is not true that dropping a Writer and making a new one on the same sink continues
    where the old one stopped: alignment is relative to where the Writer started. *)
Theorem C68_new_writer_continues_refuted : ~ (forall xs1 xs2 w1 o1 w2 o2 w o,
  typed_all x86_64 L140 xs1 -> typed_all x86_64 L140 xs2 ->
  write_vals x86_64 L140 vec_sink (map leaf xs1) (writer_new []) = (w1, (o1, None)) ->
  write_vals x86_64 L140 vec_sink (map leaf xs2) (writer_new (w_inner w1)) = (w2, (o2, None)) ->
  write_vals x86_64 L140 vec_sink (map leaf (xs1 ++ xs2)%list) (writer_new []) = (w, (o, None)) ->
  w_inner w2 = w_inner w).
Proof. exact C68_new_writer_continues_refuted_proof. Qed.
Print Assumptions C68_new_writer_continues_refuted.

(** C68: a vec3 and a u32 (16 bytes), then a vec3 with a new Writer. *)
Example C68_ex :
  typed_all x86_64 L140 [(vec3f, v3 1 2 3); (HPrim PU32, bits 7)] /\ typed_all x86_64 L140 [(vec3f, v3 4 5 6)]
  /\ (exists w1, write_vals x86_64 L140 vec_sink (map leaf [(vec3f, v3 1 2 3); (HPrim PU32, bits 7)]) (writer_new [x09]) = (w1, ([0; 12], None))
       /\ writer_len w1 = 16
       /\ exists w2, write_vals x86_64 L140 vec_sink (map leaf [(vec3f, v3 4 5 6)]) (writer_new (w_inner w1)) = (w2, ([0], None)) /\ writer_len w2 = 12)
  /\ (exists w, write_vals x86_64 L140 vec_sink (map leaf [(vec3f, v3 1 2 3); (HPrim PU32, bits 7); (vec3f, v3 4 5 6)]) (writer_new [x09])
       = (w, ([0; 12; 16], None)) /\ writer_len w = 28)
  /\ out_align x86_64 L140 vec3f = Some 16 /\ aligned 16 16 /\ ~ aligned 16 4.
Proof. exact C68_ex_proof. Qed.

(** C69: a u32 and a vec3: one call with four bytes, twelve with a zero byte, one with twelve
    bytes; the slice has room for 10 bytes, so the seventh byte of padding is the call that
    fails. *)
Example C69_ex :
  typed_all x86_64 L140 [(HPrim PU32, bits 7); (vec3f, v3 1 2 3)]
  /\ (exists w, write_vals x86_64 L140 (recording vec_sink) (map leaf [(HPrim PU32, bits 7); (vec3f, v3 1 2 3)]) (writer_new ([], [])) = (w, ([0; 16], None))
       /\ map (fun c => len (fst c)) (snd (w_inner w)) = (4 :: repeat 1 12 ++ [12])%list)
  /\ (exists w, write_vals x86_64 L140 (recording slice_sink) (map leaf [(HPrim PU32, bits 7); (vec3f, v3 1 2 3)]) (writer_new (([], repeat xaa 10), [])) = (w, ([0], Some (WErr WriteZero)))
       /\ len (fst (fst (w_inner w))) = 10
       /\ map (fun c => (len (fst c), snd c)) (snd (w_inner w)) = ((4, None) :: repeat (1, None) 6 ++ [(1, Some WriteZero)])%list).
Proof. exact C69_ex_proof. Qed.
