(** * Property theorems (generated from Proofs_Client.v by tools/genprops.py; statements only) *)

From Coq Require Import NArith String Bool List Lia ZArith.
From Coq Require Import ZifyBool ZifyN ZifyNat.
From Coq Require Import Strings.Byte.
From Verif Require Import Proofs_Client Rust Internal Prims Derive Host Buffer SpecBuf SpecHost Client SpecClient
  Arith RustFacts DeriveFacts TypeFacts HostFacts GlslFacts BufferFacts WriterFacts Samples Proofs_Buffer ClientFacts.
Import ListNotations.
Local Open Scope string_scope.
Local Open Scope N_scope.


(** C48.  Whatever an implementation does, bytes already delivered are never changed. *)
Theorem C48_append_only : forall W tg l (wi : write_impl W) delivered c w w' ev r,
  lawful wi delivered -> run_client tg l wi c w = (w', (ev, r)) ->
  prefix (delivered (w_inner w)) (delivered (w_inner w')).
Proof. exact C48_append_only_proof. Qed.
Print Assumptions C48_append_only.

(** C48, image.  If every [Writer::write_std140] call made by an implementation on a
    fresh [Writer] succeeded, the sink received exactly the written values, each at the
    first aligned position after the previous one, and zeros elsewhere; each call
    returned the position of its value, and [len()] is the total length. *)
Theorem C48_image : forall W tg l (wi : write_impl W) delivered inner c w ev r ps places total,
  target_ok tg = true -> lawful wi delivered -> client_ok tg l c ->
  run_client tg l wi c (writer_new inner) = (w, (ev, r)) -> calls_ok ev ->
  Forall2 (fun e p => ev_part tg l e = Some p) ev ps -> laid_out 0 ps places total ->
  (t_checks tg = true \/ total < umod tg) ->
  (exists img, delivered (w_inner w) = (delivered inner ++ img)%list /\ image places total img)
  /\ map ev_result ev = map WOk (map fst places)
  /\ writer_len w = total.
Proof. exact C48_image_proof. Qed.
Print Assumptions C48_image.

(** C48, sinks.  On sinks that do not fail, what an implementation does, what it
    returns and the resulting [len()] depend only on [len()] at the start. *)
Theorem C48_sink_independent : forall W1 W2 tg l (wi1 : write_impl W1) (wi2 : write_impl W2) c w1 w2,
  target_ok tg = true -> infallible wi1 -> infallible wi2 -> client_ok tg l c ->
  writer_len w1 = writer_len w2 ->
  exists w1' w2' ev r,
    run_client tg l wi1 c w1 = (w1', (ev, r)) /\ run_client tg l wi2 c w2 = (w2', (ev, r))
    /\ writer_len w1' = writer_len w2'
    /\ (forall e, In e ev -> ev_result e = WPanic \/ exists o, ev_result e = WOk o).
Proof. exact C48_sink_independent_proof. Qed.
Print Assumptions C48_sink_independent.

(** C48, sizes.  If the default [std140_size()] of a user-defined type returns [n],
    then on every sink that does not fail, a fresh [Writer] ends with [len() = n], the
    implementation succeeds with the same offset, and the sink has received [n] bytes
    (modulo [usize::MAX + 1]; exactly [n] with overflow checks).  It panics iff the
    implementation fails or panics there. *)
Theorem C48_default_size : forall W tg l (wi : write_impl W) delivered inner c,
  target_ok tg = true -> lawful wi delivered -> infallible wi -> client_ok tg l c ->
  exists w ev r, run_client tg l wi c (writer_new inner) = (w, (ev, r))
    /\ match client_size tg l c with
       | Some (Done n) =>
           (exists o, r = WOk o) /\ writer_len w = n
           /\ exists img, delivered (w_inner w) = (delivered inner ++ img)%list
              /\ n = len img mod umod tg /\ (t_checks tg = true -> n = len img)
       | Some Panicked => (exists e, r = WErr e) \/ r = WPanic
       | None => False
       end.
Proof. exact C48_default_size_proof. Qed.
Print Assumptions C48_default_size.

(** C48, failures.  An implementation that uses [?] on its calls stops at the first
    failing call, returns that error, and leaves a prefix of the bytes of the fault-free
    run; [len()] never exceeds the number of bytes received.  If no call fails, it does
    exactly what the fault-free run does. *)
Theorem C48_failure_leaves_prefix : forall W tg l (wi : write_impl W) delivered inner c w ev r w0 ev0 r0,
  target_ok tg = true -> lawful wi delivered -> client_ok tg l c -> propagates c ->
  run_client tg l wi c (writer_new inner) = (w, (ev, r)) ->
  run_client tg l vec_sink c (writer_new []) = (w0, (ev0, r0)) ->
  exists got, delivered (w_inner w) = (delivered inner ++ got)%list
    /\ prefix got (w_inner w0)
    /\ writer_len w <= len got
    /\ ((ev = ev0 /\ r = r0 /\ got = w_inner w0 /\ writer_len w = writer_len w0)
        \/ exists pre t s e x post,
             ev = (pre ++ [(t, s, WErr e)])%list /\ r = WErr e /\ calls_ok pre
             /\ ev0 = (pre ++ (t, s, x) :: post)%list).
Proof. exact C48_failure_leaves_prefix_proof. Qed.
Print Assumptions C48_failure_leaves_prefix.

(** ** C48, the built-in implementations are instances *)
Theorem C48_builtin_impls : forall W tg l (wi : write_impl W) x w,
  target_ok tg = true -> wval_ok tg l x ->
  client_ok tg l (c_val tg l x) /\ propagates (c_val tg l x)
  /\ (exists w' ev r, run_client tg l wi (c_val tg l x) w = (w', (ev, r)) /\ writer_write tg l wi w x = (w', r)).
Proof. exact C48_builtin_impls_proof. Qed.
Print Assumptions C48_builtin_impls.

(** C47.  [write_iter] on an iterator that yields [xs] and then [None] (and [None] again
    if it is empty) terminates and does what [write] does with the slice of the same
    values.  It stops pulling at the first item that fails: the iterator is then left
    just after that item; otherwise it is left just after its (last) [None]. *)
Theorem C47_write_iter_finite : forall W I tg l (wi : write_impl W) (next : I -> option client * I) k it xs it1 it2 w,
  pulled next k it xs it1 -> next it1 = (None, it2) -> (xs = [] -> exists it3, next it2 = (None, it3)) ->
  exists fuel0 itf w' ev r,
    (forall fuel, (fuel0 <= fuel)%nat -> write_iter_lazy tg l wi next fuel it w = Some (itf, (w', r)))
    /\ run_client tg l wi (c_slice xs) w = (w', (ev, r))
    /\ (((exists o, r = WOk o) /\ (xs <> [] -> itf = it2) /\ (xs = [] -> next it2 = (None, itf)))
        \/ exists ys x zs w1 ev1 o1 ev2,
             xs = (ys ++ x :: zs)%list /\ pulled next (S (length ys)) it (ys ++ [x]) itf
             /\ run_client tg l wi (c_slice ys) w = (w1, (ev1, WOk o1))
             /\ run_client tg l wi x w1 = (w', (ev2, r)) /\ forall o, r <> WOk o).
Proof. exact C47_write_iter_finite_proof. Qed.
Print Assumptions C47_write_iter_finite.

(** C47, infinite iterators.  [write_iter] on an iterator that never ends, over a
    [&mut [u8]], terminates with a [WriteZero] error after filling the buffer, provided
    the values are not zero-sized. *)
Theorem C47_infinite_iter_fixed_buffer : forall I tg l (next : I -> option client * I) it buf,
  target_ok tg = true -> len buf < umod tg ->
  (forall it, exists h v n it1, next it = (Some (c_leaf tg l h v), it1)
     /\ hval_ok tg h v = true /\ std_size_static tg l h = Some n /\ 0 < n) ->
  exists fuel0 itf w',
    (forall fuel, (fuel0 <= fuel)%nat ->
       write_iter_lazy tg l slice_sink next fuel it (writer_new ([], buf)) = Some (itf, (w', WErr WriteZero)))
    /\ snd (w_inner w') = [] /\ len (fst (w_inner w')) = len buf.
Proof. exact C47_infinite_iter_fixed_buffer_proof. Qed.
Print Assumptions C47_infinite_iter_fixed_buffer.

(** [write_iter] documents: "Returns the offset into the buffer that the first value was
    written to.  If no values were written, returns the [len()]."  This is false for an
    iterator that is not fused: the function calls [next()] again after a first [None].
    Below, the iterator returns [None] and then a value; the value is written at 16, but
    the result is 4. *)
Theorem C47_non_fused_iterator_refuted :
  exists (next : nat -> option client * nat) it itf x h w w1 w' bs,
    x = WLeaf h (v3 1 2 3) /\ wval_ok x86_64 L140 x
    /\ next it = (None, S it) /\ next (S it) = (Some (c_val x86_64 L140 x), S (S it)) /\ next (S (S it)) = (None, itf)
    /\ writer_write x86_64 L140 vec_sink (writer_new []) (WLeaf (HPrim PU32) (bits 2)) = (w, WOk 0)
    /\ writer_len w = 4
    /\ write_iter_lazy x86_64 L140 vec_sink next 5 it w = Some (itf, (w', WOk 4))
    /\ writer_write x86_64 L140 vec_sink w x = (w1, WOk 16) /\ w1 = w'
    /\ as_std_bytes x86_64 L140 h (v3 1 2 3) = Some bs
    /\ read_at (w_inner w') 4 (len bs) <> Some bs /\ read_at (w_inner w') 16 (len bs) = Some bs.
Proof. exact C47_non_fused_iterator_refuted_proof. Qed.
Print Assumptions C47_non_fused_iterator_refuted.

Example C47_ex :
  pulled list_next 2 two_vec3 two_vec3 [] /\ list_next [] = (None, [])
  /\ (exists w, write_iter_lazy x86_64 L140 vec_sink list_next 9 two_vec3 (Writer [x09] 1) = Some ([], (w, WOk 16)) /\ writer_len w = 44)
  /\ (exists w, write_iter_lazy x86_64 L140 slice_sink list_next 9 (two_vec3 ++ two_vec3)%list (writer_new ([], repeat xaa 20))
        = Some (two_vec3, (w, WErr WriteZero)) /\ len (fst (w_inner w)) = 20)
  /\ (exists w, write_iter_lazy x86_64 L140 slice_sink (fun n : nat => (Some (c_leaf x86_64 L140 vec3f (v3 1 2 3)), S n)) 99 0%nat (writer_new ([], repeat xaa 100))
        = Some (7%nat, (w, WErr WriteZero)) /\ writer_len w = 96).
Proof. exact C47_ex_proof. Qed.

Example C48_ex :
  client_ok x86_64 L140 custom /\ propagates custom
  /\ (exists w ev, run_client x86_64 L140 vec_sink custom (writer_new [x01]) = (w, (ev, WOk 0))
        /\ calls_ok ev /\ map ev_result ev = [WOk 0; WOk 16; WOk 32] /\ writer_len w = 44 /\ len (w_inner w) = 45)
  /\ client_size x86_64 L140 custom = Some (Done 44)
  /\ (exists w ev, run_client x86_64 L140 slice_sink custom (writer_new ([], repeat xaa 30)) = (w, (ev, WErr WriteZero))
        /\ map ev_result ev = [WOk 0; WOk 16; WErr WriteZero] /\ writer_len w = 28 /\ len (fst (w_inner w)) = 30).
Proof. exact C48_ex_proof. Qed.
