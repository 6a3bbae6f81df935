(** * Property theorems (generated from Proofs_Unwind.v by tools/genprops.py; statements only) *)

From Coq Require Import NArith String Bool List Lia ZArith.
From Coq Require Import ZifyBool ZifyN ZifyNat.
From Coq Require Import Strings.Byte.
From Verif Require Import Proofs_Unwind Rust Internal Prims Derive Host Buffer SpecBuf SpecGlsl SpecHost Client SpecClient SpecRetry
  Unwind SpecUnwind
  Arith RustFacts DeriveFacts TypeFacts SpecLayout LayoutFacts HostFacts GlslFacts BufferFacts WriterFacts Samples Proofs_Buffer
  ClientFacts Proofs_Client Proofs_Retry.
Import ListNotations.
Local Open Scope string_scope.
Local Open Scope N_scope.


(** C87, no panics.  On a sink that never panics, and for code that catches no panic, this model says
    what the one used by the other claims says. *)
Theorem C87_no_panics : forall W tg l (wi : write_impl W) c w,
  run_uclient tg l (never_panics wi) (no_catch c) w = run_client tg l wi c w.
Proof. exact C87_no_panics_proof. Qed.
Print Assumptions C87_no_panics.

(** C87, one call.  One call of [Writer::write_std140] on any sink, the total staying below
    [usize::MAX + 1]: the sink received a prefix of the padding and the value's bytes; if the call
    returned [Ok], all of it, and [len()] is the end of the value.  If it returned [Err] or panicked,
    either [len()] is unchanged and at most the padding was received, or [len()] is the aligned position
    where the value was to go and at least the padding was received.  The call fails only because the
    sink did, with the same outcome, and the failing sink call was the last one. *)
Theorem C87_one_call : forall W tg l (pi : panic_impl W) delivered t s al bs o w w' r,
  target_ok tg = true -> p_lawful pi delivered -> op_ok tg l (OpStd t s) ->
  std_align l t = Some al -> bytes_of tg t s = Some bs ->
  least_aligned al (writer_len w) o -> o + len bs < umod tg ->
  p_write_std tg l pi t s w = (w', r) ->
  exists got, delivered (w_inner w') = (delivered (w_inner w) ++ got)%list
    /\ prefix got (zero_bytes (o - writer_len w) ++ bs)%list
    /\ match r with
       | WOk o' => o' = o /\ got = (zero_bytes (o - writer_len w) ++ bs)%list /\ writer_len w' = o + len bs
       | WErr _ | WPanic =>
           ((writer_len w' = writer_len w /\ len got <= o - writer_len w)
            \/ (writer_len w' = o /\ o - writer_len w <= len got))
           /\ exists s0 bs0, pi s0 bs0 = (w_inner w', match r with WErr e => SErr e | _ => SPanic end)
       | WUb => False
       end.
Proof. exact C87_one_call_proof. Qed.
Print Assumptions C87_one_call.

(** C87, append only.  Whatever user code does, whichever panics happen and are caught, bytes already
    delivered are never changed. *)
Theorem C87_append_only : forall W tg l (pi : panic_impl W) delivered u w w' ev r,
  p_lawful pi delivered -> run_uclient tg l pi u w = (w', (ev, r)) ->
  prefix (delivered (w_inner w)) (delivered (w_inner w')).
Proof. exact C87_append_only_proof. Qed.
Print Assumptions C87_append_only.

(** C87, image.  As C48's image theorem, for user code that may catch panics and a sink that may panic:
    if every [Writer::write_std140] call on a fresh [Writer] succeeded, the sink received exactly the
    written values, each at the first aligned position after the previous one, and zeros elsewhere. *)
Theorem C87_image : forall W tg l (pi : panic_impl W) delivered inner u w ev r ps places total,
  target_ok tg = true -> p_lawful pi delivered -> uclient_ok tg l u ->
  run_uclient tg l pi u (writer_new inner) = (w, (ev, r)) -> calls_ok ev ->
  Forall2 (fun e p => ev_part tg l e = Some p) ev ps -> laid_out 0 ps places total ->
  (t_checks tg = true \/ total < umod tg) ->
  (exists img, delivered (w_inner w) = (delivered inner ++ img)%list /\ image places total img)
  /\ map ev_result ev = map WOk (map fst places)
  /\ writer_len w = total.
Proof. exact C87_image_proof. Qed.
Print Assumptions C87_image.

(** C87, failures.  Code that uses [?] on its calls and catches no panic stops at the first call that
    fails or panics, ends the same way, and leaves a prefix of the bytes of the fault-free run; [len()]
    never exceeds the number of bytes received.  If no call fails, it does exactly what the fault-free
    run does. *)
Theorem C87_failure_leaves_prefix : forall W tg l (pi : panic_impl W) delivered inner c w ev r w0 ev0 r0,
  target_ok tg = true -> p_lawful pi delivered -> client_ok tg l c -> propagates c ->
  run_uclient tg l pi (no_catch c) (writer_new inner) = (w, (ev, r)) ->
  run_client tg l vec_sink c (writer_new []) = (w0, (ev0, r0)) ->
  exists got, delivered (w_inner w) = (delivered inner ++ got)%list
    /\ prefix got (w_inner w0)
    /\ writer_len w <= len got
    /\ ((ev = ev0 /\ r = r0 /\ got = w_inner w0 /\ writer_len w = writer_len w0)
        \/ exists pre t s x post,
             ev = (pre ++ [(t, s, r)])%list /\ (r = WPanic \/ exists e, r = WErr e) /\ calls_ok pre
             /\ ev0 = (pre ++ (t, s, x) :: post)%list).
Proof. exact C87_failure_leaves_prefix_proof. Qed.
Print Assumptions C87_failure_leaves_prefix.

(** C87, histories.  After any sequence of [write]s on a fresh [Writer] whose errors and panics are all
    caught and ignored: every value whose write returned [Ok] is in the output, at the offset returned
    plus a shift; the shifts never decrease, and the output is as long as [len()] plus the last shift.
    The shift is 0 exactly if the output holds these values at their offsets, zeros elsewhere, and has
    length [len()]. *)
Theorem C87_history : forall W tg l (pi : panic_impl W) delivered inner xs w rs ps places total,
  target_ok tg = true -> p_lawful pi delivered -> typed_all tg l xs ->
  parts tg l (WSeq (map leaf xs)) = Some ps -> laid_out 0 ps places total -> total < umod tg ->
  p_writes tg l pi (map leaf xs) (writer_new inner) = (w, rs) ->
  length rs = length xs
  /\ Forall (fun r => (exists o, r = WOk o) \/ (exists e, r = WErr e) \/ r = WPanic) rs
  /\ exists got d ds, delivered (w_inner w) = (delivered inner ++ got)%list
     /\ len got = writer_len w + d
     /\ shifted 0 (succeeded rs ps) ds d got
     /\ (d = 0 <-> image (succeeded rs ps) (writer_len w) got).
Proof. exact C87_history_proof. Qed.
Print Assumptions C87_history.

(** C87, offsets in histories.  The values whose write returned [Ok] do not overlap, each is at a
    multiple of its alignment, none is later than it would be without failures, and [len()] is at or after
    the end of the last one and at most what it would be without failures. *)
Theorem C87_history_offsets : forall W tg l (pi : panic_impl W) delivered inner xs w rs ps places total,
  target_ok tg = true -> p_lawful pi delivered -> typed_all tg l xs ->
  parts tg l (WSeq (map leaf xs)) = Some ps -> laid_out 0 ps places total -> total < umod tg ->
  p_writes tg l pi (map leaf xs) (writer_new inner) = (w, rs) ->
  increasing 0 (succeeded rs ps) (writer_len w) /\ writer_len w <= total
  /\ forall i o al bs, nth_error rs i = Some (WOk o) -> nth_error ps i = Some (al, bs) ->
     aligned al o /\ forall o' bs', nth_error places i = Some (o', bs') -> o <= o'.
Proof. exact C87_history_offsets_proof. Qed.
Print Assumptions C87_history_offsets.

(** C87, iterators.  [write_iter] on an iterator that yields [xs] and then panics: if every item
    succeeds, [write_iter] panics and the [Writer] is as after writing the items one by one; otherwise it
    ends like the first item that fails or panics, and the iterator was not called again. *)
Theorem C87_iterator_panic : forall W I tg l (pi : panic_impl W) (next : I -> pnext * I) it xs it1 it2 w,
  p_pulled next it xs it1 -> next it1 = (NPanic, it2) ->
  exists fuel0 itf w' r,
    (forall fuel, (fuel0 <= fuel)%nat -> p_write_iter tg l pi next fuel it w = Some (itf, (w', r)))
    /\ ((wrote tg l pi w xs w' /\ itf = it2 /\ r = WPanic)
        \/ exists ys x zs w1 ev,
             xs = (ys ++ x :: zs)%list /\ p_pulled next it (ys ++ [x]) itf /\ wrote tg l pi w ys w1
             /\ run_uclient tg l pi x w1 = (w', (ev, r)) /\ forall o, r <> WOk o).
Proof. exact C87_iterator_panic_proof. Qed.
Print Assumptions C87_iterator_panic.

(** Three [Vec3]s and a [u32] in std140 on a [Vec] that may hold 30 bytes: the third write panics while
    padding, with [len()] unchanged; so does the last, without padding. *)
Example C87_ex_capped :
  p_lawful (capped_vec 30) (fun v => v)
  /\ (exists w, p_writes x86_64 L140 (capped_vec 30)
       [WLeaf vec3f (v3 1 2 3); WLeaf vec3f (v3 1 2 3); WLeaf vec3f (v3 1 2 3); WLeaf (HPrim PU32) (bits 7)] (writer_new [])
       = (w, [WOk 0; WOk 16; WPanic; WPanic]) /\ writer_len w = 28 /\ len (w_inner w) = 30).
Proof. exact C87_ex_capped_proof. Qed.

(** A panic half-way through the first value: [len()] stays 0 although two bytes were taken, and the next
    value is found two bytes after the offset returned for it. *)
Example C87_ex_history :
  exists w bs xs, xs = [(vec3f, v3 1 2 3); (vec3f, v3 4 5 6)]
  /\ p_lawful moody snd /\ typed_all x86_64 L140 xs
  /\ p_writes x86_64 L140 moody (map leaf xs) (writer_new ([SPanic], [])) = (w, [WPanic; WOk 0])
  /\ writer_len w = 12 /\ len (snd (w_inner w)) = 14
  /\ as_std_bytes x86_64 L140 vec3f (v3 4 5 6) = Some bs
  /\ read_at (snd (w_inner w)) (0 + 2) 12 = Some bs /\ read_at (snd (w_inner w)) 0 12 <> Some bs.
Proof. exact C87_ex_history_proof. Qed.

(** An iterator that yields one [Vec3] and then panics. *)
Example C87_ex_iterator :
  p_pulled once 0%nat [no_catch (c_leaf x86_64 L140 vec3f (v3 1 2 3))] 1%nat /\ once 1%nat = (NPanic, 2%nat)
  /\ exists w, p_write_iter x86_64 L140 moody once 5 0%nat (writer_new ([], [])) = Some (2%nat, (w, WPanic))
     /\ writer_len w = 12.
Proof. exact C87_ex_iterator_proof. Qed.

(** User code that writes a value, catches a panic of the second write and then writes the value again. *)
Example C87_ex_catch :
  exists t s al bs u w ev, out_ty x86_64 L140 vec3f = Some t /\ as_std x86_64 L140 vec3f (v3 1 2 3) = Some s
  /\ std_align L140 t = Some al /\ bytes_of x86_64 t s = Some bs /\ op_ok x86_64 L140 (OpStd t s)
  /\ u = UStd t s (fun r => UStd t s (fun r => match r with CPan => UStd t s stop | r => stop r end))
  /\ uclient_ok x86_64 L140 u
  /\ run_uclient x86_64 L140 moody u (writer_new (repeat SOk 5 ++ [SPanic], [])%list) = (w, (ev, WOk 16))
  /\ map ev_result ev = [WOk 0; WPanic; WOk 16] /\ writer_len w = 28 /\ len (snd (w_inner w)) = 30.
Proof. exact C87_ex_catch_proof. Qed.

(** A slice of three [Vec3]s on a [Vec] that may hold 30 bytes: the write panics, and the 30 bytes are the
    first 30 of the 44 of the fault-free run. *)
Example C87_ex_failure :
  exists x w ev w0 ev0 o, x = WSeq [WLeaf vec3f (v3 1 2 3); WLeaf vec3f (v3 4 5 6); WLeaf vec3f (v3 7 8 9)]
  /\ wval_ok x86_64 L140 x
  /\ client_ok x86_64 L140 (c_val x86_64 L140 x) /\ propagates (c_val x86_64 L140 x)
  /\ run_uclient x86_64 L140 (capped_vec 30) (no_catch (c_val x86_64 L140 x)) (writer_new []) = (w, (ev, WPanic))
  /\ run_client x86_64 L140 vec_sink (c_val x86_64 L140 x) (writer_new []) = (w0, (ev0, WOk o))
  /\ len (w_inner w) = 30 /\ len (w_inner w0) = 44 /\ w_inner w = firstn 30 (w_inner w0) /\ writer_len w = 28.
Proof. exact C87_ex_failure_proof. Qed.
