(** * Property theorems (generated from Proofs_Buffer.v by tools/genprops.py; statements only) *)

From Coq Require Import NArith String Bool List Lia ZArith.
From Coq Require Import ZifyBool ZifyN ZifyNat.
From Coq Require Import Strings.Byte.
From Verif Require Import Proofs_Buffer Rust Internal Prims Derive Host Rows Buffer SpecBuf SpecGlsl SpecHost
  Arith RustFacts DeriveFacts TypeFacts SpecLayout LayoutFacts HostFacts GlslFacts BufferFacts WriterFacts Samples.
Import ListNotations.
Local Open Scope string_scope.
Local Open Scope N_scope.


(** C01.  [Sizer::add::<T>()] returns the least multiple of [T]'s ALIGNMENT that is
    at least [len()], and [len()] becomes that offset plus [T]'s size, unless the
    end does not fit in [usize]. *)
Theorem C01_sizer_add : forall tg l h a n s o,
  target_ok tg = true ->
  out_align tg l h = Some a ->                       (* ALIGNMENT of T::Output *)
  std_size_static tg l h = Some n ->                 (* size of T::Output *)
  least_aligned a (sizer_len s) o ->
  o + n < umod tg ->
  exists s', sizer_add tg l h s = Some (Done (o, s')) /\ sizer_len s' = o + n.
Proof. exact C01_sizer_add_proof. Qed.
Print Assumptions C01_sizer_add.

(** C12.  With overflow checks, [Sizer::add] returns the correct offset or panics;
    it panics exactly when the correct end offset is not representable. *)
Theorem C12_sizer_overflow : forall tg l h a n s o,
  target_ok tg = true -> t_checks tg = true ->
  out_align tg l h = Some a -> std_size_static tg l h = Some n ->
  sizer_len s < umod tg ->
  least_aligned a (sizer_len s) o ->
  (o + n < umod tg /\ exists s', sizer_add tg l h s = Some (Done (o, s')) /\ sizer_len s' = o + n)
  \/ (umod tg <= o + n /\ sizer_add tg l h s = Some Panicked).
Proof. exact C12_sizer_overflow_proof. Qed.
Print Assumptions C12_sizer_overflow.

(** C01.  The first [add] on a new [Sizer] returns 0, whatever the type. *)
Theorem C01_first_add : forall tg l h a n,
  target_ok tg = true -> out_align tg l h = Some a -> std_size_static tg l h = Some n -> n < umod tg ->
  exists s', sizer_add tg l h sizer_new = Some (Done (0, s')) /\ sizer_len s' = n.
Proof. exact C01_first_add_proof. Qed.
Print Assumptions C01_first_add.

(** C02.  Writing values with a [Writer] (whose sink does not fail) and adding
    their types to a [Sizer] that has the same [len()] gives the same offsets and
    the same final [len()]; if one panics, so does the other. *)
Theorem C02_sizer_writer_agree : forall W tg l (wi : write_impl W) xs s w,
  target_ok tg = true -> infallible wi -> typed_all tg l xs ->
  sizer_len s = writer_len w ->
  match sizer_run tg l (map fst xs) s with
  | Some (Done (os, s')) =>
      exists w', write_vals tg l wi (map leaf xs) w = (w', (os, None))
                 /\ writer_len w' = sizer_len s'
  | Some Panicked => exists w' os, write_vals tg l wi (map leaf xs) w = (w', (os, Some WPanic))
  | None => False
  end.
Proof. exact C02_sizer_writer_agree_proof. Qed.
Print Assumptions C02_sizer_writer_agree.

(** C02.  In particular for a new [Sizer] and a new [Writer], both of which have [len()] 0. *)
Theorem C02_fresh : forall W tg l (wi : write_impl W) inner xs,
  target_ok tg = true -> infallible wi -> typed_all tg l xs ->
  sizer_len sizer_new = 0 /\ writer_len (writer_new inner) = 0
  /\ match sizer_run tg l (map fst xs) sizer_new with
     | Some (Done (os, s')) =>
         exists w', write_vals tg l wi (map leaf xs) (writer_new inner) = (w', (os, None))
                    /\ writer_len w' = sizer_len s'
     | Some Panicked => exists w' os, write_vals tg l wi (map leaf xs) (writer_new inner) = (w', (os, Some WPanic))
     | None => False
     end.
Proof. exact C02_fresh_proof. Qed.
Print Assumptions C02_fresh.

(** C03.  If every operation of a history on a fresh [Writer] returned [Ok], the
    bytes that reached the sink are exactly the parts of the written values, each
    at the first aligned position after the previous one, and zeros everywhere
    else; [len()] is the total length. *)
Theorem C03_history_image : forall W tg l (wi : write_impl W) delivered inner os w rs ps places total,
  target_ok tg = true -> lawful wi delivered -> Forall (op_ok tg l) os ->
  run_ops tg l wi os (writer_new inner) = (w, rs) -> all_ok rs ->
  ops_parts tg l os = Some ps -> laid_out 0 ps places total ->
  (t_checks tg = true \/ total < umod tg) ->
  (exists img, delivered (w_inner w) = (delivered inner ++ img)%list /\ image places total img)
  /\ increasing 0 places total
  /\ writer_len w = total.
Proof. exact C03_history_image_proof. Qed.
Print Assumptions C03_history_image.

(** C03, offsets: the offsets returned by a sequence of successful [write] calls
    are the positions of the values in the image. *)
Theorem C03_returned_offsets : forall W tg l (wi : write_impl W) delivered inner xs w offs ps places total,
  target_ok tg = true -> lawful wi delivered -> typed_all tg l xs ->
  write_vals tg l wi (map leaf xs) (writer_new inner) = (w, (offs, None)) ->
  parts tg l (WSeq (map leaf xs)) = Some ps -> laid_out 0 ps places total ->
  (t_checks tg = true \/ total < umod tg) ->
  offs = map fst places
  /\ map snd places = map snd ps
  /\ Forall2 (fun x p => as_std_bytes tg l (fst x) (snd x) = Some (snd p) /\ out_align tg l (fst x) = Some (fst p)) xs ps
  /\ exists img, delivered (w_inner w) = (delivered inner ++ img)%list /\ image places total img.
Proof. exact C03_returned_offsets_proof. Qed.
Print Assumptions C03_returned_offsets.

(** C05.  As long as every operation returned [Ok], [len()] is the number of bytes
    the sink received through this [Writer] (modulo [usize::MAX + 1] when overflow
    checks are off; with overflow checks that number fits in [usize]). *)
Theorem C05_len_counts_bytes : forall W tg l (wi : write_impl W) delivered inner os w rs,
  target_ok tg = true -> lawful wi delivered -> Forall (op_ok tg l) os ->
  run_ops tg l wi os (writer_new inner) = (w, rs) -> all_ok rs ->
  exists img, delivered (w_inner w) = (delivered inner ++ img)%list
    /\ writer_len w = len img mod umod tg
    /\ (t_checks tg = true -> len img < umod tg /\ writer_len w = len img).
Proof. exact C05_len_counts_bytes_proof. Qed.
Print Assumptions C05_len_counts_bytes.

(** C04.  Whatever operations are performed on a [Writer], successful, failing or
    panicking, bytes already delivered to the sink are never changed or removed. *)
Theorem C04_append_only : forall W tg l (wi : write_impl W) delivered os w w' rs,
  lawful wi delivered ->
  run_ops tg l wi os w = (w', rs) ->
  prefix (delivered (w_inner w)) (delivered (w_inner w')).
Proof. exact C04_append_only_proof. Qed.
Print Assumptions C04_append_only.

(** C06.  [write_iter(items)], [write(&items[..])], [write_slice] and the loop
    [for x in items { writer.write(x)? }] have the same effect on any sink: same
    sink state, same [len()], same error.  When they succeed, the first two return
    the offset of the first element, or [len()] if there is none. *)
Theorem C06_slice_iter_loop : forall W tg l (wi : write_impl W) (w : writer W) items,
  writer_write tg l wi w (WSeq items) = write_iter tg l wi w items
  /\ (forall h vs, items = map (WLeaf h) vs -> write_slice tg l wi w h vs = write_iter tg l wi w items)
  /\ match write_vals tg l wi items w with
     | (w', (offs, None)) =>
         length offs = length items
         /\ write_iter tg l wi w items
            = (w', WOk (match offs with [] => writer_len w | o :: _ => o end))
     | (w', (offs, Some r)) =>
         (length offs < length items)%nat /\ write_iter tg l wi w items = (w', r)
     end.
Proof. exact C06_slice_iter_loop_proof. Qed.
Print Assumptions C06_slice_iter_loop.

(** C07.  All ways to ask for the size of an [AsStd140] / [AsStd430] value agree. *)
Theorem C07_sizes_agree : forall tg l h v t,
  target_ok tg = true -> out_ty tg l h = Some t -> hval_ok tg h v = true ->
  exists n bs,
    std_size_static tg l h = Some n                                (* T::std140_size_static() *)
    /\ std_size tg l (WLeaf h v) = Some (Done n)                   (* x.std140_size() *)
    /\ as_std_bytes tg l h v = Some bs /\ len bs = n               (* x.as_std140().as_bytes().len() *)
    /\ (exists s, sizer_add tg l h sizer_new = Some (Done (0, s)) /\ sizer_len s = n)
    /\ (exists w, writer_write tg l vec_sink (writer_new []) (WLeaf h v) = (w, WOk 0)
                  /\ writer_len w = n /\ w_inner w = bs).
Proof. exact C07_sizes_agree_proof. Qed.
Print Assumptions C07_sizes_agree.

(** C08.  For any value that can be written (slices, composites), [std140_size()]
    is the number of bytes that writing it to a fresh [Writer] produces ... *)
Theorem C08_size_of_dynamic_values : forall tg l x ps places total,
  target_ok tg = true -> wval_ok tg l x ->
  parts tg l x = Some ps -> laid_out 0 ps places total -> total < umod tg ->
  exists w o, writer_write tg l vec_sink (writer_new []) x = (w, WOk o)
    /\ std_size tg l x = Some (Done (len (w_inner w)))
    /\ len (w_inner w) = total.
Proof. exact C08_size_of_dynamic_values_proof. Qed.
Print Assumptions C08_size_of_dynamic_values.

(** ... and with overflow checks it panics exactly when that number does not fit in
    [usize] (the [unwrap] never fails). *)
Theorem C08_size_panics_iff_overflow : forall tg l x ps places total,
  target_ok tg = true -> t_checks tg = true -> wval_ok tg l x ->
  parts tg l x = Some ps -> laid_out 0 ps places total ->
  std_size tg l x = Some Panicked <-> umod tg <= total.
Proof. exact C08_size_panics_iff_overflow_proof. Qed.
Print Assumptions C08_size_panics_iff_overflow.

(** C09.  If the sink fails while values are written, what it received is a prefix
    of the fault-free byte string, the error is the one reported, and [len()] does
    not exceed the number of bytes received. *)
Theorem C09_failure_leaves_prefix : forall W tg l (wi : write_impl W) delivered inner xs w offs e ps places total,
  target_ok tg = true -> lawful wi delivered -> typed_all tg l xs ->
  write_vals tg l wi (map leaf xs) (writer_new inner) = (w, (offs, e)) ->
  parts tg l (WSeq (map leaf xs)) = Some ps -> laid_out 0 ps places total -> total < umod tg ->
  exists w0 full got,
    write_vals tg l vec_sink (map leaf xs) (writer_new []) = (w0, (map fst places, None))
    /\ w_inner w0 = full /\ image places total full
    /\ delivered (w_inner w) = (delivered inner ++ got)%list /\ prefix got full
    /\ offs = map fst (firstn (length offs) places)
    /\ writer_len w <= len got
    /\ match e with
       | None => got = full
       | Some r => (exists err, r = WErr err) /\ (length offs < length xs)%nat
           (* everything before the failing value arrived, nothing after it was tried *)
           /\ (forall o bs, nth_error places (length offs) = Some (o, bs) -> len got <= o + len bs)
           /\ (forall k o bs, (k < length offs)%nat -> nth_error places k = Some (o, bs) -> o + len bs <= len got)
       end.
Proof. exact C09_failure_leaves_prefix_proof. Qed.
Print Assumptions C09_failure_leaves_prefix.

(** C10.  What [len()] is after a failed [write] of one value, for a writer whose
    [len()] was the number of bytes delivered: if the failure happened while padding
    was being written, [len()] is unchanged (although [k] padding bytes may have
    been delivered); if it happened in the value itself, [len()] includes the
    padding but not the [k] bytes of the value that were delivered. *)
Theorem C10_len_after_error : forall W tg l (wi : write_impl W) delivered h v a bs w w' e o,
  target_ok tg = true -> lawful wi delivered ->
  (exists t, out_ty tg l h = Some t) -> hval_ok tg h v = true ->
  out_align tg l h = Some a -> as_std_bytes tg l h v = Some bs ->
  writer_len w = len (delivered (w_inner w)) ->
  least_aligned a (writer_len w) o -> o + len bs < umod tg ->
  writer_write tg l wi w (WLeaf h v) = (w', WErr e) ->
  (exists k, k <= o - writer_len w
     /\ delivered (w_inner w') = (delivered (w_inner w) ++ repeat x00 (N.to_nat k))%list
     /\ writer_len w' = writer_len w
     /\ len (delivered (w_inner w')) = writer_len w' + k)
  \/ (exists k, (k <= length bs)%nat
     /\ delivered (w_inner w') = (delivered (w_inner w) ++ repeat x00 (N.to_nat (o - writer_len w)) ++ firstn k bs)%list
     /\ writer_len w' = o
     /\ len (delivered (w_inner w')) = writer_len w' + N.of_nat k).
Proof. exact C10_len_after_error_proof. Qed.
Print Assumptions C10_len_after_error.

(** C11.  Writing values through a [Writer] over a [&mut [u8]]: all writes succeed
    exactly when the buffer is at least as large as the [Sizer] says; what is
    written is a prefix of the fault-free image (all of it on success), the rest
    of the buffer keeps its contents. *)
Theorem C11_fixed_buffer : forall tg l xs buf w offs e ps places total,
  target_ok tg = true -> typed_all tg l xs ->
  write_vals tg l slice_sink (map leaf xs) (writer_new ([], buf)) = (w, (offs, e)) ->
  parts tg l (WSeq (map leaf xs)) = Some ps -> laid_out 0 ps places total -> total < umod tg ->
  exists os s filled rest full,
    sizer_run tg l (map fst xs) sizer_new = Some (Done (os, s))
    /\ (e = None <-> sizer_len s <= len buf)
    /\ w_inner w = (filled, rest)
    /\ rest = skipn (length filled) buf /\ len filled + len rest = len buf
    /\ image places total full /\ prefix filled full
    /\ (e = None -> filled = full /\ offs = os).
Proof. exact C11_fixed_buffer_proof. Qed.
Print Assumptions C11_fixed_buffer.

(** C12, Writer: on a sink that does not fail, writing any value with overflow
    checks enabled either succeeds with the correct [len()], or panics, and it
    panics exactly when the correct end offset is not representable. *)
Theorem C12_writer_overflow : forall W tg l (wi : write_impl W) x w ps places total,
  target_ok tg = true -> t_checks tg = true -> infallible wi -> wval_ok tg l x ->
  writer_len w < umod tg ->
  parts tg l x = Some ps -> laid_out (writer_len w) ps places total ->
  (total < umod tg /\ exists w' o, writer_write tg l wi w x = (w', WOk o) /\ writer_len w' = total
     (* the offset of the value; of the first element of a slice *)
     /\ (forall h v, x = WLeaf h v -> map fst places = [o])
     /\ (forall h v xs, x = WSeq (WLeaf h v :: xs) -> hd_error (map fst places) = Some o)
     /\ (forall t s, x = WStd t s -> map fst places = [o])
     /\ (forall t s xs, x = WSeq (WStd t s :: xs) -> hd_error (map fst places) = Some o)
     /\ (x = WSeq [] -> o = writer_len w))
  \/ (umod tg <= total /\ exists w', writer_write tg l wi w x = (w', WPanic)).
Proof. exact C12_writer_overflow_proof. Qed.
Print Assumptions C12_writer_overflow.

(** C13.  Without overflow checks nothing ever panics, and even when the offset
    wraps around, the byte stream is the correct (unbounded) layout: every value is
    at a correctly aligned stream position; reported offsets and [len()] are the
    true ones modulo [usize::MAX + 1]. *)
Theorem C13_wraparound : forall W tg l (wi : write_impl W) delivered inner xs ps places total,
  target_ok tg = true -> t_checks tg = false -> lawful wi delivered -> infallible wi -> typed_all tg l xs ->
  parts tg l (WSeq (map leaf xs)) = Some ps -> laid_out 0 ps places total ->
  exists w offs img,
    write_vals tg l wi (map leaf xs) (writer_new inner) = (w, (offs, None))
    /\ delivered (w_inner w) = (delivered inner ++ img)%list /\ image places total img
    /\ offs = map (fun p => fst p mod umod tg) places
    /\ writer_len w = total mod umod tg.
Proof. exact C13_wraparound_proof. Qed.
Print Assumptions C13_wraparound.

(** C28.  [DynamicUniform<T>]: ALIGNMENT is the larger of 256 and [T]'s, so every
    value is written at a multiple of 256 and of [T]'s ALIGNMENT; the bytes are
    exactly those of the wrapped value; conversions round-trip. *)
Theorem C28_dynamic_uniform : forall W tg (wi : write_impl W) delivered h v a bs w o,
  target_ok tg = true -> lawful wi delivered -> infallible wi ->
  hval_ok tg h v = true -> out_align tg L140 h = Some a -> as_std_bytes tg L140 h v = Some bs ->
  least_aligned (N.max 256 a) (writer_len w) o -> o + len bs < umod tg ->
  out_align tg L140 (HDyn h) = Some (N.max 256 a)
  /\ std_size_static tg L140 (HDyn h) = std_size_static tg L140 h
  /\ as_std_bytes tg L140 (HDyn h) (HVDyn v) = Some bs
  /\ aligned 256 o /\ aligned a o
  /\ (exists w', writer_write tg L140 wi w (WLeaf (HDyn h) (HVDyn v)) = (w', WOk o)
        /\ delivered (w_inner w') = (delivered (w_inner w) ++ repeat x00 (N.to_nat (o - writer_len w)) ++ bs)%list
        /\ writer_len w' = o + len bs)
  /\ (exists s, as_std tg L140 (HDyn h) (HVDyn v) = Some s /\ from_std tg L140 (HDyn h) s = Some (HVDyn v)).
Proof. exact C28_dynamic_uniform_proof. Qed.
Print Assumptions C28_dynamic_uniform.

(** C40.  At a position that is aligned for every part of a value, writing the value
    appends exactly the bytes that a fresh [Writer] produces for it, and [len()]
    grows by [std140_size()]. *)
Theorem C40_position_independent : forall W tg l (wi : write_impl W) delivered x w ps n,
  target_ok tg = true -> lawful wi delivered -> infallible wi -> wval_ok tg l x ->
  parts tg l x = Some ps -> Forall (fun p => aligned (fst p) (writer_len w)) ps ->
  std_size tg l x = Some (Done n) -> writer_len w + n < umod tg ->
  (t_checks tg = true \/ exists places, laid_out 0 ps places n) ->
  exists w' o w0 o0,
    writer_write tg l vec_sink (writer_new []) x = (w0, WOk o0)
    /\ writer_write tg l wi w x = (w', WOk o)
    /\ delivered (w_inner w') = (delivered (w_inner w) ++ w_inner w0)%list
    /\ writer_len w' = writer_len w + n
    /\ o = writer_len w + o0.
Proof. exact C40_position_independent_proof. Qed.
Print Assumptions C40_position_independent.

Example C01_ex :
  target_ok x86_64 = true
  /\ out_align x86_64 L140 point_light = Some 16 /\ std_size_static x86_64 L140 point_light = Some 32
  /\ least_aligned 16 (sizer_len (Sizer 4)) 16 /\ 16 + 32 < umod x86_64
  /\ sizer_add x86_64 L140 point_light (Sizer 4) = Some (Done (16, Sizer 48)).
Proof. exact C01_ex_proof. Qed.

Example C02_ex :
  typed_all x86_64 L140 sample_xs /\ infallible vec_sink
  /\ sizer_run x86_64 L140 (map fst sample_xs) sizer_new = Some (Done ([0; 16; 48; 64; 76; 96], Sizer 256)).
Proof. exact C02_ex_proof. Qed.

(** a history of successful operations; the sink already contains a byte *)
Example C03_ex :
  Forall (op_ok x86_64 L140) sample_ops
  /\ (let '(w, rs) := run_ops x86_64 L140 vec_sink sample_ops (writer_new [xff]) in
      rs = [WOk 0; WOk 16; WOk 80; WOk 88] /\ all_ok rs /\ writer_len w = 96 /\ len (w_inner w) = 97)
  /\ (exists ps, ops_parts x86_64 L140 sample_ops = Some ps /\ length ps = 5%nat).
Proof. exact C03_ex_proof. Qed.

Example C09_ex :
  lawful script_sink snd /\ typed_all x86_64 L140 sample_xs
  /\ (let '(w, (offs, e)) := write_vals x86_64 L140 script_sink (map leaf sample_xs) (writer_new flaky) in
      offs = [0] /\ e = Some (WErr (OtherError 5)) /\ len (snd (w_inner w)) = 7 /\ writer_len w = 4).
Proof. exact C09_ex_proof. Qed.

(** C10 as documented ("len() returns the amount of data written by this Writer")
    is false after an I/O error: the sink below accepts the first value and three
    padding bytes, then fails; it received 7 bytes, [len()] is 4 ... *)
Theorem C10_len_equals_delivered_refuted :
  exists (wi : write_impl (list resp * list byte)) inner x y w1 o1 w2 e,
    lawful wi snd /\ wval_ok x86_64 L140 x /\ wval_ok x86_64 L140 y
    /\ writer_write x86_64 L140 wi (writer_new inner) x = (w1, WOk o1)
    /\ writer_write x86_64 L140 wi w1 y = (w2, WErr e)
    /\ writer_len w2 = 4 /\ len (snd (w_inner w2)) = 7.
Proof. exact C10_len_equals_delivered_refuted_proof. Qed.
Print Assumptions C10_len_equals_delivered_refuted.

(** ... and a caller that ignores the error and writes again gets [Ok(offset)] for a
    position at which the value is not. *)
Theorem C10_write_after_error_misplaced_refuted :
  exists (wi : write_impl (list resp * list byte)) inner x y w1 o1 w2 e w3 o3 bs,
    lawful wi snd
    /\ writer_write x86_64 L140 wi (writer_new inner) x = (w1, WOk o1)
    /\ writer_write x86_64 L140 wi w1 y = (w2, WErr e)
    /\ writer_write x86_64 L140 wi w2 y = (w3, WOk o3)
    /\ parts x86_64 L140 y = Some [(16, bs)]
    /\ o3 = 16 /\ read_at (snd (w_inner w3)) o3 (len bs) <> Some bs
    /\ read_at (snd (w_inner w3)) 19 (len bs) = Some bs.
Proof. exact C10_write_after_error_misplaced_refuted_proof. Qed.
Print Assumptions C10_write_after_error_misplaced_refuted.

Example C10_ex :
  exists w w' e,
    writer_write x86_64 L140 script_sink (writer_new ([RAccept 4; RAccept 12; RAccept 1; RError 7], [])) (WLeaf (HPrim PU32) (bits 2)) = (w, WOk 0)
    /\ writer_len w = len (snd (w_inner w)) /\ least_aligned 16 (writer_len w) 16
    /\ writer_write x86_64 L140 script_sink w (WLeaf point_light light1) = (w', WErr e)
    /\ writer_len w' = 4.
Proof. exact C10_ex_proof. Qed.

Example C11_ex :
  (exists w offs, write_vals x86_64 L140 slice_sink (map leaf sample_xs) (writer_new ([], repeat xaa 256)) = (w, (offs, None)))
  /\ (exists w offs, write_vals x86_64 L140 slice_sink (map leaf sample_xs) (writer_new ([], repeat xaa 255)) = (w, (offs, Some (WErr WriteZero))))
  /\ (exists w offs, write_vals x86_64 L140 slice_sink (map leaf sample_xs) (writer_new ([], repeat xaa 300)) = (w, (offs, None))
      /\ snd (w_inner w) = repeat xaa 44).
Proof. exact C11_ex_proof. Qed.

Example C12_ex :
  target_ok x86_64 = true /\ t_checks x86_64 = true
  /\ sizer_len (Sizer near_end) < umod x86_64
  /\ sizer_add x86_64 L140 vec4f (Sizer near_end) = Some Panicked
  /\ sizer_add x86_64 L140 vec3f (Sizer near_end) = Some (Done (near_end, Sizer (2 ^ 64 - 4)))
  /\ (exists w', writer_write x86_64 L140 io_sink (Writer tt near_end) light_slice = (w', WPanic)).
Proof. exact C12_ex_proof. Qed.

Example C13_ex :
  target_ok avr_release = true /\ t_checks avr_release = false /\ typed_all avr_release L140 many
  /\ umod avr_release = 65536
  /\ (exists w offs, write_vals avr_release L140 io_sink (map leaf many) (writer_new tt) = (w, (offs, None))
        /\ nth_error offs 257 = Some 256 /\ writer_len w = 300 * 256 - 96 - 65536).
Proof. exact C13_ex_proof. Qed.

Example C28_ex :
  out_align x86_64 L140 (HDyn point_light) = Some 256
  /\ hval_ok x86_64 point_light light1 = true
  /\ (exists w, write_vals x86_64 L140 vec_sink [WLeaf (HDyn point_light) (HVDyn light1); WLeaf (HDyn point_light) (HVDyn light2)] (writer_new [])
                = (w, ([0; 256], None)) /\ writer_len w = 288).
Proof. exact C28_ex_proof. Qed.

Example C40_ex :
  wval_ok x86_64 L140 light_slice
  /\ (exists ps, parts x86_64 L140 light_slice = Some ps /\ Forall (fun p => aligned (fst p) (writer_len (Writer [x01] 160))) ps)
  /\ std_size x86_64 L140 light_slice = Some (Done 64).
Proof. exact C40_ex_proof. Qed.

(** a history with a failing operation in the middle; bytes already there survive *)
Example C04_ex :
  lawful script_sink snd
  /\ (exists w r1 r2 r3 r4, run_ops x86_64 L140 script_sink sample_ops (writer_new flaky) = (w, [r1; r2; r3; r4])
       /\ (exists e, r2 = WErr e) /\ (exists o, r4 = WOk o)).
Proof. exact C04_ex_proof. Qed.

Example C05_ex :
  lawful vec_sink (fun v => v) /\ Forall (op_ok x86_64 L140) sample_ops
  /\ (exists w rs, run_ops x86_64 L140 vec_sink sample_ops (writer_new [x07]) = (w, rs)
        /\ rs = [WOk 0; WOk 16; WOk 80; WOk 88] /\ writer_len w = 96 /\ len (w_inner w) = 97).
Proof. exact C05_ex_proof. Qed.

Example C06_ex :
  (exists w, write_vals x86_64 L140 vec_sink [WLeaf vec3f (v3 1 2 3); WLeaf vec3f (v3 4 5 6)] (Writer [x09] 1) = (w, ([16; 32], None))
     /\ write_iter x86_64 L140 vec_sink (Writer [x09] 1) [WLeaf vec3f (v3 1 2 3); WLeaf vec3f (v3 4 5 6)] = (w, WOk 16)
     /\ writer_len w = 44)
  /\ write_iter x86_64 L140 vec_sink (Writer [x09] 1) [] = (Writer [x09] 1, WOk 1)
  /\ (exists w, write_slice x86_64 L140 slice_sink (Writer ([], repeat x07 20) 0) vec3f [v3 1 2 3; v3 4 5 6] = (w, WErr WriteZero)).
Proof. exact C06_ex_proof. Qed.

Example C07_ex :
  (exists t, out_ty x86_64 L430 scene = Some t) /\ hval_ok x86_64 scene scene1 = true
  /\ std_size_static x86_64 L430 scene = Some 128.
Proof. exact C07_ex_proof. Qed.

Example C08_ex :
  wval_ok x86_64 L140 composite
  /\ (exists ps places, parts x86_64 L140 composite = Some ps /\ laid_out 0 ps places 84)
  /\ std_size x86_64 L140 composite = Some (Done 84).
Proof. exact C08_ex_proof. Qed.
