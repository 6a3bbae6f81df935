(** * Property theorems (generated from Proofs_Layout.v by tools/genprops.py; statements only) *)

From Coq Require Import NArith String Bool List Lia ZArith PeanoNat.
From Coq Require Import ZifyBool ZifyN ZifyNat.
From Coq Require Import Strings.Byte.
From Verif Require Import Proofs_Layout Rust Internal Prims Derive Host Buffer Custom SpecGlsl SpecHost SpecTypes SpecBuf SpecLayout
  Arith RustFacts DeriveFacts TypeFacts LayoutFacts HostFacts GlslFacts PadFacts BufferFacts WriterFacts Proofs_Buffer Proofs_Types Samples.
Import ListNotations.
Local Open Scope string_scope.
Local Open Scope N_scope.


(** C86.  Every layout type, however built from hand-written ones, is what a hand-written
    implementation promises: a power of two as ALIGNMENT that is a multiple of Rust's alignment
    (0 only for empty types), and a one-to-one correspondence between values and byte strings of
    the right length, both as seen by [as_bytes]. *)
Theorem C86_closed : forall tg l t,
  target_ok tg = true -> layout_type tg l t ->
  (exists a, std_align l t = Some a
     /\ ((a = 0 /\ size_of tg t = 0) \/ (exists k, a = 2 ^ k /\ a < umod tg /\ (align_of tg t | a))))
  /\ size_of tg t < umod tg
  /\ (forall s, has_sty t s = true ->
        exists bs, bytes_of tg t s = Some bs /\ len bs = size_of tg t /\ from_bytes tg t bs = Some s)
  /\ (forall bs, len bs = size_of tg t ->
        exists s, has_sty t s = true /\ from_bytes tg t bs = Some s /\ bytes_of tg t s = Some bs).
Proof. exact C86_closed_proof. Qed.
Print Assumptions C86_closed.

(** C86.  A struct deriving a layout with such fields: ALIGNMENT is the largest of the fields'
    (at least 16 in std140), every field sits at the first suitable offset after the previous
    one, the size is the end of the last field rounded up to ALIGNMENT, and the compiler adds no
    padding of its own. *)
Theorem C86_derive_layout : forall tg l name fields t,
  target_ok tg = true -> (forall f u, In (f, u) fields -> layout_type tg l u) ->
  derive_output tg l name fields = Some t ->
  exists ms, metrics tg l fields = Some ms
    /\ let A := fold_right N.max (match l with L140 => 16 | L430 => 0 end) (map fst ms) in
       std_align l t = Some A
       /\ map (fun f => assoc (fst f) (field_offsets tg t)) fields = map Some (starts 0 ms)
       /\ size_of tg t = next_aligned (extent 0 ms) A
       /\ (A = 0 \/ (A | size_of tg t))
       /\ (forall ln n al fs, t = TStruct ln n al fs ->
             contiguous 0 (map (fun nf => size_of tg (snd nf)) fs) (map snd (field_offsets tg t)) (size_of tg t)).
Proof. exact C86_derive_layout_proof. Qed.
Print Assumptions C86_derive_layout.

(** C86.  Every part of such a struct, at any depth, is inside it, at a multiple of its own
    ALIGNMENT, and hence properly aligned for Rust too, in an aligned buffer. *)
Theorem C86_nested_alignment : forall tg l t o u a,
  target_ok tg = true -> layout_type tg l t -> derived_part tg l t o u -> std_align l u = Some a ->
  aligned a o /\ o + size_of tg u <= size_of tg t
  /\ (size_of tg u <> 0 -> exists at_, std_align l t = Some at_ /\ (a | at_) /\ (align_of tg u | o)).
Proof. exact C86_nested_alignment_proof. Qed.
Print Assumptions C86_nested_alignment.

(** C86.  [Sizer::add] at any layout type: the least multiple of ALIGNMENT that is at least [len()];
    with overflow checks it panics exactly when the end is not representable. *)
Theorem C86_sizer : forall tg l t a s o,
  target_ok tg = true -> layout_type tg l t -> std_align l t = Some a ->
  sizer_len s < umod tg -> least_aligned a (sizer_len s) o ->
  (o + size_of tg t < umod tg ->
     exists s', sizer_add_std tg l t s = Some (Done (o, s')) /\ sizer_len s' = o + size_of tg t)
  /\ (t_checks tg = true -> umod tg <= o + size_of tg t -> sizer_add_std tg l t s = Some Panicked).
Proof. exact C86_sizer_proof. Qed.
Print Assumptions C86_sizer.

(** C86.  [Writer::write_stdN] and [Writer::write] at any layout type do what [Sizer::add] predicts, and deliver
    zeros up to the offset and then the bytes of the value. *)
Theorem C86_writer : forall W tg l (wi : write_impl W) delivered t s a bs w sz o,
  target_ok tg = true -> lawful wi delivered -> infallible wi -> layout_type tg l t -> has_sty t s = true ->
  std_align l t = Some a -> bytes_of tg t s = Some bs -> sizer_len sz = writer_len w ->
  least_aligned a (writer_len w) o -> o + len bs < umod tg ->
  writer_write tg l wi w (WStd t s) = write_std tg l wi t s w
  /\ exists w' sz', write_std tg l wi t s w = (w', WOk o)
     /\ sizer_add_std tg l t sz = Some (Done (o, sz')) /\ sizer_len sz' = writer_len w' /\ writer_len w' = o + len bs
     /\ delivered (w_inner w') = (delivered (w_inner w) ++ repeat x00 (N.to_nat (o - writer_len w)) ++ bs)%list.
Proof. exact C86_writer_proof. Qed.
Print Assumptions C86_writer.

(** C86.  The derived [as_stdN] at such fields cannot fail, puts the bytes of every field's layout
    value at the field's offset and zeros everywhere else, and the derived [from_stdN] hands
    exactly these values back to the fields. *)
Theorem C86_conversion : forall tg l name fields t vals,
  target_ok tg = true -> (forall f u, In (f, u) fields -> layout_type tg l u) ->
  derive_output tg l name fields = Some t ->
  Forall2 (fun f v => fst f = fst v /\ has_sty (snd f) (snd v) = true) fields vals ->
  exists s bs, derived_as tg l name fields vals = Some s /\ has_sty t s = true /\ bytes_of tg t s = Some bs
    /\ derived_from l name fields s = Some vals
    /\ (forall f u v, In (f, u) fields -> In (f, v) vals ->
          exists o b, assoc f (field_offsets tg t) = Some o /\ bytes_of tg u v = Some b /\ read_at bs o (len b) = Some b)
    /\ (forall i, i < size_of tg t ->
          (forall f u o, In (f, u) fields -> assoc f (field_offsets tg t) = Some o -> ~ (o <= i < o + size_of tg u)) ->
          byte_at bs i = Some x00).
Proof. exact C86_conversion_proof. Qed.
Print Assumptions C86_conversion.

(** C86.  The conversions of Host.v and Custom.v are these conversions, applied to the converted
    fields. *)
Theorem C86_same_code : forall X tg l name (fs : list (string * xty X)) v outs vals,
  map_opt (fun nf => match x_out tg l (snd nf) with Some t => Some (fst nf, t) | None => None end) fs = Some outs ->
  map_opt (fun nf => match xfield (fst nf) v with
                     | Some w => match x_as tg l (snd nf) w with Some s => Some (fst nf, s) | None => None end
                     | None => None end) fs = Some vals ->
  x_as tg l (XStruct name fs) v = derived_as tg l name outs vals.
Proof. exact C86_same_code_proof. Qed.
Print Assumptions C86_same_code.

Theorem C86_power_of_two_needed_refuted :
  ~ (forall tg t name1 fields1 inner name2 fields2 outer f g o1 o2 a,
       target_ok tg = true ->
       (* all promises but "power of two" *)
       std_align L430 t = Some a -> a <> 0 -> a < umod tg -> (align_of tg t | a) -> size_of tg t < t_obj tg ->
       (forall s, has_sty t s = true -> exists bs, bytes_of tg t s = Some bs) ->
       (forall g v, In (g, v) fields1 -> v = t \/ layout_type tg L430 v) ->
       In (f, t) fields1 -> derive_output tg L430 name1 fields1 = Some inner ->
       (forall g v, In (g, v) fields2 -> v = inner \/ layout_type tg L430 v) ->
       In (g, inner) fields2 -> derive_output tg L430 name2 fields2 = Some outer ->
       assoc g (field_offsets tg outer) = Some o1 -> assoc f (field_offsets tg inner) = Some o2 ->
       aligned a (o1 + o2)).
Proof. exact C86_power_of_two_needed_refuted_proof. Qed.
Print Assumptions C86_power_of_two_needed_refuted.

Theorem C86_rust_alignment_needed_refuted :
  ~ (forall tg t name fields u f a k s,
       target_ok tg = true ->
       (* all promises but "a multiple of Rust's alignment" *)
       std_align L430 t = Some a -> a = 2 ^ k -> a < umod tg -> size_of tg t < t_obj tg ->
       (forall s, has_sty t s = true -> exists bs, bytes_of tg t s = Some bs) ->
       (forall g v, In (g, v) fields -> v = t \/ layout_type tg L430 v) ->
       In (f, t) fields -> derive_output tg L430 name fields = Some u -> has_sty u s = true ->
       exists bs, bytes_of tg u s = Some bs).
Proof. exact C86_rust_alignment_needed_refuted_proof. Qed.
Print Assumptions C86_rust_alignment_needed_refuted.

Example C86_ex :
  (forall f u, In (f, u) frame_fields -> layout_type x86_64 L140 u)
  /\ exists t, derive_output x86_64 L140 "Frame" frame_fields = Some t
  /\ layout_type x86_64 L140 t /\ layout_type x86_64 L140 (TDyn t)
  /\ std_align L140 t = Some 4096 /\ size_of x86_64 t = 8192
  /\ map (fun f => assoc f (field_offsets x86_64 t)) ["id"; "view"; "page"] = [Some 0; Some 16; Some 4096]
  /\ Forall2 (fun f v => fst f = fst v /\ has_sty (snd f) (snd v) = true) frame_fields frame_vals
  /\ (exists s bs, derived_as x86_64 L140 "Frame" frame_fields frame_vals = Some s /\ bytes_of x86_64 t s = Some bs /\ len bs = 8192
        /\ wval_ok x86_64 L140 (WSeq [WStd affine (zeroed affine); WStd t s]))
  /\ derived_part x86_64 L140 (TDyn t) 16 affine.
Proof. exact C86_ex_proof. Qed.
