(** * Property theorems (generated from Proofs_Any.v by tools/genprops.py; statements only) *)

From Coq Require Import NArith String Bool List Lia ZArith PeanoNat.
From Coq Require Import ZifyBool ZifyN ZifyNat.
From Coq Require Import Strings.Byte.
From Verif Require Import Proofs_Any Rust Internal Prims Derive Host Buffer Custom CustomAny SpecGlsl SpecHost SpecTypes SpecBuf SpecLayout SpecCustom SpecAny
  Arith RustFacts DeriveFacts TypeFacts LayoutFacts HostFacts GlslFacts PadFacts BufferFacts WriterFacts Proofs_Buffer Proofs_Types Proofs_Use
  Proofs_Custom Proofs_Layout Samples.
Import ListNotations.
Local Open Scope string_scope.
Local Open Scope N_scope.


(** C88.  The layout is that of the [Output]s: a layout type in the sense of C86 (so that its theorems apply). *)
Theorem C88_layout : forall X tg l (T : yty X) t, impls_ok tg l T -> y_out tg l T = Some t -> layout_type tg l t.
Proof. exact C88_layout_proof. Qed.
Print Assumptions C88_layout.

(** C88.  [as_stdN().as_bytes()]: either every part is converted, and the bytes are those of the parts, each at its own
    offset, a multiple of its own ALIGNMENT, and zeros everywhere else; or the conversion of a part panics, and so does
    the whole; then [Writer::write] panics before it touches the writer. *)
Theorem C88_bytes : forall X W tg l (wi : write_impl W) (T : yty X) t v,
  target_ok tg = true -> impls_ok tg l T -> y_out tg l T = Some t -> y_ok T v = true ->
  (exists s bs places, y_as tg l T v = Some s /\ has_sty t s = true /\ bytes_of tg t s = Some bs
     /\ y_places tg l T v = Some places /\ image places (size_of tg t) bs
     /\ Forall2 (fun p pl => (exists s', ai_as (fst p) (snd p) = Some s' /\ bytes_of tg (ai_out (fst p)) s' = Some (snd pl))
                             /\ forall al, std_align l (ai_out (fst p)) = Some al -> aligned al (fst pl)) (y_parts T v) places
     /\ forall w, y_write tg l wi T v w = writer_write tg l wi w (WStd t s))
  \/ (y_as tg l T v = None /\ (exists a x, In (a, x) (y_parts T v) /\ ai_as a x = None)
      /\ forall w, y_write tg l wi T v w = (w, WPanic)).
Proof. exact C88_bytes_proof. Qed.
Print Assumptions C88_bytes.

(** C88.  The derived [from_stdN] undoes the derived [as_stdN] exactly when the implementations do so on the parts. *)
Theorem C88_round_trip : forall X tg l (T : yty X) t v s,
  target_ok tg = true -> impls_ok tg l T -> y_out tg l T = Some t -> y_ok T v = true -> y_as tg l T v = Some s ->
  (y_from tg l T s = Some v <-> forall a x, In (a, x) (y_parts T v) -> exists s', ai_as a x = Some s' /\ ai_from a s' = Some x).
Proof. exact C88_round_trip_proof. Qed.
Print Assumptions C88_round_trip.

(** C88.  [from_stdN] of whatever bytes are in a buffer (written by a shader, padding included): every part is read
    at its own offset and handed to the [from_stdN] of the part. *)
Theorem C88_read_back : forall X tg l (T : yty X) t buf off bs,
  target_ok tg = true -> impls_ok tg l T -> y_out tg l T = Some t -> read_at buf off (size_of tg t) = Some bs ->
  exists s, from_bytes tg t bs = Some s /\ y_from tg l T s = y_read tg l T buf off.
Proof. exact C88_read_back_proof. Qed.
Print Assumptions C88_read_back.

(** C88.  C85's types are such types: the same Output, conversions and writes. *)
Theorem C88_covers_C85 : forall X tg l (T : xty X) t, target_ok tg = true -> x_out tg l T = Some t -> returns_output tg l T ->
  exists Y, y_of tg l T = Some Y /\ y_out tg l Y = Some t /\ impls_ok tg l Y
    /\ (forall v, x_ok tg T v = true -> y_ok Y (yv_of v) = true /\ y_as tg l Y (yv_of v) = x_as tg l T v
          /\ forall W (wi : write_impl W) w, y_write tg l wi Y (yv_of v) w = x_write tg l wi T v w)
    /\ (forall s, y_from tg l Y s = option_map yv_of (x_from tg l T s)).
Proof. exact C88_covers_C85_proof. Qed.
Print Assumptions C88_covers_C85.

Example C88_ex :
  impls_ok x86_64 L140 rig
  /\ (exists t, y_out x86_64 L140 rig = Some t /\ size_of x86_64 t = 128)
  /\ (forall r, y_ok rig (rig_v r) = true /\ y_parts rig (rig_v r) = [(uid, 7); (cam, 1065353216); (uid, 2); (cam, r)])
  /\ (exists s places, y_as x86_64 L140 rig (rig_v 3) = Some s /\ y_from x86_64 L140 rig s = Some (rig_v 3)
        /\ y_places x86_64 L140 rig (rig_v 3) = Some places
        /\ map (fun p => (fst p, len (snd p))) places = [(0, 4); (16, 48); (64, 4); (80, 48)])
  /\ y_as x86_64 L140 rig (rig_v 0) = None
  /\ (exists v, y_read x86_64 L140 rig (repeat x01 140) 8 = Some v
        /\ y_parts rig v = [(uid, 16843009); (cam, 16843009); (uid, 16843009); (cam, 16843009)]).
Proof. exact C88_ex_proof. Qed.

(** C88: the lamp of C85 as such a type *)
Example C88_ex_covers : exists Y, y_of x86_64 L140 lamp = Some Y
  /\ map (fun a => size_of x86_64 (ai_out a)) (y_impls Y) = [12; 4; 4; 4]
  /\ y_as x86_64 L140 Y (yv_of (lamp_v 90)) = x_as x86_64 L140 lamp (lamp_v 90)
  /\ x_as x86_64 L140 lamp (lamp_v 90) <> None.
Proof. exact C88_ex_covers_proof. Qed.
