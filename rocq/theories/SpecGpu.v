(** * Specification vocabulary for shaders that write buffers *)

From Coq Require Import NArith String Bool List.
From Coq Require Import Strings.Byte.
From Verif Require Import Rust Host SpecGlsl SpecHost SpecTypes SpecBuf.
Import ListNotations.
Local Open Scope string_scope.
Local Open Scope N_scope.

(** A shader stores the value [x] into a variable of type [g] that starts at byte [off]:
    afterwards the variable reads as [x] and no byte outside the variable has changed.
    Nothing is assumed about padding inside the variable, nor about which nonzero word
    represents [true]. *)
Definition stored (tg : target) (l : lay) (g : gty) (x : gval) (off : N) (buf buf' : list byte) : Prop :=
  len buf' = len buf
  /\ gread tg l g buf' off = Some x
  /\ forall i, i < off \/ off + gsize l g <= i -> byte_at buf' i = byte_at buf i.

(** The host reads a value of type [h] from byte [off] on: it takes the bytes of
    [<h as AsStdN>::Output], reinterprets them, and calls [from_stdN]. *)
Definition host_reads (tg : target) (l : lay) (h : hty) (buf : list byte) (off : N) (v : hval) : Prop :=
  exists t bs s, out_ty tg l h = Some t /\ read_at buf off (size_of tg t) = Some bs
    /\ from_bytes tg t bs = Some s /\ from_std tg l h s = Some v.

(** ** Rust assignments [v.a.b.c = w] *)

(** replace the binding of [f] *)
Fixpoint put {A} (f : string) (y : A) (xs : list (string * A)) : list (string * A) :=
  match xs with
  | [] => []
  | (g, x) :: r => if String.eqb f g then (g, y) :: r else (g, x) :: put f y r
  end.

(** the type of the place [v.a.b.c] *)
Inductive type_at : hty -> list string -> hty -> Prop :=
| type_here : forall h, type_at h [] h
| type_struct : forall n fs f hf r h', assoc f fs = Some hf -> type_at hf r h' ->
    type_at (HStruct n fs) (f :: r) h'
| type_math : forall ru std fs f hf r h', assoc f fs = Some hf -> type_at hf r h' ->
    type_at (HEasy ru std fs) (f :: r) h'
| type_minty : forall ru m f r h', type_at m (f :: r) h' -> type_at (HMinty ru m) (f :: r) h'.

(** [assigned v path w v']: [v'] is [v] after [v.path = w] *)
Inductive assigned : hval -> list string -> hval -> hval -> Prop :=
| assigned_here : forall v w, assigned v [] w w
| assigned_field : forall vs f r w z z', assoc f vs = Some z -> assigned z r w z' ->
    assigned (HVRec vs) (f :: r) w (HVRec (put f z' vs))
| assigned_minty : forall v f r w v', assigned v (f :: r) w v' ->
    assigned (HVMinty v) (f :: r) w (HVMinty v').

(** Types whose host values are determined by the GLSL value: no user-supplied layout
    values (whose padding GLSL does not see) and no [crevice::Bool] (where several words
    stand for [true]); Rust's own [bool] is fine. *)
Fixpoint plain (h : hty) : bool :=
  match h with
  | HPrim PBool => false
  | HPrim _ | HBool => true
  | HEasy _ _ fs | HStruct _ fs => forallb (fun nf => plain (snd nf)) fs
  | HMinty _ m => plain m
  | HDyn h' => plain h'
  | HOut _ _ => false
  end.

(** The statements [out.f = in.f;] for the listed members [f], as in the shader of
    /repo/crevice-tests/src/gpu.rs:53-66. *)
Inductive copied_members (tg : target) (l : lay) (g : gty) (inb : list byte) (ioff ooff : N)
  : list string -> list byte -> list byte -> Prop :=
| copied_none : forall b, copied_members tg l g inb ioff ooff [] b b
| copied_next : forall f fs o gf x b b1 b2,
    gpath_offset l g [f] = Some (o, gf) -> gread tg l gf inb (ioff + o) = Some x ->
    stored tg l gf x (ooff + o) b b1 -> copied_members tg l g inb ioff ooff fs b1 b2 ->
    copied_members tg l g inb ioff ooff (f :: fs) b b2.
