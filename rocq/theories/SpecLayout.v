(** * Specification: the types that implement [Std140] / [Std430], hand-written ones included *)

From Coq Require Import NArith String Bool List.
From Coq Require Import Strings.Byte.
From Verif Require Import Rust Internal Prims Derive Host.
Import ListNotations.
Local Open Scope string_scope.
Local Open Scope N_scope.

(** What an [unsafe impl StdN for T { const ALIGNMENT: usize = a; }] promises: [a] is a power of
    two (the documented requirement), and a [usize]; [T] is [Pod]: every value can be
    read as bytes, i.e. has no uninitialised ones;
    its size is one the compiler accepts; and [a] is a multiple of Rust's own alignment of [T]. *)
Record hand_written (tg : target) (l : lay) (t : sty) : Prop := HandWritten {
  hw_alignment : exists k, std_align l t = Some (2 ^ k) /\ 2 ^ k < umod tg /\ (align_of tg t | 2 ^ k);
  hw_size : size_of tg t < t_obj tg;
  hw_pod : forall s, has_sty t s = true -> exists bs, bytes_of tg t s = Some bs
}.

(** Types with the layout: hand-written ones, everything the crate provides, and
    whatever [DynamicUniform] and the derive macros make of such types. *)
Inductive layout_type (tg : target) (l : lay) : sty -> Prop :=
| lt_hand t : hand_written tg l t -> layout_type tg l t
| lt_crate h t : out_ty tg l h = Some t -> layout_type tg l t
| lt_dyn t : l = L140 -> layout_type tg l t -> layout_type tg l (TDyn t)
| lt_derive name fields t :
    (forall f u, In (f, u) fields -> layout_type tg l u) ->
    derive_output tg l name fields = Some t ->
    layout_type tg l t.

(** [derived_part tg l t o u]: an object of type [u] lies at byte offset [o] of every object of type [t], as
    [t] itself, the contents of a [DynamicUniform], or a field of a derived struct (the fields
    of which have layout types), at any depth. *)
Inductive derived_part (tg : target) (l : lay) : sty -> N -> sty -> Prop :=
| dp_here t : derived_part tg l t 0 t
| dp_dyn t o u : l = L140 -> layout_type tg l t -> derived_part tg l t o u -> derived_part tg l (TDyn t) o u
| dp_field name fields t f u o o' v :
    (forall f u, In (f, u) fields -> layout_type tg l u) ->
    derive_output tg l name fields = Some t ->
    In (f, u) fields -> assoc f (field_offsets tg t) = Some o ->
    derived_part tg l u o' v -> derived_part tg l t (o + o') v.

(** ALIGNMENT and size of each of some types *)
Definition metrics (tg : target) (l : lay) (fields : list (string * sty)) : option (list (N * N)) :=
  map_opt (fun f => match std_align l (snd f) with Some a => Some (a, size_of tg (snd f)) | None => None end) fields.
