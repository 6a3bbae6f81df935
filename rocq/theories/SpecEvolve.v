(** * Specification vocabulary for changes of a struct and for optimality of layouts *)

From Coq Require Import NArith String List.
From Verif Require Import Rust Host SpecBuf.
Import ListNotations.
Local Open Scope N_scope.

(** [h'] is [h] with structs and their fields renamed, at any depth. *)
Inductive renamed : hty -> hty -> Prop :=
| ren_same h : renamed h h
| ren_struct n n' fs fs' :
    Forall2 (fun a b => renamed (snd a) (snd b)) fs fs' ->
    renamed (HStruct n fs) (HStruct n' fs')
| ren_dyn h h' : renamed h h' -> renamed (HDyn h) (HDyn h').

(** the same values, possibly under other field names *)
Inductive renamed_val : hval -> hval -> Prop :=
| renv_same v : renamed_val v v
| renv_rec vs vs' :
    Forall2 (fun a b => renamed_val (snd a) (snd b)) vs vs' ->
    renamed_val (HVRec vs) (HVRec vs')
| renv_dyn v v' : renamed_val v v' -> renamed_val (HVDyn v) (HVDyn v').

(** [placed cur ms qs total]: members with the given (alignment, size), in this order, are at
    the offsets [qs], aligned, without overlap, and all within [cur, total). *)
Fixpoint placed (cur : N) (ms : list (N * N)) (qs : list N) (total : N) : Prop :=
  match ms, qs with
  | [], [] => cur <= total
  | (a, s) :: ms', q :: qs' => cur <= q /\ aligned a q /\ placed (q + s) ms' qs' total
  | _, _ => False
  end.
