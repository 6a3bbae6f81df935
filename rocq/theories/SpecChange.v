(** * Specification vocabulary for changes of values and of the order of fields *)

From Coq Require Import NArith String List.
From Verif Require Import Rust Host Buffer SpecBuf.
Import ListNotations.
Local Open Scope N_scope.

(** The same writes with possibly other values: the same types in the same order. *)
Inductive same_types : wval -> wval -> Prop :=
| same_leaf h v v' : same_types (WLeaf h v) (WLeaf h v')
| same_std_leaf t s s' : same_types (WStd t s) (WStd t s')
| same_seq xs ys : Forall2 same_types xs ys -> same_types (WSeq xs) (WSeq ys).

Inductive same_op : op -> op -> Prop :=
| same_write x y : same_types x y -> same_op (OpWrite x) (OpWrite y)
| same_iter xs ys : Forall2 same_types xs ys -> same_op (OpIter xs) (OpIter ys)
| same_std t s s' : same_op (OpStd t s) (OpStd t s').

(** members given as (alignment, size) pairs, in order of decreasing alignment *)
Fixpoint decreasing (ms : list (N * N)) : Prop :=
  match ms with
  | [] => True
  | m :: r => Forall (fun m' => fst m' <= fst m) r /\ decreasing r
  end.

(** the size of each member is a multiple of its alignment (false for 3-vectors) *)
Definition full (ms : list (N * N)) : Prop := Forall (fun m => aligned (fst m) (snd m)) ms.

Definition sum_sizes (ms : list (N * N)) : N := fold_right N.add 0 (map snd ms).
