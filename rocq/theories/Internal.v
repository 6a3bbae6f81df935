(** * /repo/src/internal.rs *)

From Coq Require Import NArith List Bool.
Import ListNotations.
Local Open Scope N_scope.

(** /repo/src/internal.rs:7-13, [align_offset].  [usize] remainder is [N.modulo];
    the short-circuiting [||] guarantees [%] is not evaluated with a zero divisor
    (where Rust would panic), and the subtraction cannot underflow. *)
Definition align_offset (offset alignment : N) : N :=
  if (alignment =? 0) || (offset mod alignment =? 0) then 0
  else alignment - offset mod alignment.

(** /repo/src/internal.rs:17-23, [max]. *)
Definition max (a b : N) : N := if b <? a then a else b.

(** /repo/src/internal.rs:27-40, [max_arr]: the [while i < N] loop over local
    variables [i] and [max].  [None] = index out of bounds panic or fuel
    exhausted (non-termination). *)
Fixpoint max_arr_loop (fuel : nat) (input : list N) (i : nat) (m : N) : option N :=
  if Nat.ltb i (length input) then
    match fuel with
    | O => None
    | S fuel' =>
      match nth_error input i with
      | None => None
      | Some x => max_arr_loop fuel' input (S i) (if m <? x then x else m)
      end
    end
  else Some m.

(* /repo/src/internal.rs:27-40; the loop is [max_arr_loop]. *)
Definition max_arr (input : list N) : option N :=
  max_arr_loop (length input) input 0 0.
