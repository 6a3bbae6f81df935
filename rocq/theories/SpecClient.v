(** * Specification vocabulary for user-defined writers and iterators *)

From Coq Require Import NArith List.
From Coq Require Import Strings.Byte.
From Verif Require Import Rust Prims Host Buffer SpecBuf Client.
Import ListNotations.
Local Open Scope N_scope.

(** every value the implementation passes to [Writer::write_std140] is a value of a
    layout type *)
Fixpoint client_ok (tg : target) (l : lay) (c : client) : Prop :=
  match c with
  | CRet _ | CPanic => True
  | CLen k => forall n, client_ok tg l (k n)
  | CStd t s k => op_ok tg l (OpStd t s) /\ forall r, client_ok tg l (k r)
  end.

(** the implementation uses [?] on every call, i.e. gives up with the error it got *)
Fixpoint propagates (c : client) : Prop :=
  match c with
  | CRet _ | CPanic => True
  | CLen k => forall n, propagates (k n)
  | CStd t s k => (forall e, k (IErr e) = CRet (IErr e)) /\ forall o, propagates (k (IOk o))
  end.

(** the values that were written, with their alignments *)
Definition ev_part (tg : target) (l : lay) (e : event) : option part :=
  let '(t, s, _) := e in
  match std_align l t, bytes_of tg t s with
  | Some a, Some b => Some (a, b)
  | _, _ => None
  end.
Definition ev_result (e : event) : wres := snd e.

(** every call returned [Ok] *)
Definition calls_ok (ev : list event) : Prop := Forall (fun e => exists o, ev_result e = WOk o) ev.

(** [pulled next k it xs it']: [k] calls of [next] from state [it] returned the items
    [xs] (all [Some]) and left the state [it']. *)
Inductive pulled {I A} (next : I -> option A * I) : nat -> I -> list A -> I -> Prop :=
| pulled_0 it : pulled next 0 it [] it
| pulled_S it x it1 k xs it2 :
    next it = (Some x, it1) -> pulled next k it1 xs it2 -> pulled next (S k) it (x :: xs) it2.
