(** * Specification: retrying after I/O errors *)

From Coq Require Import NArith List.
From Coq Require Import Strings.Byte.
From Verif Require Import Rust Host Buffer SpecBuf.
Import ListNotations.
Local Open Scope N_scope.

Section Retry.
  Context {W : Type} (tg : target) (l : lay) (wi : write_impl W).

  (** [loop { if let Ok(o) = writer.write(&x) { break o } }]: any number of failed
      attempts, then a successful one returning [o]. *)
  Inductive retried : writer W -> wval -> writer W -> N -> Prop :=
  | retried_ok w x w' o :
      writer_write tg l wi w x = (w', WOk o) -> retried w x w' o
  | retried_err w x w1 e w' o :
      writer_write tg l wi w x = (w1, WErr e) -> retried w1 x w' o -> retried w x w' o.

  (** the same for several values, one after the other *)
  Inductive retried_all : writer W -> list wval -> writer W -> list N -> Prop :=
  | ra_nil w : retried_all w [] w []
  | ra_cons w x w1 o xs w' os :
      retried w x w1 o -> retried_all w1 xs w' os -> retried_all w (x :: xs) w' (o :: os).
End Retry.

(** [shifted from ds to ps got]: the contents of the placements are found in [got], each at its
    offset plus a shift; the shifts start at [from] or later, never decrease, and end at [to] or
    before. *)
Fixpoint shifted (from : N) (ps : list placement) (ds : list N) (to : N) (got : list byte) : Prop :=
  match ps, ds with
  | [], [] => from <= to
  | (o, bs) :: ps', d :: ds' =>
    from <= d /\ read_at got (o + d) (len bs) = Some bs /\ shifted d ps' ds' to got
  | _, _ => False
  end.

(** an all-or-nothing sink: on [Err] nothing of the argument was delivered *)
Definition atomic {W} (wi : write_impl W) (delivered : W -> list byte) : Prop :=
  forall s bs s' e, wi s bs = (s', e) ->
    match e with
    | None => delivered s' = delivered s ++ bs
    | Some _ => delivered s' = delivered s
    end.

(** The placements of the values whose write returned [Ok], at the offsets returned. *)
Fixpoint succeeded (rs : list wres) (ps : list part) : list placement :=
  match rs, ps with
  | WOk o :: rs', (_, bs) :: ps' => (o, bs) :: succeeded rs' ps'
  | _ :: rs', _ :: ps' => succeeded rs' ps'
  | _, _ => []
  end.
