(** * Specification: the calls a Writer makes on its sink *)

From Coq Require Import NArith List.
From Coq Require Import Strings.Byte.
From Verif Require Import Rust Host Buffer SpecBuf.
Import ListNotations.
Local Open Scope N_scope.

(** one call of [write_all]: its argument and the error it returned, if any *)
Definition call := (list byte * option io_error)%type.

(** a sink that passes everything on to another one and keeps a list of the calls *)
Definition recording {W} (wi : write_impl W) : write_impl (W * list call) :=
  fun st bs => let '(s', e) := wi (fst st) bs in ((s', snd st ++ [(bs, e)])%list, e).

(** one call with one zero byte for every byte of padding, one call with all the bytes of each
    value *)
Fixpoint calls_for (cur : N) (ps : list placement) : list (list byte) :=
  match ps with
  | [] => []
  | (o, bs) :: r => (repeat [x00] (N.to_nat (o - cur)) ++ [bs] ++ calls_for (o + len bs) r)%list
  end.

(** All calls were made and succeeded, or they were made up to the first one that failed, whose
    error is the result. *)
Definition made (expected : list (list byte)) (log : list call) (e : option wres) : Prop :=
  match e with
  | None => log = map (fun bs => (bs, None)) expected
  | Some r => exists n bs err, nth_error expected n = Some bs /\ r = WErr err
      /\ log = (map (fun b => (b, None)) (firstn n expected) ++ [(bs, Some err)])%list
  end.
