(** * Specification: overwriting part of a growable buffer, buffered bytes *)

From Coq Require Import NArith List.
From Coq Require Import Strings.Byte.
From Verif Require Import Rust Sinks SpecBuf.
Import ListNotations.
Local Open Scope N_scope.

(** [b] is [buf] with [img] written over it at position [p].  The buffer grows if necessary;
    bytes between its old end and [p] become zero.  Writing nothing changes nothing. *)
Definition overwritten (buf : list byte) (p : N) (img b : list byte) : Prop :=
  (img = [] -> b = buf)
  /\ (img <> [] ->
      len b = N.max (len buf) (p + len img)
      /\ read_at b p (len img) = Some img
      /\ forall i, i < p \/ p + len img <= i -> i < len b ->
           byte_at b i = match byte_at buf i with Some x => Some x | None => Some x00 end).

(** everything the [BufWriter] has accepted: passed on, or buffered *)
Definition buf_accepted (b : bufw) : list byte := (bw_data b ++ bw_buf b)%list.
