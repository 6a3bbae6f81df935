(** * Specification vocabulary for using the results: copying, reading, zero *)

From Coq Require Import NArith String Bool List.
From Coq Require Import Strings.Byte.
From Verif Require Import Rust Host SpecBuf SpecGlsl.
Import ListNotations.
Local Open Scope N_scope.

(** [buf[o .. o + bs.len()].copy_from_slice(bs)]; [None] is the panic of an index out of
    range. *)
Definition copy_at (buf : list byte) (o : N) (bs : list byte) : option (list byte) :=
  if o + len bs <=? len buf
  then Some (firstn (N.to_nat o) buf ++ bs ++ skipn (N.to_nat (o + len bs)) buf)
  else None.

(** several copies, one after the other *)
Fixpoint copy_all (buf : list byte) (ps : list placement) : option (list byte) :=
  match ps with
  | [] => Some buf
  | (o, bs) :: r => match copy_at buf o bs with Some buf' => copy_all buf' r | None => None end
  end.

(** the GLSL value all of whose components are zero (booleans: false) *)
Definition gzero_scalar (s : gscalar) : gval :=
  match s with GBool => GVBool false | _ => GVBits 0 end.
Fixpoint gzero (g : gty) : gval :=
  match g with
  | GScalar s => gzero_scalar s
  | GVec s n => GVVec (repeat (gzero_scalar s) n)
  | GMat s c r => GVMat (repeat (GVVec (repeat (gzero_scalar s) r)) c)
  | GArr e n => GVArr (repeat (gzero e) n)
  | GStruct _ fs => GVStruct (map (fun nf => (fst nf, gzero (snd nf))) fs)
  end.

(** the type mentions [DynamicUniform] somewhere *)
Fixpoint has_dyn (h : hty) : bool :=
  match h with
  | HPrim _ | HBool => false
  | HEasy _ _ fs | HStruct _ fs => existsb (fun nf => has_dyn (snd nf)) fs
  | HMinty _ m => has_dyn m
  | HDyn _ => true
  | HOut _ h' => has_dyn h'
  end.
