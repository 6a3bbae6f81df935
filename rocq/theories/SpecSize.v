(** * Specification: how much data a GLSL type holds *)

From Coq Require Import NArith String List.
From Verif Require Import SpecGlsl.
Import ListNotations.
Local Open Scope N_scope.

(** number of scalar components *)
Fixpoint components (g : gty) : N :=
  match g with
  | GScalar _ => 1
  | GVec _ n => N.of_nat n
  | GMat _ c r => N.of_nat c * N.of_nat r
  | GArr e n => N.of_nat n * components e
  | GStruct _ fs => fold_right (fun nf s => components (snd nf) + s) 0 fs
  end.

(** bytes of all scalar components together *)
Fixpoint data_size (g : gty) : N :=
  match g with
  | GScalar s => scalar_size s
  | GVec s n => N.of_nat n * scalar_size s
  | GMat s c r => N.of_nat c * N.of_nat r * scalar_size s
  | GArr e n => N.of_nat n * data_size e
  | GStruct _ fs => fold_right (fun nf s => data_size (snd nf) + s) 0 fs
  end.

Definition sum (ns : list N) : N := fold_right N.add 0 ns.
Definition largest (ns : list N) : N := fold_right N.max 0 ns.
