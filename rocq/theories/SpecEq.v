(** * Specification: when two components compare equal *)

From Coq Require Import NArith List String.
From Verif Require Import Rust Prims.
Local Open Scope N_scope.

(** NaN and zero of an IEEE format of [w] bits with infinity at bit pattern [inf] (the top bit
    is the sign) *)
Definition is_nan (w inf n : N) : Prop := inf < n mod 2 ^ (w - 1).
Definition is_zero (w n : N) : Prop := n mod 2 ^ (w - 1) = 0.
Definition float_same (w inf a b : N) : Prop :=
  ~ is_nan w inf a /\ ~ is_nan w inf b /\ (a = b \/ (is_zero w a /\ is_zero w b)).

(** two components: integers and booleans by their words, floats up to the sign of zero, NaN
    never *)
Definition comp_same (p : prim) (a b : N) : Prop :=
  match p with
  | PF32 => float_same 32 2139095040 a b            (* 0x7f80_0000 *)
  | PF64 => float_same 64 9218868437227405312 a b   (* 0x7ff0_0000_0000_0000 *)
  | _ => a = b
  end.

(** [Vec3 { x, y, z }] and so on: the value of a vector type with these components *)
Definition vec_of (r : vec_row) (xs : list N) : sval := SRec (combine (vr_fields r) (map SBits xs)).

(** some component is NaN, or a zero of a floating-point type *)
Definition comp_nan (p : prim) (n : N) : Prop :=
  match p with PF32 => is_nan 32 2139095040 n | PF64 => is_nan 64 9218868437227405312 n | _ => False end.
Definition comp_fzero (p : prim) (n : N) : Prop :=
  match p with PF32 => is_zero 32 n | PF64 => is_zero 64 n | _ => False end.
