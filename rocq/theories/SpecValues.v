(** * Specification vocabulary: the values of a GLSL type

    Independent of crevice, except for the last definition. *)

From Coq Require Import NArith String Bool List.
From Verif Require Import SpecGlsl SpecBlock SpecGpu.
Import ListNotations.
Local Open Scope string_scope.
Local Open Scope N_scope.

(** The values of a scalar type: a [bool], or any 32-bit (for [double], 64-bit) pattern. *)
Definition scalar_has (s : gscalar) (x : gval) : Prop :=
  match s, x with
  | GBool, GVBool _ => True
  | GDouble, GVBits n => n < 2 ^ 64
  | GFloat, GVBits n | GInt, GVBits n | GUint, GVBits n => n < 2 ^ 32
  | _, _ => False
  end.

Definition vec_has (s : gscalar) (n : nat) (x : gval) : Prop :=
  match x with
  | GVVec xs => length xs = n /\ Forall (scalar_has s) xs
  | _ => False
  end.

(** [x] is a value of the GLSL type [g]: a vector has the right number of components, a
    matrix the right number of columns, an array the right number of elements, a structure
    the right members in the right order. *)
Fixpoint gval_has (g : gty) (x : gval) {struct g} : Prop :=
  match g with
  | GScalar s => scalar_has s x
  | GVec s n => vec_has s n x
  | GMat s cols rows =>
    match x with GVMat xs => length xs = cols /\ Forall (vec_has s rows) xs | _ => False end
  | GArr e n =>
    match x with GVArr xs => length xs = n /\ Forall (gval_has e) xs | _ => False end
  | GStruct _ fs =>
    match x with
    | GVStruct xs =>
      (fix go (fs : list (string * gty)) (xs : list (string * gval)) : Prop :=
         match fs, xs with
         | [], [] => True
         | (f, ft) :: fs', (f', y) :: xs' => f = f' /\ gval_has ft y /\ go fs' xs'
         | _, _ => False
         end) fs xs
    | _ => False
    end
  end.

(** a block whose members are of types whose host values are determined by the GLSL value *)
Definition block_plain (b : block) : bool :=
  forallb (fun m => match snd m with MVal h _ => plain h | MSlice h _ => plain h end) b.
