(** * Equality of layout values: [derive(PartialEq)] on the std140 vectors and on [Bool]

    /repo/src/std140/primitives.rs:48 derives [PartialEq] for the vector types; the matrices
    (103), the std430 types (/repo/src/std430/primitives.rs:48, 103), generated structs
    (/repo/crevice-derive/src/layout.rs:167) and [DynamicUniformStd140]
    (/repo/src/std140/dynamic_uniform.rs:25) do not implement it. *)

From Coq Require Import NArith ZArith String Bool List.
From Verif Require Import Rust Internal Prims Derive Host.
Import ListNotations.
Local Open Scope string_scope.
Local Open Scope N_scope.

(** The number an IEEE 754 bit pattern stands for.  Finite numbers are given in units of the
    smallest positive (subnormal) number of the format, so they are integers. *)
(* Platform, not code of the repository: IEEE 754. *)
Inductive fnum := FNaN | FInf (neg : bool) | FFin (z : Z).

(** [ebits], [mbits]: width of the exponent and of the fraction *)
(* Platform, not code of the repository: IEEE 754 decoding. *)
Definition fdecode (ebits mbits n : N) : fnum :=
  let frac := n mod 2 ^ mbits in
  let ex := (n / 2 ^ mbits) mod 2 ^ ebits in
  let neg := N.odd (n / 2 ^ (mbits + ebits)) in
  if ex =? 2 ^ ebits - 1 then (if frac =? 0 then FInf neg else FNaN)
  else
    let m := if ex =? 0 then frac else (2 ^ mbits + frac) * 2 ^ (ex - 1) in
    FFin (if neg then - Z.of_N m else Z.of_N m).

(** [f32 == f32], [f64 == f64]: comparison of the numbers; NaN is unequal to everything *)
(* Platform, not code of the repository: == on f32 and f64. *)
Definition fnum_eq (a b : fnum) : bool :=
  match a, b with
  | FInf s, FInf s' => Bool.eqb s s'
  | FFin x, FFin y => Z.eqb x y
  | _, _ => false
  end.

(** [==] of the primitive types ([Bool]: /repo/src/bool.rs:8) *)
Definition prim_eq (p : prim) (a b : N) : bool :=
  match p with
  | PF32 => fnum_eq (fdecode 8 23 a) (fdecode 8 23 b)
  | PF64 => fnum_eq (fdecode 11 52 a) (fdecode 11 52 b)
  | PBool => Bool_eq a b
  | PI32 | PU32 | PU8 => a =? b
  end.

(** [derive(PartialEq)]: all fields are equal *)
(* /repo/src/std140/primitives.rs:48 (the vectors at /repo/src/std430/primitives.rs:48 do not derive it). *)
Fixpoint fields_eq (p : prim) (fs : list string) (a b : sval) : option bool :=
  match fs with
  | [] => Some true
  | f :: r =>
    match sfield f a, sfield f b, fields_eq p r a b with
    | Some (SBits x), Some (SBits y), Some e => Some (prim_eq p x y && e)
    | _, _, _ => None
    end
  end.

(** [a == b]; [None]: the type does not implement [PartialEq] (or the values are ill-typed) *)
(* /repo/src/std140/primitives.rs:48 (vectors); the matrices at 103 and the std430 types do not derive it. *)
Definition std_eq (t : sty) (a b : sval) : option bool :=
  match t with
  | TPrim p => match a, b with SBits x, SBits y => Some (prim_eq p x y) | _, _ => None end
  | TStruct L140 name _ _ =>
    match find (fun r => String.eqb name (vr_name r)) vectors140 with
    | Some r => if sty_eqb t (vec_sty L140 r) then fields_eq (vr_prim r) (vr_fields r) a b else None
    | None => None
    end
  | _ => None
  end.
