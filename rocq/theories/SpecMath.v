(** * Specification: values of the math types *)

From Coq Require Import NArith String Bool List.
From Coq Require Import Strings.Byte.
From Verif Require Import Rust Host SpecGlsl SpecHost.
Import ListNotations.
Local Open Scope string_scope.
Local Open Scope N_scope.

(** A Rust scalar and the GLSL scalar it stands for: a [bool] is a truth value; [f32], [f64],
    [i32] and [u32] are their bits. *)
Inductive scalar_is (s : gscalar) : hval -> gval -> Prop :=
| scalar_bool b : s = GBool -> scalar_is s (HVBool b) (GVBool b)
| scalar_bits n : s <> GBool -> n < 2 ^ (8 * scalar_size s) -> scalar_is s (HVBits n) (GVBits n).

(** [T { x: .., y: .., .. }] *)
Definition fields_of (cs : list hval) : hval := HVRec (combine ["x"; "y"; "z"; "w"] cs).

(** A value of the math type [h] with the components (or columns) [cs].  The fields of mint and
    cgmath types are visible to crevice; of glam and nalgebra types it sees the mint value they
    convert to. *)
Definition math_value (h : hty) (cs : list hval) : hval :=
  match h with HMinty _ _ => HVMinty (fields_of cs) | _ => fields_of cs end.
