(** * Tables of math-library types

    /repo/src/imp/imp_mint.rs, imp_cgmath.rs ([easy_impl!] rows) and
    /repo/src/imp/imp_glam.rs, imp_nalgebra.rs ([minty_impl!] rows). *)

From Coq Require Import NArith String Bool List.
From Verif Require Import Rust Internal Prims Derive Host.
Import ListNotations.
Local Open Scope string_scope.
Local Open Scope N_scope.

(** Element types the tables instantiate the generic math types with. *)
(* The element types in /repo/src/imp/imp_mint.rs:1-44, /repo/src/imp/imp_cgmath.rs:1-44, /repo/src/imp/imp_glam.rs:1-29, /repo/src/imp/imp_nalgebra.rs:1-44. *)
Inductive elem := EF32 | EI32 | EU32 | EBool | EF64.

(* The host type of an element (same files). *)
Definition elem_hty (e : elem) : hty :=
  match e with
  | EF32 => HPrim PF32 | EI32 => HPrim PI32 | EU32 => HPrim PU32
  | EBool => HBool | EF64 => HPrim PF64
  end.

(* Its Rust name (same files). *)
Definition elem_name (e : elem) : string :=
  match e with
  | EF32 => "f32" | EI32 => "i32" | EU32 => "u32" | EBool => "bool" | EF64 => "f64"
  end.

(* Model only. *)
Definition elem_eqb (a b : elem) : bool :=
  match a, b with
  | EF32, EF32 | EI32, EI32 | EU32, EU32 | EBool, EBool | EF64, EF64 => true
  | _, _ => false
  end.

(** A row [Std lib::Ty<elem> { fields }] of [easy_impl!]. *)
(* /repo/src/util.rs:3-4. *)
Record easy_row := EasyRow {
  er_std : string; er_ty : string; er_elem : elem; er_fields : list string
}.

(** /repo/src/imp/imp_mint.rs:1-44, one entry per row, in order. *)
Definition mint_rows : list easy_row := [
  EasyRow "Vec2" "Vector2" EF32 ["x"; "y"];
  EasyRow "Vec3" "Vector3" EF32 ["x"; "y"; "z"];
  EasyRow "Vec4" "Vector4" EF32 ["x"; "y"; "z"; "w"];
  EasyRow "Vec2" "Point2" EF32 ["x"; "y"];
  EasyRow "Vec3" "Point3" EF32 ["x"; "y"; "z"];
  EasyRow "IVec2" "Vector2" EI32 ["x"; "y"];
  EasyRow "IVec3" "Vector3" EI32 ["x"; "y"; "z"];
  EasyRow "IVec4" "Vector4" EI32 ["x"; "y"; "z"; "w"];
  EasyRow "IVec2" "Point2" EI32 ["x"; "y"];
  EasyRow "IVec3" "Point3" EI32 ["x"; "y"; "z"];
  EasyRow "UVec2" "Vector2" EU32 ["x"; "y"];
  EasyRow "UVec3" "Vector3" EU32 ["x"; "y"; "z"];
  EasyRow "UVec4" "Vector4" EU32 ["x"; "y"; "z"; "w"];
  EasyRow "UVec2" "Point2" EU32 ["x"; "y"];
  EasyRow "UVec3" "Point3" EU32 ["x"; "y"; "z"];
  EasyRow "BVec2" "Vector2" EBool ["x"; "y"];
  EasyRow "BVec3" "Vector3" EBool ["x"; "y"; "z"];
  EasyRow "BVec4" "Vector4" EBool ["x"; "y"; "z"; "w"];
  EasyRow "BVec2" "Point2" EBool ["x"; "y"];
  EasyRow "BVec3" "Point3" EBool ["x"; "y"; "z"];
  EasyRow "DVec2" "Vector2" EF64 ["x"; "y"];
  EasyRow "DVec3" "Vector3" EF64 ["x"; "y"; "z"];
  EasyRow "DVec4" "Vector4" EF64 ["x"; "y"; "z"; "w"];
  EasyRow "DVec2" "Point2" EF64 ["x"; "y"];
  EasyRow "DVec3" "Point3" EF64 ["x"; "y"; "z"];
  EasyRow "Mat2" "ColumnMatrix2" EF32 ["x"; "y"];
  EasyRow "Mat3" "ColumnMatrix3" EF32 ["x"; "y"; "z"];
  EasyRow "Mat4" "ColumnMatrix4" EF32 ["x"; "y"; "z"; "w"];
  EasyRow "DMat2" "ColumnMatrix2" EF64 ["x"; "y"];
  EasyRow "DMat3" "ColumnMatrix3" EF64 ["x"; "y"; "z"];
  EasyRow "DMat4" "ColumnMatrix4" EF64 ["x"; "y"; "z"; "w"]
].

(** /repo/src/imp/imp_cgmath.rs:1-44, one entry per row, in order. *)
Definition cgmath_rows : list easy_row := [
  EasyRow "Vec2" "Vector2" EF32 ["x"; "y"];
  EasyRow "Vec3" "Vector3" EF32 ["x"; "y"; "z"];
  EasyRow "Vec4" "Vector4" EF32 ["x"; "y"; "z"; "w"];
  EasyRow "Vec2" "Point2" EF32 ["x"; "y"];
  EasyRow "Vec3" "Point3" EF32 ["x"; "y"; "z"];
  EasyRow "IVec2" "Vector2" EI32 ["x"; "y"];
  EasyRow "IVec3" "Vector3" EI32 ["x"; "y"; "z"];
  EasyRow "IVec4" "Vector4" EI32 ["x"; "y"; "z"; "w"];
  EasyRow "IVec2" "Point2" EI32 ["x"; "y"];
  EasyRow "IVec3" "Point3" EI32 ["x"; "y"; "z"];
  EasyRow "UVec2" "Vector2" EU32 ["x"; "y"];
  EasyRow "UVec3" "Vector3" EU32 ["x"; "y"; "z"];
  EasyRow "UVec4" "Vector4" EU32 ["x"; "y"; "z"; "w"];
  EasyRow "UVec2" "Point2" EU32 ["x"; "y"];
  EasyRow "UVec3" "Point3" EU32 ["x"; "y"; "z"];
  EasyRow "BVec2" "Vector2" EBool ["x"; "y"];
  EasyRow "BVec3" "Vector3" EBool ["x"; "y"; "z"];
  EasyRow "BVec4" "Vector4" EBool ["x"; "y"; "z"; "w"];
  EasyRow "BVec2" "Point2" EBool ["x"; "y"];
  EasyRow "BVec3" "Point3" EBool ["x"; "y"; "z"];
  EasyRow "DVec2" "Vector2" EF64 ["x"; "y"];
  EasyRow "DVec3" "Vector3" EF64 ["x"; "y"; "z"];
  EasyRow "DVec4" "Vector4" EF64 ["x"; "y"; "z"; "w"];
  EasyRow "DVec2" "Point2" EF64 ["x"; "y"];
  EasyRow "DVec3" "Point3" EF64 ["x"; "y"; "z"];
  EasyRow "Mat2" "Matrix2" EF32 ["x"; "y"];
  EasyRow "Mat3" "Matrix3" EF32 ["x"; "y"; "z"];
  EasyRow "Mat4" "Matrix4" EF32 ["x"; "y"; "z"; "w"];
  EasyRow "DMat2" "Matrix2" EF64 ["x"; "y"];
  EasyRow "DMat3" "Matrix3" EF64 ["x"; "y"; "z"];
  EasyRow "DMat4" "Matrix4" EF64 ["x"; "y"; "z"; "w"]
].

(** A row [mint::Ty<elem> => rust] of [minty_impl!]. *)
(* /repo/src/util.rs:61-62. *)
Record minty_row := MintyRow { my_ty : string; my_elem : elem; my_rust : string }.

(** /repo/src/imp/imp_glam.rs, one entry per row, in order (the [BVec] rows, 14-16, are commented out). *)
Definition glam_rows : list minty_row := [
  MintyRow "Vector2" EF32 "glam::Vec2";
  MintyRow "Vector3" EF32 "glam::Vec3";
  MintyRow "Vector4" EF32 "glam::Vec4";
  MintyRow "Vector2" EI32 "glam::IVec2";
  MintyRow "Vector3" EI32 "glam::IVec3";
  MintyRow "Vector4" EI32 "glam::IVec4";
  MintyRow "Vector2" EU32 "glam::UVec2";
  MintyRow "Vector3" EU32 "glam::UVec3";
  MintyRow "Vector4" EU32 "glam::UVec4";
  MintyRow "Vector2" EF64 "glam::DVec2";
  MintyRow "Vector3" EF64 "glam::DVec3";
  MintyRow "Vector4" EF64 "glam::DVec4";
  MintyRow "ColumnMatrix2" EF32 "glam::Mat2";
  MintyRow "ColumnMatrix3" EF32 "glam::Mat3";
  MintyRow "ColumnMatrix4" EF32 "glam::Mat4";
  MintyRow "ColumnMatrix2" EF64 "glam::DMat2";
  MintyRow "ColumnMatrix3" EF64 "glam::DMat3";
  MintyRow "ColumnMatrix4" EF64 "glam::DMat4"
].

(** /repo/src/imp/imp_nalgebra.rs, one entry per row, in order. *)
Definition nalgebra_rows : list minty_row := [
  MintyRow "Vector2" EF32 "nalgebra::Vector2<f32>";
  MintyRow "Vector3" EF32 "nalgebra::Vector3<f32>";
  MintyRow "Vector4" EF32 "nalgebra::Vector4<f32>";
  MintyRow "Point2" EF32 "nalgebra::Point2<f32>";
  MintyRow "Point3" EF32 "nalgebra::Point3<f32>";
  MintyRow "Vector2" EI32 "nalgebra::Vector2<i32>";
  MintyRow "Vector3" EI32 "nalgebra::Vector3<i32>";
  MintyRow "Vector4" EI32 "nalgebra::Vector4<i32>";
  MintyRow "Point2" EI32 "nalgebra::Point2<i32>";
  MintyRow "Point3" EI32 "nalgebra::Point3<i32>";
  MintyRow "Vector2" EU32 "nalgebra::Vector2<u32>";
  MintyRow "Vector3" EU32 "nalgebra::Vector3<u32>";
  MintyRow "Vector4" EU32 "nalgebra::Vector4<u32>";
  MintyRow "Point2" EU32 "nalgebra::Point2<u32>";
  MintyRow "Point3" EU32 "nalgebra::Point3<u32>";
  MintyRow "Vector2" EBool "nalgebra::Vector2<bool>";
  MintyRow "Vector3" EBool "nalgebra::Vector3<bool>";
  MintyRow "Vector4" EBool "nalgebra::Vector4<bool>";
  MintyRow "Point2" EBool "nalgebra::Point2<bool>";
  MintyRow "Point3" EBool "nalgebra::Point3<bool>";
  MintyRow "Vector2" EF64 "nalgebra::Vector2<f64>";
  MintyRow "Vector3" EF64 "nalgebra::Vector3<f64>";
  MintyRow "Vector4" EF64 "nalgebra::Vector4<f64>";
  MintyRow "Point2" EF64 "nalgebra::Point2<f64>";
  MintyRow "Point3" EF64 "nalgebra::Point3<f64>";
  MintyRow "ColumnMatrix2" EF32 "nalgebra::Matrix2<f32>";
  MintyRow "ColumnMatrix3" EF32 "nalgebra::Matrix3<f32>";
  MintyRow "ColumnMatrix4" EF32 "nalgebra::Matrix4<f32>";
  MintyRow "ColumnMatrix2" EF64 "nalgebra::Matrix2<f64>";
  MintyRow "ColumnMatrix3" EF64 "nalgebra::Matrix3<f64>";
  MintyRow "ColumnMatrix4" EF64 "nalgebra::Matrix4<f64>"
].

(** The public field types of the foreign structs: vectors and points have
    scalar fields, (column) matrices have vector fields.  (mint 0.5 and cgmath
    0.18 declare [struct ColumnMatrix3<T> { x: Vector3<T>, .. }] and
    [struct Matrix3<S> { x: Vector3<S>, .. }].) *)
(* Definitions of mint and cgmath, which /repo/src/imp/imp_mint.rs and imp_cgmath.rs rely on through /repo/src/util.rs:14. *)
Definition column_ty (ty : string) : option string :=
  if existsb (String.eqb ty) ["ColumnMatrix2"; "Matrix2"] then Some "Vector2"
  else if existsb (String.eqb ty) ["ColumnMatrix3"; "Matrix3"] then Some "Vector3"
  else if existsb (String.eqb ty) ["ColumnMatrix4"; "Matrix4"] then Some "Vector4"
  else None.

(* Model only: the type as written in a row. *)
Definition full_name (lib ty : string) (e : elem) : string :=
  lib ++ "::" ++ ty ++ "<" ++ elem_name e ++ ">".

(* Model only: the row of a type. *)
Definition find_row (rows : list easy_row) (ty : string) (e : elem) : option easy_row :=
  find (fun r => String.eqb ty (er_ty r) && elem_eqb e (er_elem r)) rows.

(** host type of a vector row *)
(* /repo/src/util.rs:7-28, at a row. *)
Definition vec_row_hty (lib : string) (r : easy_row) : hty :=
  HEasy (full_name lib (er_ty r) (er_elem r)) (er_std r)
        (map (fun f => (f, elem_hty (er_elem r))) (er_fields r)).

(** host type of any row; trait resolution finds the column type's own row *)
(* /repo/src/util.rs:7-28, at a row. *)
Definition row_hty (lib : string) (rows : list easy_row) (r : easy_row) : option hty :=
  match column_ty (er_ty r) with
  | None => Some (vec_row_hty lib r)
  | Some col =>
    match find_row rows col (er_elem r) with
    | Some c =>
      Some (HEasy (full_name lib (er_ty r) (er_elem r)) (er_std r)
                  (map (fun f => (f, vec_row_hty lib c)) (er_fields r)))
    | None => None
    end
  end.

(** [lib::ty<e>] as a host type *)
(* /repo/src/util.rs:3-59, at a row. *)
Definition easy_hty (lib : string) (rows : list easy_row) (ty : string) (e : elem) : option hty :=
  match find_row rows ty e with Some r => row_hty lib rows r | None => None end.

(* /repo/src/imp/imp_mint.rs:1-44. *)
Definition mint_hty := easy_hty "mint" mint_rows.
(* /repo/src/imp/imp_cgmath.rs:1-44. *)
Definition cgmath_hty := easy_hty "cgmath" cgmath_rows.

(* /repo/src/util.rs:61-99, at a row of /repo/src/imp/imp_glam.rs or imp_nalgebra.rs. *)
Definition minty_hty (r : minty_row) : option hty :=
  match mint_hty (my_ty r) (my_elem r) with
  | Some m => Some (HMinty (my_rust r) m)
  | None => None
  end.

(** All math types supported by the crate. *)
(* /repo/src/imp.rs:1-10 and the four tables. *)
Definition all_math_types : list (option hty) :=
  map (row_hty "mint" mint_rows) mint_rows
  ++ map (row_hty "cgmath" cgmath_rows) cgmath_rows
  ++ map minty_hty glam_rows
  ++ map minty_hty nalgebra_rows.
