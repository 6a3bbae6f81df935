(** * /repo/src/std140/primitives.rs and /repo/src/std430/primitives.rs

    The built-in layout types and their [ALIGNMENT] and GLSL names. *)

From Coq Require Import NArith String Bool List.
From Verif Require Import Rust Internal.
Import ListNotations.
Local Open Scope string_scope.
Local Open Scope N_scope.

(** A row of the [vectors!] macro: align, glsl_name, name, prim, fields. *)
(* /repo/src/std140/primitives.rs:39-66, /repo/src/std430/primitives.rs:39-66. *)
Record vec_row := VecRow {
  vr_align : N; vr_glsl : string; vr_name : string; vr_prim : prim; vr_fields : list string
}.

(** /repo/src/std140/primitives.rs:68-88 *)
Definition vectors140 : list vec_row := [
  VecRow 8  "vec2" "Vec2" PF32 ["x"; "y"];
  VecRow 16 "vec3" "Vec3" PF32 ["x"; "y"; "z"];
  VecRow 16 "vec4" "Vec4" PF32 ["x"; "y"; "z"; "w"];
  VecRow 8  "ivec2" "IVec2" PI32 ["x"; "y"];
  VecRow 16 "ivec3" "IVec3" PI32 ["x"; "y"; "z"];
  VecRow 16 "ivec4" "IVec4" PI32 ["x"; "y"; "z"; "w"];
  VecRow 8  "uvec2" "UVec2" PU32 ["x"; "y"];
  VecRow 16 "uvec3" "UVec3" PU32 ["x"; "y"; "z"];
  VecRow 16 "uvec4" "UVec4" PU32 ["x"; "y"; "z"; "w"];
  VecRow 8  "bvec2" "BVec2" PBool ["x"; "y"];
  VecRow 16 "bvec3" "BVec3" PBool ["x"; "y"; "z"];
  VecRow 16 "bvec4" "BVec4" PBool ["x"; "y"; "z"; "w"];
  VecRow 16 "dvec2" "DVec2" PF64 ["x"; "y"];
  VecRow 32 "dvec3" "DVec3" PF64 ["x"; "y"; "z"];
  VecRow 32 "dvec4" "DVec4" PF64 ["x"; "y"; "z"; "w"]
].

(** /repo/src/std430/primitives.rs:68-88 *)
Definition vectors430 : list vec_row := [
  VecRow 8  "vec2" "Vec2" PF32 ["x"; "y"];
  VecRow 16 "vec3" "Vec3" PF32 ["x"; "y"; "z"];
  VecRow 16 "vec4" "Vec4" PF32 ["x"; "y"; "z"; "w"];
  VecRow 8  "ivec2" "IVec2" PI32 ["x"; "y"];
  VecRow 16 "ivec3" "IVec3" PI32 ["x"; "y"; "z"];
  VecRow 16 "ivec4" "IVec4" PI32 ["x"; "y"; "z"; "w"];
  VecRow 8  "uvec2" "UVec2" PU32 ["x"; "y"];
  VecRow 16 "uvec3" "UVec3" PU32 ["x"; "y"; "z"];
  VecRow 16 "uvec4" "UVec4" PU32 ["x"; "y"; "z"; "w"];
  VecRow 8  "bvec2" "BVec2" PBool ["x"; "y"];
  VecRow 16 "bvec3" "BVec3" PBool ["x"; "y"; "z"];
  VecRow 16 "bvec4" "BVec4" PBool ["x"; "y"; "z"; "w"];
  VecRow 16 "dvec2" "DVec2" PF64 ["x"; "y"];
  VecRow 32 "dvec3" "DVec3" PF64 ["x"; "y"; "z"];
  VecRow 32 "dvec4" "DVec4" PF64 ["x"; "y"; "z"; "w"]
].

(* /repo/src/std140/primitives.rs:68-88, /repo/src/std430/primitives.rs:68-88. *)
Definition vectors (l : lay) : list vec_row :=
  match l with L140 => vectors140 | L430 => vectors430 end.

(** The struct generated by a row of [vectors!]
    (/repo/src/std140/primitives.rs:39-66, /repo/src/std430/primitives.rs:39-66). *)
Definition vec_sty (l : lay) (r : vec_row) : sty :=
  TStruct l (vr_name r) (vr_align r) (map (fun f => (f, TPrim (vr_prim r))) (vr_fields r)).

(** A field type inside [matrices!]: a vector of the same module, a primitive
    or an array of primitives. *)
(* /repo/src/std140/primitives.rs:95-97, /repo/src/std430/primitives.rs:95-97: the types that occur in [$field_ty]. *)
Inductive mfield := MVec (name : string) | MPrim (p : prim) | MArr (p : prim) (n : N).

(* /repo/src/std140/primitives.rs:90-121, /repo/src/std430/primitives.rs:90-121. *)
Record mat_row := MatRow {
  mr_align : N; mr_glsl : string; mr_name : string; mr_fields : list (string * mfield)
}.

(** /repo/src/std140/primitives.rs:123-179 *)
Definition matrices140 : list mat_row := [
  MatRow 16 "mat2" "Mat2" [("x", MVec "Vec2"); ("_pad_x", MArr PF32 2);
                           ("y", MVec "Vec2"); ("_pad_y", MArr PF32 2)];
  MatRow 16 "mat3" "Mat3" [("x", MVec "Vec3"); ("_pad_x", MPrim PF32);
                           ("y", MVec "Vec3"); ("_pad_y", MPrim PF32);
                           ("z", MVec "Vec3"); ("_pad_z", MPrim PF32)];
  MatRow 16 "mat4" "Mat4" [("x", MVec "Vec4"); ("y", MVec "Vec4");
                           ("z", MVec "Vec4"); ("w", MVec "Vec4")];
  MatRow 16 "dmat2" "DMat2" [("x", MVec "DVec2"); ("y", MVec "DVec2")];
  MatRow 32 "dmat3" "DMat3" [("x", MVec "DVec3"); ("_pad_x", MPrim PF64);
                             ("y", MVec "DVec3"); ("_pad_y", MPrim PF64);
                             ("z", MVec "DVec3"); ("_pad_z", MPrim PF64)];
  MatRow 32 "dmat4" "DMat4" [("x", MVec "DVec4"); ("y", MVec "DVec4");
                             ("z", MVec "DVec4"); ("w", MVec "DVec4")]
].

(** /repo/src/std430/primitives.rs:123-177 *)
Definition matrices430 : list mat_row := [
  MatRow 8  "mat2" "Mat2" [("x", MVec "Vec2"); ("y", MVec "Vec2")];
  MatRow 16 "mat3" "Mat3" [("x", MVec "Vec3"); ("_pad_x", MPrim PF32);
                           ("y", MVec "Vec3"); ("_pad_y", MPrim PF32);
                           ("z", MVec "Vec3"); ("_pad_z", MPrim PF32)];
  MatRow 16 "mat4" "Mat4" [("x", MVec "Vec4"); ("y", MVec "Vec4");
                           ("z", MVec "Vec4"); ("w", MVec "Vec4")];
  MatRow 16 "dmat2" "DMat2" [("x", MVec "DVec2"); ("y", MVec "DVec2")];
  MatRow 32 "dmat3" "DMat3" [("x", MVec "DVec3"); ("_pad_x", MPrim PF64);
                             ("y", MVec "DVec3"); ("_pad_y", MPrim PF64);
                             ("z", MVec "DVec3"); ("_pad_z", MPrim PF64)];
  MatRow 32 "dmat4" "DMat4" [("x", MVec "DVec4"); ("y", MVec "DVec4");
                             ("z", MVec "DVec4"); ("w", MVec "DVec4")]
].

(* /repo/src/std140/primitives.rs:123-179, /repo/src/std430/primitives.rs:123-177. *)
Definition matrices (l : lay) : list mat_row :=
  match l with L140 => matrices140 | L430 => matrices430 end.

(** Resolution of a field type name inside the module (rustc name lookup). *)
(* /repo/src/std140/primitives.rs:106, /repo/src/std430/primitives.rs:106. *)
Definition mfield_sty (l : lay) (m : mfield) : option sty :=
  match m with
  | MVec n =>
    match find (fun r => String.eqb n (vr_name r)) (vectors l) with
    | Some r => Some (vec_sty l r)
    | None => None
    end
  | MPrim p => Some (TPrim p)
  | MArr p n => Some (TArray p n)
  end.

(** The struct generated by a row of [matrices!]
    (/repo/src/std140/primitives.rs:90-121, /repo/src/std430/primitives.rs:90-121). *)
Definition mat_sty (l : lay) (r : mat_row) : option sty :=
  match map_opt (fun nf => match mfield_sty l (snd nf) with
                           | Some t => Some (fst nf, t) | None => None end) (mr_fields r) with
  | Some fs => Some (TStruct l (mr_name r) (mr_align r) fs)
  | None => None
  end.

(** [crate::std140::$std_name] / [crate::std430::$std_name] (path lookup used
    by [easy_impl!], /repo/src/util.rs:8,32). *)
Definition find_std (l : lay) (name : string) : option sty :=
  match find (fun r => String.eqb name (vr_name r)) (vectors l) with
  | Some r => Some (vec_sty l r)
  | None =>
    match find (fun r => String.eqb name (mr_name r)) (matrices l) with
    | Some r => mat_sty l r
    | None => None
    end
  end.

(** [<std140::$name as Glsl>::NAME]
    (/repo/src/std140/primitives.rs:61-63, 116-118 and the same in std430). *)
Definition std_glsl_name (l : lay) (name : string) : option string :=
  match find (fun r => String.eqb name (vr_name r)) (vectors l) with
  | Some r => Some (vr_glsl r)
  | None =>
    match find (fun r => String.eqb name (mr_name r)) (matrices l) with
    | Some r => Some (mr_glsl r)
    | None => None
    end
  end.

(** [ALIGNMENT] of the primitives:
    /repo/src/std140/primitives.rs:7-25, /repo/src/std430/primitives.rs:7-25.
    [u8] implements neither trait. *)
Definition prim_align140 (p : prim) : option N :=
  match p with
  | PF32 => Some 4 | PF64 => Some 8 | PI32 => Some 4 | PU32 => Some 4
  | PBool => Some 4 | PU8 => None
  end.
(* /repo/src/std430/primitives.rs:7-25. *)
Definition prim_align430 (p : prim) : option N :=
  match p with
  | PF32 => Some 4 | PF64 => Some 8 | PI32 => Some 4 | PU32 => Some 4
  | PBool => Some 4 | PU8 => None
  end.

(** [<t as Std140>::ALIGNMENT] / [<t as Std430>::ALIGNMENT]; [None] when [t]
    does not implement the trait.  [DynamicUniformStd140<T>] implements [Std140]
    only (/repo/src/std140/dynamic_uniform.rs:29-31). *)
Fixpoint std_align (l : lay) (t : sty) : option N :=
  match t with
  | TPrim p => match l with L140 => prim_align140 p | L430 => prim_align430 p end
  | TArray _ _ => None
  | TStruct l' _ al _ => if lay_eqb l l' then Some al else None
  | TDyn t' =>
    match l, std_align l t' with
    | L140, Some a => Some (max 256 a)
    | _, _ => None
    end
  end.
