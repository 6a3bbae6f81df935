(** * Specification vocabulary for types: offsets by path, acceptance, names *)

From Coq Require Import NArith String Bool List.
From Coq Require Import Strings.Byte.
From Verif Require Import Rust Host SpecGlsl SpecHost.
Import ListNotations.
Local Open Scope string_scope.
Local Open Scope N_scope.

(** Fields of the given sizes at the given offsets fill [cur, total) without
    gaps: the compiler inserted nothing before, between or after them. *)
Fixpoint contiguous (cur : N) (sizes offs : list N) (total : N) : Prop :=
  match sizes, offs with
  | [], [] => cur = total
  | s :: ss, o :: os => o = cur /\ contiguous (cur + s) ss os total
  | _, _ => False
  end.

(** ** Byte offset of a part named by a path of field names *)

(** in Rust: [offset_of!(T, a.b.c)] and the type found there *)
Fixpoint path_offset (tg : target) (t : sty) (path : list string) : option (N * sty) :=
  match path with
  | [] => Some (0, t)
  | f :: r =>
    match t with
    | TStruct _ _ _ fs =>
      match assoc f (field_offsets tg t), assoc f fs with
      | Some o, Some u =>
        match path_offset tg u r with Some (o', u') => Some (o + o', u') | None => None end
      | _, _ => None
      end
    | _ => None
    end
  end.

Fixpoint index_of (f : string) (names : list string) : option N :=
  match names with
  | [] => None
  | g :: r => if String.eqb f g then Some 0
              else match index_of f r with Some k => Some (1 + k) | None => None end
  end.

(** in GLSL: members of structures, components [.x .y .z .w] of vectors, and (with
    the same names, as the math libraries name them) columns of matrices *)
Fixpoint gpath_offset (l : lay) (g : gty) (path : list string) : option (N * gty) :=
  match path with
  | [] => Some (0, g)
  | f :: r =>
    let go (o : N) (g' : gty) :=
      match gpath_offset l g' r with Some (o', g'') => Some (o + o', g'') | None => None end in
    match g with
    | GStruct _ fs =>
      match assoc f (combine (map fst fs) (goffsets l fs)), assoc f fs with
      | Some o, Some g' => go o g'
      | _, _ => None
      end
    | GVec s n =>
      match index_of f (firstn n comp_names) with
      | Some k => go (k * scalar_size s) (GScalar s)
      | None => None
      end
    | GMat s c rows =>
      match index_of f (firstn c comp_names) with
      | Some k => go (k * col_stride l s rows) (GVec s rows)
      | None => None
      end
    | _ => None
    end
  end.

(** ** Extent of a sequence of members, alignment 0 meaning "no requirement" *)
Definition next_aligned (x a : N) : N := if a =? 0 then x else round_up x a.
Fixpoint extent (cur : N) (ms : list (N * N)) : N :=     (* (align, size) *)
  match ms with
  | [] => cur
  | (a, sz) :: r => extent (next_aligned cur a + sz) r
  end.
Fixpoint starts (cur : N) (ms : list (N * N)) : list N :=
  match ms with
  | [] => []
  | (a, sz) :: r => next_aligned cur a :: starts (next_aligned cur a + sz) r
  end.

(** ** Math types: the Rust type and the GLSL type it stands for *)
Definition math_names : list (string * gty) := [
  ("mint::Vector2<f32>", GVec GFloat 2);
  ("mint::Vector3<f32>", GVec GFloat 3);
  ("mint::Vector4<f32>", GVec GFloat 4);
  ("mint::Point2<f32>", GVec GFloat 2);
  ("mint::Point3<f32>", GVec GFloat 3);
  ("mint::Vector2<i32>", GVec GInt 2);
  ("mint::Vector3<i32>", GVec GInt 3);
  ("mint::Vector4<i32>", GVec GInt 4);
  ("mint::Point2<i32>", GVec GInt 2);
  ("mint::Point3<i32>", GVec GInt 3);
  ("mint::Vector2<u32>", GVec GUint 2);
  ("mint::Vector3<u32>", GVec GUint 3);
  ("mint::Vector4<u32>", GVec GUint 4);
  ("mint::Point2<u32>", GVec GUint 2);
  ("mint::Point3<u32>", GVec GUint 3);
  ("mint::Vector2<bool>", GVec GBool 2);
  ("mint::Vector3<bool>", GVec GBool 3);
  ("mint::Vector4<bool>", GVec GBool 4);
  ("mint::Point2<bool>", GVec GBool 2);
  ("mint::Point3<bool>", GVec GBool 3);
  ("mint::Vector2<f64>", GVec GDouble 2);
  ("mint::Vector3<f64>", GVec GDouble 3);
  ("mint::Vector4<f64>", GVec GDouble 4);
  ("mint::Point2<f64>", GVec GDouble 2);
  ("mint::Point3<f64>", GVec GDouble 3);
  ("mint::ColumnMatrix2<f32>", GMat GFloat 2 2);
  ("mint::ColumnMatrix3<f32>", GMat GFloat 3 3);
  ("mint::ColumnMatrix4<f32>", GMat GFloat 4 4);
  ("mint::ColumnMatrix2<f64>", GMat GDouble 2 2);
  ("mint::ColumnMatrix3<f64>", GMat GDouble 3 3);
  ("mint::ColumnMatrix4<f64>", GMat GDouble 4 4);
  ("cgmath::Vector2<f32>", GVec GFloat 2);
  ("cgmath::Vector3<f32>", GVec GFloat 3);
  ("cgmath::Vector4<f32>", GVec GFloat 4);
  ("cgmath::Point2<f32>", GVec GFloat 2);
  ("cgmath::Point3<f32>", GVec GFloat 3);
  ("cgmath::Vector2<i32>", GVec GInt 2);
  ("cgmath::Vector3<i32>", GVec GInt 3);
  ("cgmath::Vector4<i32>", GVec GInt 4);
  ("cgmath::Point2<i32>", GVec GInt 2);
  ("cgmath::Point3<i32>", GVec GInt 3);
  ("cgmath::Vector2<u32>", GVec GUint 2);
  ("cgmath::Vector3<u32>", GVec GUint 3);
  ("cgmath::Vector4<u32>", GVec GUint 4);
  ("cgmath::Point2<u32>", GVec GUint 2);
  ("cgmath::Point3<u32>", GVec GUint 3);
  ("cgmath::Vector2<bool>", GVec GBool 2);
  ("cgmath::Vector3<bool>", GVec GBool 3);
  ("cgmath::Vector4<bool>", GVec GBool 4);
  ("cgmath::Point2<bool>", GVec GBool 2);
  ("cgmath::Point3<bool>", GVec GBool 3);
  ("cgmath::Vector2<f64>", GVec GDouble 2);
  ("cgmath::Vector3<f64>", GVec GDouble 3);
  ("cgmath::Vector4<f64>", GVec GDouble 4);
  ("cgmath::Point2<f64>", GVec GDouble 2);
  ("cgmath::Point3<f64>", GVec GDouble 3);
  ("cgmath::Matrix2<f32>", GMat GFloat 2 2);
  ("cgmath::Matrix3<f32>", GMat GFloat 3 3);
  ("cgmath::Matrix4<f32>", GMat GFloat 4 4);
  ("cgmath::Matrix2<f64>", GMat GDouble 2 2);
  ("cgmath::Matrix3<f64>", GMat GDouble 3 3);
  ("cgmath::Matrix4<f64>", GMat GDouble 4 4);
  ("glam::Vec2", GVec GFloat 2);
  ("glam::Vec3", GVec GFloat 3);
  ("glam::Vec4", GVec GFloat 4);
  ("glam::IVec2", GVec GInt 2);
  ("glam::IVec3", GVec GInt 3);
  ("glam::IVec4", GVec GInt 4);
  ("glam::UVec2", GVec GUint 2);
  ("glam::UVec3", GVec GUint 3);
  ("glam::UVec4", GVec GUint 4);
  ("glam::DVec2", GVec GDouble 2);
  ("glam::DVec3", GVec GDouble 3);
  ("glam::DVec4", GVec GDouble 4);
  ("glam::Mat2", GMat GFloat 2 2);
  ("glam::Mat3", GMat GFloat 3 3);
  ("glam::Mat4", GMat GFloat 4 4);
  ("glam::DMat2", GMat GDouble 2 2);
  ("glam::DMat3", GMat GDouble 3 3);
  ("glam::DMat4", GMat GDouble 4 4);
  ("nalgebra::Vector2<f32>", GVec GFloat 2);
  ("nalgebra::Vector3<f32>", GVec GFloat 3);
  ("nalgebra::Vector4<f32>", GVec GFloat 4);
  ("nalgebra::Point2<f32>", GVec GFloat 2);
  ("nalgebra::Point3<f32>", GVec GFloat 3);
  ("nalgebra::Vector2<i32>", GVec GInt 2);
  ("nalgebra::Vector3<i32>", GVec GInt 3);
  ("nalgebra::Vector4<i32>", GVec GInt 4);
  ("nalgebra::Point2<i32>", GVec GInt 2);
  ("nalgebra::Point3<i32>", GVec GInt 3);
  ("nalgebra::Vector2<u32>", GVec GUint 2);
  ("nalgebra::Vector3<u32>", GVec GUint 3);
  ("nalgebra::Vector4<u32>", GVec GUint 4);
  ("nalgebra::Point2<u32>", GVec GUint 2);
  ("nalgebra::Point3<u32>", GVec GUint 3);
  ("nalgebra::Vector2<bool>", GVec GBool 2);
  ("nalgebra::Vector3<bool>", GVec GBool 3);
  ("nalgebra::Vector4<bool>", GVec GBool 4);
  ("nalgebra::Point2<bool>", GVec GBool 2);
  ("nalgebra::Point3<bool>", GVec GBool 3);
  ("nalgebra::Vector2<f64>", GVec GDouble 2);
  ("nalgebra::Vector3<f64>", GVec GDouble 3);
  ("nalgebra::Vector4<f64>", GVec GDouble 4);
  ("nalgebra::Point2<f64>", GVec GDouble 2);
  ("nalgebra::Point3<f64>", GVec GDouble 3);
  ("nalgebra::Matrix2<f32>", GMat GFloat 2 2);
  ("nalgebra::Matrix3<f32>", GMat GFloat 3 3);
  ("nalgebra::Matrix4<f32>", GMat GFloat 4 4);
  ("nalgebra::Matrix2<f64>", GMat GDouble 2 2);
  ("nalgebra::Matrix3<f64>", GMat GDouble 3 3);
  ("nalgebra::Matrix4<f64>", GMat GDouble 4 4)
].

Definition rust_name (h : hty) : string :=
  match h with HEasy r _ _ => r | HMinty r _ => r | _ => "" end.

(** ** Types whose bytes are the same in both layouts *)
Definition layout_independent (g : gty) : bool :=
  match g with
  | GScalar _ | GVec _ _ => true
  | GMat s c r => negb (gscalar_eqb s GFloat && Nat.eqb c 2 && Nat.eqb r 2)
  | _ => false
  end.

(** ALIGNMENT and size of each field type, as seen through the API *)
Definition field_metrics (tg : target) (l : lay) (fs : list (string * hty)) : option (list (N * N)) :=
  map_opt (fun nf => match out_align tg l (snd nf), std_size_static tg l (snd nf) with
                     | Some a, Some s => Some (a, s) | _, _ => None end) fs.

(** mint calls a matrix [ColumnMatrixN] what cgmath calls [MatrixN] *)
Definition mint_counterpart (ty : string) : string :=
  if String.eqb ty "Matrix2" then "ColumnMatrix2"
  else if String.eqb ty "Matrix3" then "ColumnMatrix3"
  else if String.eqb ty "Matrix4" then "ColumnMatrix4" else ty.


(** ** Declaring the structs of a program *)

(** the struct a field of this type names, if any *)
Fixpoint struct_used (h : hty) : option hty :=
  match h with
  | HStruct _ _ => Some h
  | HMinty _ m => struct_used m
  | _ => None
  end.
Definition struct_ident (h : hty) : string := match h with HStruct n _ => n | _ => "" end.
Definition struct_members (h : hty) : list (string * hty) := match h with HStruct _ fs => fs | _ => [] end.
Definition is_struct (h : hty) : bool := match h with HStruct _ _ => true | _ => false end.

(** Types without a GLSL NAME: [bool], [DynamicUniform] and structs with such a field;
    of the generated [Output] types, all but those of scalars, vectors and matrices. *)
Fixpoint output_lacks_name (h : hty) : bool :=
  match h with
  | HPrim p => match p with PBool | PU8 => true | _ => false end
  | HBool | HDyn _ | HStruct _ _ => true
  | HEasy _ _ _ => false
  | HMinty _ m => output_lacks_name m
  | HOut _ h' => output_lacks_name h'
  end.
Fixpoint lacks_name (h : hty) : bool :=
  match h with
  | HPrim p => match p with PBool | PU8 => true | _ => false end
  | HBool | HDyn _ => true
  | HEasy _ _ _ => false
  | HMinty _ m => lacks_name m
  | HStruct _ fs => existsb (fun nf => lacks_name (snd nf)) fs
  | HOut _ h' => output_lacks_name h'
  end.

(** every struct is listed after the structs its fields use *)
Fixpoint in_order (before hs : list hty) : Prop :=
  match hs with
  | [] => True
  | h :: r => (forall f hf u, In (f, hf) (struct_members h) -> struct_used hf = Some u -> In u before)
              /\ in_order (before ++ [h])%list r
  end.
