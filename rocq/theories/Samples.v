(** * Sample types and values used by the non-vacuity examples *)

From Coq Require Import NArith String Bool List.
From Coq Require Import Strings.Byte.
From Verif Require Import Rust Internal Prims Derive Host Rows Buffer SpecBuf.
Import ListNotations.
Local Open Scope string_scope.
Local Open Scope N_scope.

(** mint types ([mint_hty] computes them from the tables) *)
Definition vec_hty (rust std : string) (p : hty) (cs : list string) : hty :=
  HEasy rust std (map (fun c => (c, p)) cs).
Definition vec2f : hty := vec_hty "mint::Vector2<f32>" "Vec2" (HPrim PF32) ["x"; "y"].
Definition vec3f : hty := vec_hty "mint::Vector3<f32>" "Vec3" (HPrim PF32) ["x"; "y"; "z"].
Definition vec4f : hty := vec_hty "mint::Vector4<f32>" "Vec4" (HPrim PF32) ["x"; "y"; "z"; "w"].
Definition dvec3 : hty := vec_hty "mint::Vector3<f64>" "DVec3" (HPrim PF64) ["x"; "y"; "z"].
Definition bvec3 : hty := vec_hty "mint::Vector3<bool>" "BVec3" HBool ["x"; "y"; "z"].
Definition mat3f : hty := vec_hty "mint::ColumnMatrix3<f32>" "Mat3" vec3f ["x"; "y"; "z"].
Definition mat2f : hty := vec_hty "mint::ColumnMatrix2<f32>" "Mat2" vec2f ["x"; "y"].

(** the struct of the documentation of [Writer] (/repo/src/std{140,430}/writer.rs:37-42) *)
Definition point_light : hty :=
  HStruct "PointLight" [("position", vec3f); ("color", vec3f); ("brightness", HPrim PF32)].

(** the struct of README.md, "Single Value" *)
Definition main_uniform : hty :=
  HStruct "MainUniform" [("orientation", mat3f); ("position", vec3f); ("scale", HPrim PF32)].

(** a deeper one, with booleans, doubles and nesting *)
Definition scene : hty :=
  HStruct "Scene" [("enabled", HBool); ("light", point_light); ("m", mat2f); ("d", dvec3); ("flags", bvec3); ("n", HPrim PI32)].

Definition bits (n : N) : hval := HVBits n.
Definition v2 (a b : N) : hval := HVRec [("x", bits a); ("y", bits b)].
Definition v3 (a b c : N) : hval := HVRec [("x", bits a); ("y", bits b); ("z", bits c)].
Definition v3b (a b c : bool) : hval := HVRec [("x", HVBool a); ("y", HVBool b); ("z", HVBool c)].
Definition f1_0 : N := 1065353216.   (* 1.0f32 *)
Definition light1 : hval := HVRec [("position", v3 f1_0 2 3); ("color", v3 4 5 6); ("brightness", bits f1_0)].
Definition light2 : hval := HVRec [("position", v3 7 8 9); ("color", v3 10 11 12); ("brightness", bits 2143289344)]. (* NaN *)
Definition scene1 : hval :=
  HVRec [("enabled", HVBool true); ("light", light1);
         ("m", HVRec [("x", v2 1 2); ("y", v2 3 4)]);
         ("d", v3 (2 ^ 63) 1 (2 ^ 64 - 1)); ("flags", v3b true false true); ("n", bits (2 ^ 32 - 1))].
Definition main1 : hval :=
  HVRec [("orientation", HVRec [("x", v3 f1_0 0 0); ("y", v3 0 f1_0 0); ("z", v3 0 0 f1_0)]);
         ("position", v3 1 2 3); ("scale", bits f1_0)].

(** a list of values of different types *)
Definition sample_xs : list (hty * hval) :=
  [(HPrim PU32, bits 2); (point_light, light1); (HBool, HVBool true); (vec3f, v3 1 2 3);
   (HPrim PF32, bits f1_0); (scene, scene1)].

(** a slice of lights preceded by its length, as in the documentation of [Writer] *)
Definition light_slice : wval := WSeq [WLeaf point_light light1; WLeaf point_light light2].
Definition sample_ops : list op :=
  [OpWrite (WLeaf (HPrim PU32) (bits 2)); OpWrite light_slice; OpIter [WLeaf HBool (HVBool true)]; OpStd (TPrim PF64) (SBits 5)].

(** ** The structs of the crate's own test suite (/repo/crevice-tests/src/lib.rs:260-356) *)
Definition mat3_padding : hty := HStruct "Mat3Padding" [("one", mat3f); ("two", HPrim PF32)].
Definition foo_s : hty := HStruct "Foo" [("x", HPrim PF32)].
Definition bar_s : hty := HStruct "Bar" [("first", foo_s); ("second", foo_s)].
Definition outer_s : hty := HStruct "Outer" [("leading", bar_s); ("trailing", foo_s)].
Definition bvec2 : hty := vec_hty "mint::Vector2<bool>" "BVec2" HBool ["x"; "y"].
Definition contains_bools : hty := HStruct "ContainsBools" [("x", HBool); ("y", bvec2)].
(** a struct with a raw layout field ([std140::Mat3] used directly) *)
Definition raw_user : hty := HStruct "RawUser" [("m", HOut L140 mat3f)].

(** splits conjunctions only ([split] would also try to unify equations without computing) *)
Ltac conjs := repeat match goal with |- _ /\ _ => split end.
