(** * The crate's own test suite, run on the model

    Every assertion of /repo/crevice-tests/src/lib.rs, /repo/tests/test.rs,
    /repo/src/std140/dynamic_uniform.rs:36-61 and of the documentation examples that does not
    need a GPU, evaluated on the model.  These are tests of the model's faithfulness, not
    properties. *)

From Coq Require Import NArith String Bool List Ascii.
From Coq Require Import Strings.Byte.
From Verif Require Import Rust Internal Prims Derive Host Rows Buffer GlslGen Samples.
Import ListNotations.
Local Open Scope string_scope.
Local Open Scope N_scope.

(** [assert_std140!] / [assert_std430!] (/repo/crevice-tests/src/util.rs:33-143): size,
    ALIGNMENT and the offset of every listed field of [Output] *)
Definition assert_layout (l : lay) (h : hty) (size align : N) (offs : list (string * N)) : bool :=
  forallb (fun tg =>
    match out_ty tg l h with
    | Some t =>
      (size_of tg t =? size)
      && match std_align l t with Some a => a =? align | None => false end
      && forallb (fun fo => match assoc (fst fo) (field_offsets tg t) with Some o => o =? snd fo | None => false end) offs
    | None => false
    end) [x86_64; i686].

Definition f32 := HPrim PF32.
Definition f64 := HPrim PF64.
Definition mint (ty : string) (e : elem) (k : hty -> bool) : bool :=
  match mint_hty ty e with Some h => k h | None => false end.

(** lib.rs:26-46 *)
Definition two_f32 := HStruct "TwoF32" [("x", f32); ("y", f32)].
Example test_two_f32 :
  assert_layout L140 two_f32 16 16 [("x", 0); ("y", 4)] = true
  /\ assert_layout L430 two_f32 8 4 [("x", 0); ("y", 4)] = true.
Proof. vm_compute. auto. Qed.

(** lib.rs:48-63 *)
Example test_vec2 : mint "Vector2" EF32 (fun v => assert_layout L140 (HStruct "UseVec2" [("one", v)]) 16 16 [("one", 0)]) = true.
Proof. vm_compute. reflexivity. Qed.

(** lib.rs:65-86 *)
Example test_mat2_bare : mint "ColumnMatrix2" EF32 (fun m =>
  assert_layout L140 m 32 16 [("x", 0); ("y", 16)] && assert_layout L430 m 16 8 [("x", 0); ("y", 8)]) = true.
Proof. vm_compute. reflexivity. Qed.

(** lib.rs:88-106 *)
Example test_mat3_bare : mint "ColumnMatrix3" EF32 (fun m => assert_layout L140 m 48 16 [("x", 0); ("y", 16); ("z", 32)]) = true.
Proof. vm_compute. reflexivity. Qed.

(** lib.rs:108-125 *)
Example test_mat4_bare : mint "ColumnMatrix4" EF32 (fun m => assert_layout L140 m 64 16 [("x", 0); ("y", 16); ("z", 32); ("w", 48)]) = true.
Proof. vm_compute. reflexivity. Qed.

(** lib.rs:127-141 (only has to compile) *)
Example test_mat3 : mint "ColumnMatrix3" EF32 (fun m =>
  forallb (fun l => match out_ty x86_64 l (HStruct "TestData" [("one", m)]) with Some _ => true | None => false end) [L140; L430]) = true.
Proof. vm_compute. reflexivity. Qed.

(** lib.rs:143-161 *)
Example test_dvec4 : mint "Vector4" EF64 (fun v => assert_layout L140 (HStruct "UsingDVec4" [("doubles", v)]) 32 32 [("doubles", 0)]) = true.
Proof. vm_compute. reflexivity. Qed.

(** lib.rs:163-190 *)
Example test_four_f64 : assert_layout L140 (HStruct "FourF64" [("x", f64); ("y", f64); ("z", f64); ("w", f64)]) 32 16
  [("x", 0); ("y", 8); ("z", 16); ("w", 24)] = true.
Proof. vm_compute. reflexivity. Qed.

(** lib.rs:192-218 *)
Example test_two_vec3 : mint "Vector3" EF32 (fun v =>
  assert_layout L140 (HStruct "TwoVec3" [("one", v); ("two", v)]) 32 16 [("one", 0); ("two", 16)]
  && assert_layout L430 (HStruct "TwoVec3" [("one", v); ("two", v)]) 32 16 [("one", 0); ("two", 16)]) = true.
Proof. vm_compute. reflexivity. Qed.

(** lib.rs:220-238 *)
Example test_two_vec4 : mint "Vector4" EF32 (fun v =>
  assert_layout L140 (HStruct "TwoVec4" [("one", v); ("two", v)]) 32 16 [("one", 0); ("two", 16)]) = true.
Proof. vm_compute. reflexivity. Qed.

(** lib.rs:240-258 *)
Example test_vec3_then_f32 : mint "Vector3" EF32 (fun v =>
  assert_layout L140 (HStruct "Vec3ThenF32" [("one", v); ("two", f32)]) 16 16 [("one", 0); ("two", 12)]) = true.
Proof. vm_compute. reflexivity. Qed.

(** lib.rs:260-282 *)
Example test_mat3_padding : mint "ColumnMatrix3" EF32 (fun m =>
  assert_layout L140 (HStruct "Mat3Padding" [("one", m); ("two", f32)]) 64 16 [("one", 0); ("two", 48)]) = true.
Proof. vm_compute. reflexivity. Qed.

(** lib.rs:284-302 *)
Example test_padding_after_struct :
  assert_layout L140 (HStruct "PaddingAfterStruct" [("base_value", HStruct "TwoF32" [("x", f32)]); ("small_field", f32)]) 32 16
    [("base_value", 0); ("small_field", 16)] = true.
Proof. vm_compute. reflexivity. Qed.

(** lib.rs:304-336 *)
Example test_differing_member_sizes : assert_layout L140 outer_s 48 16 [("leading", 0); ("trailing", 32)] = true.
Proof. vm_compute. reflexivity. Qed.

(** lib.rs:339-355 *)
Example test_bools_and_bool_vectors : mint "Vector2" EBool (fun v =>
  let h := HStruct "ContainsBools" [("x", HBool); ("y", v)] in
  assert_layout L140 h 16 16 [("x", 0); ("y", 8)] && assert_layout L430 h 16 8 [("x", 0); ("y", 8)]) = true.
Proof. vm_compute. reflexivity. Qed.

(** tests/test.rs:3-37 *)
Definition there_and_back : hty := HStruct "ThereAndBackAgain" [("view", mat3f); ("origin", vec3f)].
Definition there_value : hval :=
  HVRec [("view", HVRec [("x", v3 f1_0 0 0); ("y", v3 0 f1_0 0); ("z", v3 0 0 f1_0)]); ("origin", v3 0 f1_0 1073741824)].
Example test_there_and_back_again :
  mint_hty "ColumnMatrix3" EF32 = Some mat3f /\ mint_hty "Vector3" EF32 = Some vec3f
  /\ hval_ok x86_64 there_and_back there_value = true
  /\ match as_std x86_64 L140 there_and_back there_value with
     | Some s => from_std x86_64 L140 there_and_back s
     | None => None
     end = Some there_value.
Proof. vm_compute. auto. Qed.

(** tests/test.rs:39-52 with tests/snapshots/test__generate_struct_glsl.snap *)
Example test_generate_struct_glsl :
  struct_glsl (HStruct "TestGlsl" [("foo", vec3f); ("bar", mat2f)])
  = Some ("struct TestGlsl {" ++ nl ++ tab ++ "vec3 foo;" ++ nl ++ tab ++ "mat2 bar;" ++ nl ++ "};").
Proof. vm_compute. reflexivity. Qed.

(** src/std140/dynamic_uniform.rs:42-48 *)
Example test_size_is_unchanged : std_size_static x86_64 L140 (HDyn f32) = std_size_static x86_64 L140 f32
  /\ std_size_static x86_64 L140 f32 = Some 4.
Proof. vm_compute. auto. Qed.

(** src/std140/dynamic_uniform.rs:50-61 *)
Example test_alignment_applies :
  let w := writer_new [] in
  let (w1, r1) := writer_write x86_64 L140 vec_sink w (WLeaf (HDyn f32) (HVDyn (bits 0))) in
  let (w2, r2) := writer_write x86_64 L140 vec_sink w1 (WLeaf (HDyn f32) (HVDyn (bits f1_0))) in
  r1 = WOk 0 /\ writer_len w1 = 4 /\ r2 = WOk 256 /\ writer_len w2 = 260 /\ len (w_inner w2) = 260.
Proof. vm_compute. auto. Qed.

(** src/std140/sizer.rs:27-46, src/std430/sizer.rs:27-46 *)
Definition frob : hty := HStruct "Frob" [("size", vec3f); ("frobiness", f32)].
Example doc_sizer : forall l, exists s, sizer_run x86_64 l [HPrim PU32; frob] sizer_new = Some (Done ([0; 16], s)) /\ sizer_len s = 32.
Proof. intros []; eexists; split; vm_compute; reflexivity. Qed.

(** src/std140/writer.rs:34-76, "there will be 12 bytes of padding between the length field and
    the light list", into a mapped buffer of 1024 zero bytes.  (0.6f32 is 0x3f19999a,
    3.0 = 0x40400000, 4.0 = 0x40800000.) *)
Definition doc_lights : wval :=
  WSeq [WLeaf point_light (HVRec [("position", v3 0 f1_0 0); ("color", v3 f1_0 0 0); ("brightness", bits 1058642330)]);
        WLeaf point_light (HVRec [("position", v3 0 1082130432 1077936128); ("color", v3 f1_0 f1_0 f1_0); ("brightness", bits f1_0)])].
Example doc_writer :
  let w := writer_new ([], repeat x00 1024) in
  let (w1, r1) := writer_write x86_64 L140 slice_sink w (WLeaf (HPrim PU32) (bits 2)) in
  let (w2, r2) := writer_write x86_64 L140 slice_sink w1 doc_lights in
  r1 = WOk 0 /\ writer_len w1 = 4 /\ r2 = WOk 16 /\ writer_len w2 = 80
  /\ firstn 36 (fst (w_inner w2))
     = [x02; x00; x00; x00; x00; x00; x00; x00; x00; x00; x00; x00; x00; x00; x00; x00;
        x00; x00; x00; x00; x00; x00; x80; x3f; x00; x00; x00; x00; x00; x00; x00; x00;
        x00; x00; x80; x3f].
Proof. vm_compute. repeat split. Qed.
