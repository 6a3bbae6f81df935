(** * Property theorems (generated from Proofs_Harness.v by tools/genprops.py; statements only) *)

From Coq Require Import NArith String Ascii Bool List Lia ZArith PeanoNat.
From Coq Require Import ZifyBool ZifyN ZifyNat.
From Coq Require Import Strings.Byte.
From Verif Require Import Proofs_Harness Rust Internal Prims Derive Host Rows Buffer GlslGen SpecGlsl SpecHost SpecTypes SpecText SpecBuf SpecUse SpecGpu
  SpecFields SpecProgram Harness SpecHarness
  Arith RustFacts DeriveFacts TypeFacts HostFacts GlslFacts Proofs_Types Proofs_Use GpuFacts Proofs_Gpu Proofs_Text Proofs_Values Samples.
Import ListNotations.
Local Open Scope string_scope.


(** C89.  The shader generated for a struct, as text: a structure declaration with the struct's
    name and its fields' names and GLSL types, two buffer blocks with the layout asked for, and a
    [main] that copies every field; unless a name is not a GLSL identifier (then it is not a GLSL
    program at all).  There is one exactly when every field has a GLSL name. *)
Theorem C89_shader_text : forall l name fs g,
  gty_of (HStruct name fs) = Some g -> proper_names (HStruct name fs) ->
  match named_members fs with
  | None => shader_for_struct (HStruct name fs) (layout_qualifier l) = None
  | Some members =>
    exists text, shader_for_struct (HStruct name fs) (layout_qualifier l) = Some text
    /\ sparse text = if is_identifier name && forallb (fun m => is_type_word (fst m) && is_identifier (snd m)) members
                     then Some (struct_program l name members) else None
  end.
Proof. exact C89_shader_text_proof. Qed.
Print Assumptions C89_shader_text.

(** C89.  Which of them compile. *)
Theorem C89_which_compile : forall l name fs g text,
  gty_of (HStruct name fs) = Some g -> proper_names (HStruct name fs) ->
  shader_for_struct (HStruct name fs) (layout_qualifier l) = Some text ->
  (compile text <> None <-> harness_fits (HStruct name fs)).
Proof. exact C89_which_compile_proof. Qed.
Print Assumptions C89_which_compile.

(** C89.  What the round-trip test of a struct establishes, on a device that does what the shader
    says: it passes exactly when the shader compiles and the value equals itself.  (In particular
    it fails for every struct with a field that is itself a struct, and for values with a NaN.) *)
Theorem C89_round_trip_struct : forall tg dev eq name fs g t140 t430 v text140 text430,
  target_ok tg = true -> out_ty tg L140 (HStruct name fs) = Some t140 -> out_ty tg L430 (HStruct name fs) = Some t430 ->
  gty_of (HStruct name fs) = Some g -> plain (HStruct name fs) = true -> proper_names (HStruct name fs) ->
  shader_for_struct (HStruct name fs) "std140" = Some text140 -> shader_for_struct (HStruct name fs) "std430" = Some text430 ->
  behaves tg dev text140 -> behaves tg dev text430 -> hval_ok tg (HStruct name fs) v = true ->
  (test_round_trip_struct tg dev eq (HStruct name fs) v = true <-> harness_fits (HStruct name fs) /\ eq v v = true).
Proof. exact C89_round_trip_struct_proof. Qed.
Print Assumptions C89_round_trip_struct.

(** C89.  The round-trip test of a type that is not a struct; called on a struct, it always fails. *)
Theorem C89_round_trip_primitive : forall tg dev eq h g t140 t430 v text140 text430,
  target_ok tg = true -> out_ty tg L140 h = Some t140 -> out_ty tg L430 h = Some t430 ->
  gty_of h = Some g -> plain h = true ->
  (forall u, struct_used h = Some u -> rust_name_text (struct_ident u) = true /\ assoc (struct_ident u) builtin_types = None) ->
  shader_for_primitive h "std140" = Some text140 -> shader_for_primitive h "std430" = Some text430 ->
  behaves tg dev text140 -> behaves tg dev text430 -> hval_ok tg h v = true ->
  (test_round_trip_primitive tg dev eq h v = true <-> struct_used h = None /\ eq v v = true).
Proof. exact C89_round_trip_primitive_proof. Qed.
Print Assumptions C89_round_trip_primitive.

(** C89.  What the round-trip test of a struct establishes about any device, working or not: it
    passes exactly if, for both layouts, the device returns for the shader and the bytes of the value a
    buffer of the right size with a GLSL value that Rust considers equal to the value. *)
Theorem C89_any_device_struct : forall tg dev eq h g t140 t430 v text140 text430,
  target_ok tg = true -> out_ty tg L140 h = Some t140 -> out_ty tg L430 h = Some t430 ->
  gty_of h = Some g -> plain h = true -> hval_ok tg h v = true ->
  shader_for_struct h "std140" = Some text140 -> shader_for_struct h "std430" = Some text430 ->
  exists data140 data430, as_std_bytes tg L140 h v = Some data140 /\ as_std_bytes tg L430 h v = Some data430
    /\ (test_round_trip_struct tg dev eq h v = true <->
        returns_equal tg L140 dev eq h g text140 v data140 /\ returns_equal tg L430 dev eq h g text430 v data430).
Proof. exact C89_any_device_struct_proof. Qed.
Print Assumptions C89_any_device_struct.

(** C89.  The same for [test_round_trip_primitive]. *)
Theorem C89_any_device_primitive : forall tg dev eq h g t140 t430 v text140 text430,
  target_ok tg = true -> out_ty tg L140 h = Some t140 -> out_ty tg L430 h = Some t430 ->
  gty_of h = Some g -> plain h = true -> hval_ok tg h v = true ->
  shader_for_primitive h "std140" = Some text140 -> shader_for_primitive h "std430" = Some text430 ->
  exists data140 data430, as_std_bytes tg L140 h v = Some data140 /\ as_std_bytes tg L430 h v = Some data430
    /\ (test_round_trip_primitive tg dev eq h v = true <->
        returns_equal tg L140 dev eq h g text140 v data140 /\ returns_equal tg L430 dev eq h g text430 v data430).
Proof. exact C89_any_device_primitive_proof. Qed.
Print Assumptions C89_any_device_primitive.

(** C89.  There is a device that behaves on every shader of the harness (so the hypotheses about
    the device are not vacuous). *)
Theorem C89_device_exists : forall tg, target_ok tg = true ->
  exists dev : string -> list byte -> option (list byte), forall l h t g text,
    out_ty tg l h = Some t -> gty_of h = Some g ->
    (proper_names h /\ shader_for_struct h (layout_qualifier l) = Some text)
    \/ (struct_used h = None /\ shader_for_primitive h (layout_qualifier l) = Some text) ->
    behaves tg dev text.
Proof. exact C89_device_exists_proof. Qed.
Print Assumptions C89_device_exists.

Theorem C89_member_order_refuted : forall dev eq l text v,
  shader_for_struct pair_ba (layout_qualifier l) = Some text -> behaves x86_64 dev text -> hval_ok x86_64 pair_ab v = true ->
  test_round_trip x86_64 l dev eq pair_ab text v = eq v v
  /\ gty_of pair_ab = Some gab /\ gty_of pair_ba = Some gba
  /\ gpath_offset l gab ["a"%string] = Some (0%N, GScalar GFloat) /\ gpath_offset l gba ["a"%string] = Some (4%N, GScalar GFloat).
Proof. exact C89_member_order_refuted_proof. Qed.
Print Assumptions C89_member_order_refuted.

Example C89_ex :
  shader_for_struct pair_ab "std430" = Some
"#version 450

struct Pair {
	float a;
	float b;
};

layout(std430, set = 0, binding = 0) readonly buffer INPUT {
    Pair in_data;
};

layout(std430, set = 0, binding = 1) buffer OUTPUT {
    Pair out_data;
};

void main() {
    out_data.a = in_data.a;
out_data.b = in_data.b;

}"%string
  /\ harness_fits point_light /\ ~ harness_fits bar_s /\ ~ harness_fits input_s
  /\ exists dev : string -> list byte -> option (list byte), forall eq,
      test_round_trip_struct x86_64 dev eq point_light light1 = eq light1 light1
      /\ test_round_trip_primitive x86_64 dev eq vec3f (v3 1 2 3) = eq (v3 1 2 3) (v3 1 2 3)
      /\ test_round_trip_struct x86_64 dev eq bar_s bar_1 = false
      /\ test_round_trip_struct x86_64 dev eq input_s foo_1 = false.
Proof. exact C89_ex_proof. Qed.
