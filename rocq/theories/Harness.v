(** * The GPU test harness of the crate's own tests (/repo/crevice-tests/src/gpu.rs)

    The text of the shaders it generates, and what it checks.  naga and wgpu are a parameter
    ([gpu_device]); Vec allocations are taken to be aligned enough for [bytemuck::from_bytes]. *)

From Coq Require Import NArith String Ascii Bool List.
From Coq Require Import Strings.Byte.
From Verif Require Import Rust Internal Prims Derive Host GlslGen.
Import ListNotations.
Local Open Scope string_scope.

(** [str::replace] (Rust standard library): occurrences are found from left to right and do not
    overlap; [skip] characters of the current occurrence are still to be dropped *)
(* As used at /repo/crevice-tests/src/gpu.rs:47-50, 70-73; the pattern is not empty there. *)
Fixpoint replace_from (pat rep s : string) (skip : nat) : string :=
  match s with
  | "" => ""
  | String c r =>
    match skip with
    | S k => replace_from pat rep r k
    | O => if String.prefix pat s then rep ++ replace_from pat rep r (String.length pat - 1)
           else String c (replace_from pat rep r 0)
    end
  end.
(* The same. *)
Definition str_replace (s pat rep : string) : string := replace_from pat rep s 0.

(* /repo/crevice-tests/src/gpu.rs:11-25. *)
Definition base_shader : string :=
  "#version 450" ++ nl ++ nl
  ++ "{struct_definition}" ++ nl ++ nl
  ++ "layout({layout}, set = 0, binding = 0) readonly buffer INPUT {" ++ nl
  ++ "    {struct_name} in_data;" ++ nl
  ++ "};" ++ nl ++ nl
  ++ "layout({layout}, set = 0, binding = 1) buffer OUTPUT {" ++ nl
  ++ "    {struct_name} out_data;" ++ nl
  ++ "};" ++ nl ++ nl
  ++ "void main() {" ++ nl
  ++ "    {struct_copy}" ++ nl
  ++ "}".

(** [struct_copy]: [output] is the string so far *)
(* /repo/crevice-tests/src/gpu.rs:53-66. *)
Fixpoint struct_copy_loop (fields : list (string * string)) (output : string) : string :=
  match fields with
  | [] => output
  | (_, name) :: rest => struct_copy_loop rest (output ++ "out_data." ++ name ++ " = in_data." ++ name ++ ";" ++ nl)
  end.
(* /repo/crevice-tests/src/gpu.rs:53-66. *)
Definition struct_copy (fields : list (string * string)) : string := struct_copy_loop fields "".

(** [T::FIELDS]: type and name of the fields of a struct *)
(* /repo/src/glsl.rs:46-62, /repo/crevice-derive/src/glsl.rs:24-34. *)
Definition fields_of (h : hty) : option (list (string * string)) :=
  match h with
  | HStruct name fs =>
    let fields := map (fun nf => (Ident false (fst nf),
                                  match glsl_name (snd nf) with
                                  | Some n => FNamed n | None => FNoGlsl end)) fs in
    match glsl_emit (GlslInput (Ident false name) 0 (LNamed fields)) with
    | Some g => glsl_fields [] g
    | None => None
    end
  | _ => None
  end.

(* The arguments at /repo/crevice-tests/src/gpu.rs:28-29, 37-38. *)
Definition layout_word (l : lay) : string := match l with L140 => "std140" | L430 => "std430" end.

(** [None]: the type does not implement the trait, so that the call does not compile *)
(* /repo/crevice-tests/src/gpu.rs:45-51. *)
Definition shader_for_struct (h : hty) (layout : string) : option string :=
  match glsl_name h, struct_glsl h, fields_of h with
  | Some name, Some definition, Some fields =>
    Some (str_replace (str_replace (str_replace (str_replace base_shader
      "{struct_name}" name)
      "{struct_definition}" definition)
      "{struct_copy}" (struct_copy fields))
      "{layout}" layout)
  | _, _, _ => None
  end.

(* /repo/crevice-tests/src/gpu.rs:68-74. *)
Definition shader_for_primitive (h : hty) (layout : string) : option string :=
  match glsl_name h with
  | Some name =>
    Some (str_replace (str_replace (str_replace (str_replace base_shader
      "{struct_name}" name)
      "{struct_definition}" "")
      "{struct_copy}" ("out_data = in_data;" ++ nl))
      "{layout}" layout)
  | None => None
  end.

(** What naga and wgpu do with a shader and the contents of the input buffer: the contents of the
    output buffer, or [None] for any panic ([compile_glsl] on a rejected shader, a device error) *)
(* /repo/crevice-tests/src/gpu.rs:76-84, 153-245. *)
Definition gpu_device : Type := string -> list byte -> option (list byte).

(** [test_round_trip_std140] / [test_round_trip_std430]: [true] when the test does not panic; [eq] is
    the type's [PartialEq::eq] *)
(* /repo/crevice-tests/src/gpu.rs:105-127, 129-151. *)
Definition test_round_trip (tg : target) (l : lay) (dev : gpu_device) (eq : hval -> hval -> bool)
  (h : hty) (text : string) (value : hval) : bool :=
  match out_ty tg l h, as_std_bytes tg l h value with
  | Some t, Some data =>
    match dev text data with
    | Some bytes =>
      (* bytemuck::from_bytes panics unless the sizes agree *)
      if N.eqb (len bytes) (size_of tg t) then
        match from_bytes tg t bytes with
        | Some s =>
          match from_std tg l h s with
          | Some output => eq value output       (* [value != &output] is the negation *)
          | None => false
          end
        | None => false
        end
      else false
    | None => false
    end
  | _, _ => false
  end.

(* /repo/crevice-tests/src/gpu.rs:27-34. *)
Definition test_round_trip_struct (tg : target) (dev : gpu_device) (eq : hval -> hval -> bool) (h : hty) (value : hval) : bool :=
  match shader_for_struct h (layout_word L140), shader_for_struct h (layout_word L430) with
  | Some shader_std140, Some shader_std430 =>
    test_round_trip tg L140 dev eq h shader_std140 value && test_round_trip tg L430 dev eq h shader_std430 value
  | _, _ => false
  end.

(* /repo/crevice-tests/src/gpu.rs:36-43. *)
Definition test_round_trip_primitive (tg : target) (dev : gpu_device) (eq : hval -> hval -> bool) (h : hty) (value : hval) : bool :=
  match shader_for_primitive h (layout_word L140), shader_for_primitive h (layout_word L430) with
  | Some shader_std140, Some shader_std430 =>
    test_round_trip tg L140 dev eq h shader_std140 value && test_round_trip tg L430 dev eq h shader_std430 value
  | _, _ => false
  end.
