(** * Specification: runtime-sized arrays

    The last member of a shader storage block may be an array without a size.  Its
    length is computed from the size of the buffer (OpenGL 4.6 core, section 7.8,
    GLSL [length()]; the same rule holds in Vulkan, [OpArrayLength]):

      max((buffer_size - offset_of_array) / stride_of_array, 0)

    with an integer division.  Subtraction on [N] stops at 0, which is the [max]. *)

From Coq Require Import NArith String Bool List.
From Coq Require Import Strings.Byte.
From Verif Require Import Rust SpecGlsl.
Import ListNotations.
Local Open Scope N_scope.

Definition runtime_length (buffer_size offset stride : N) : N := (buffer_size - offset) / stride.

(** offset of the last member of a block *)
Definition last_offset (l : lay) (gs : list (string * gty)) : N := last (goffsets l gs) 0.

(** what a shader sees that looks at all the elements the array has *)
Definition gread_runtime (tg : target) (l : lay) (e : gty) (buf : list byte) (off : N) : option gval :=
  gread tg l (GArr e (N.to_nat (runtime_length (len buf) off (array_stride l e)))) buf off.

(** three-component vectors: smaller than the distance between two of them in an array *)
Definition is_vec3 (g : gty) : bool := match g with GVec _ 3 => true | _ => false end.
