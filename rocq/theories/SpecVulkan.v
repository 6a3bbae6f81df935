(** * Specification: explicit layouts in Vulkan

    In Vulkan a shader carries its layout explicitly: every member of a block has an
    [Offset] decoration, every matrix a [MatrixStride], every array an [ArrayStride].
    Transcribed from the Vulkan 1.1 specification, "Interfaces with Resources", section
    "Offset and Stride Assignment" (without the features [scalarBlockLayout] and
    [uniformBufferStandardLayout]); independent of crevice. *)

From Coq Require Import NArith String Bool List.
From Coq Require Import Strings.Byte.
From Verif Require Import Rust SpecGlsl SpecHost SpecTypes.
Import ListNotations.
Local Open Scope string_scope.
Local Open Scope N_scope.

(** types with their decorations; the sizes and alignments of scalars and vectors are
    those of [SpecGlsl] ([scalar_size], [vec_align]: N, 2N, 4N, 4N) *)
Inductive vty :=
| VScalar (s : gscalar)
| VVec (s : gscalar) (n : nat)
| VMat (s : gscalar) (cols rows : nat) (stride : N)     (* ColMajor, MatrixStride *)
| VArr (e : vty) (n : nat) (stride : N)                 (* ArrayStride *)
| VStruct (names : list string) (ms : list (N * vty)).  (* names; Offset of each member *)

Inductive storage := Uniform | StorageBuffer.

(** The alignment a layout in this storage class has to respect.  Storage buffers: the
    "base alignment" (an array or matrix has that of its element or column, a structure
    the largest of its members).  Uniform buffers: the "extended alignment" (arrays,
    matrices and structures: rounded up to a multiple of 16). *)
Definition extended (c : storage) (a : N) : N :=
  match c with Uniform => round_up a 16 | StorageBuffer => a end.
Fixpoint vk_align (c : storage) (v : vty) : N :=
  match v with
  | VScalar s => scalar_size s
  | VVec s n => vec_align s n
  | VMat s _ rows _ => extended c (vec_align s rows)
  | VArr e _ _ => extended c (vk_align c e)
  | VStruct _ ms => extended c (fold_right N.max 0 (map (fun m => vk_align c (snd m)) ms))
  end.

(** bytes from the first to the last one used, without trailing padding *)
Fixpoint vk_size (v : vty) : N :=
  match v with
  | VScalar s => scalar_size s
  | VVec s n => N.of_nat n * scalar_size s
  | VMat s cols rows st => (N.of_nat cols - 1) * st + N.of_nat rows * scalar_size s
  | VArr e n st => (N.of_nat n - 1) * st + vk_size e
  | VStruct _ ms => fold_right N.max 0 (map (fun m => fst m + vk_size (snd m)) ms)
  end.

(** Everything inside a variable of this type placed at byte [o], itself included, with
    the byte it starts at. *)
Fixpoint placed (o : N) (v : vty) {struct v} : list (N * vty) :=
  (o, v) ::
  match v with
  | VScalar _ | VVec _ _ => []
  | VMat s cols rows st => map (fun k => (o + N.of_nat k * st, VVec s rows)) (seq 0 cols)
  | VArr e n st => flat_map (fun k => placed (o + N.of_nat k * st) e) (seq 0 n)
  | VStruct _ ms => flat_map (fun m => placed (o + fst m) (snd m)) ms
  end.

(** "improperly straddle": a vector of at most 16 bytes whose first and last byte are not
    in the same 16 bytes, or a larger one that does not start at a multiple of 16 *)
Definition improperly_straddles (o size : N) : Prop :=
  (size <= 16 /\ o / 16 <> (o + size - 1) / 16) \/ (16 < size /\ o mod 16 <> 0).

Definition is_aggregate (v : vty) : bool :=
  match v with VMat _ _ _ _ | VArr _ _ _ | VStruct _ _ => true | _ => false end.

(** No other member may start before this byte: the end of the member; for a structure,
    an array or a matrix the next multiple of its alignment ("must not place it between
    the end of a structure, an array or a matrix and the next multiple of the alignment"). *)
Definition reserved (c : storage) (m : N * vty) : N :=
  let e := fst m + vk_size (snd m) in
  if is_aggregate (snd m) then round_up e (vk_align c (snd m)) else e.

Definition part_valid (c : storage) (o : N) (v : vty) : Prop :=
  (vk_align c v | o)
  /\ match v with
     | VScalar _ => True
     | VVec s n => ~ improperly_straddles o (N.of_nat n * scalar_size s)
     | VMat s cols rows st => (vk_align c v | st) /\ N.of_nat rows * scalar_size s <= st
     | VArr e n st => (vk_align c v | st) /\ vk_size e <= st
     | VStruct _ ms =>
       forall i j m m', nth_error ms i = Some m -> nth_error ms j = Some m' -> i <> j ->
         reserved c m <= fst m' \/ reserved c m' <= fst m
     end.

(** the whole block is a valid layout in the storage class *)
Definition vk_valid (c : storage) (v : vty) : Prop :=
  forall o p, In (o, p) (placed 0 v) -> part_valid c o p.

(** ** What a shader with these decorations sees *)
Fixpoint vread (tg : target) (v : vty) (buf : list byte) (off : N) {struct v} : option gval :=
  match v with
  | VScalar s => gread_scalar tg s buf off
  | VVec s n => gread_vec tg s n buf off
  | VMat s cols rows st =>
    match gread_strided (gread_vec tg s rows buf) off st cols with Some vs => Some (GVMat vs) | None => None end
  | VArr e n st =>
    match gread_strided (vread tg e buf) off st n with Some vs => Some (GVArr vs) | None => None end
  | VStruct names ms =>
    match map_opt (fun m => vread tg (snd m) buf (off + fst m)) ms with
    | Some vs => Some (GVStruct (combine names vs))
    | None => None
    end
  end.

(** ** The decorations that describe a Rust type

    Read off the Rust type: offsets of members by name, the components of a vector
    adjacent, the columns of a matrix at equal distances. *)
Definition equally_spaced (tg : target) (t : sty) (n : nat) (st : N) : bool :=
  forallb (fun k => match path_offset tg t [nth k comp_names ""] with
                    | Some (o, _) => o =? N.of_nat k * st | None => false end) (seq 0 n).

Fixpoint rust_layout (tg : target) (t : sty) (g : gty) {struct g} : option vty :=
  match g with
  | GScalar s => if size_of tg t =? scalar_size s then Some (VScalar s) else None
  | GVec s n => if equally_spaced tg t n (scalar_size s) then Some (VVec s n) else None
  | GMat s cols rows =>
    match path_offset tg t ["y"] with
    | Some (st, _) =>
      if equally_spaced tg t cols st
         && forallb (fun k => match path_offset tg t [nth k comp_names ""] with
                              | Some (_, u) => equally_spaced tg u rows (scalar_size s)
                              | None => false end) (seq 0 cols)
      then Some (VMat s cols rows st) else None
    | None => None
    end
  | GArr _ _ => None
  | GStruct _ fs =>
    match map_opt (fun nf => match path_offset tg t [fst nf] with
                             | Some (o, u) => match rust_layout tg u (snd nf) with
                                              | Some v => Some (o, v) | None => None end
                             | None => None end) fs with
    | Some ms => Some (VStruct (map fst fs) ms)
    | None => None
    end
  end.

(** The decorations a compiler puts on a GLSL block declared with a standard layout. *)
Fixpoint decorate (l : lay) (g : gty) : vty :=
  match g with
  | GScalar s => VScalar s
  | GVec s n => VVec s n
  | GMat s cols rows => VMat s cols rows (col_stride l s rows)
  | GArr e n => VArr (decorate l e) n (array_stride l e)
  | GStruct _ fs => VStruct (map fst fs) (combine (goffsets l fs) (map (fun nf => decorate l (snd nf)) fs))
  end.
