(** * Specification: host-shareable types in WGSL

    Transcribed from the WebGPU Shading Language specification, sections "Memory Layout"
    (alignment and size, structure member layout, array layout, internal layout of values,
    address space layout constraints) and the attributes [@align] and [@size];
    independent of crevice.  [round_up], [member_offsets] and [members_end] are the
    arithmetic of SpecGlsl.v. *)

From Coq Require Import NArith String Bool List.
From Coq Require Import Strings.Byte.
From Verif Require Import Rust SpecGlsl SpecHost.
Import ListNotations.
Local Open Scope string_scope.
Local Open Scope N_scope.

(** the scalars that may be shared with the host: no [bool], and there is no 64-bit float *)
Inductive wscalar := WF32 | WI32 | WU32.

Inductive wty :=
| WScalar (s : wscalar)
| WVec (s : wscalar) (n : nat)                      (* vecN<s> *)
| WMat (cols rows : nat)                            (* matCxR<f32> *)
| WArr (e : wty) (n : nat)                          (* array<e, n> *)
| WStruct (name : string) (ms : list (string * (option N * option N) * wty)).
    (* members: name, values of the attributes @align and @size if present, type *)

Definition m_name (m : string * (option N * option N) * wty) : string := fst (fst m).
Definition m_align (m : string * (option N * option N) * wty) : option N := fst (snd (fst m)).
Definition m_size (m : string * (option N * option N) * wty) : option N := snd (snd (fst m)).
Definition m_type (m : string * (option N * option N) * wty) : wty := snd m.

(** table "Alignment and size for host-shareable types" *)
Definition w_vec_align (n : nat) : N := match n with 2%nat => 8 | _ => 16 end.
Definition given (attr : option N) (default : N) : N := match attr with Some n => n | None => default end.

Fixpoint w_align (t : wty) : N :=
  match t with
  | WScalar _ => 4
  | WVec _ n => w_vec_align n
  | WMat _ rows => w_vec_align rows
  | WArr e _ => w_align e
  | WStruct _ ms => fold_right N.max 0 (map (fun m => given (m_align m) (w_align (m_type m))) ms)
  end.

Fixpoint w_size (t : wty) : N :=
  match t with
  | WScalar _ => 4
  | WVec _ n => 4 * N.of_nat n
  | WMat cols rows => N.of_nat cols * round_up (4 * N.of_nat rows) (w_vec_align rows)
  | WArr e n => N.of_nat n * round_up (w_size e) (w_align e)
  | WStruct _ ms =>
    round_up (members_end 0 (map (fun m => (given (m_align m) (w_align (m_type m)), given (m_size m) (w_size (m_type m)))) ms))
             (w_align t)
  end.

(** OffsetOfMember for all members of a structure *)
Definition w_offsets (ms : list (string * (option N * option N) * wty)) : list N :=
  member_offsets 0 (map (fun m => (given (m_align m) (w_align (m_type m)), given (m_size m) (w_size (m_type m)))) ms).

(** ** Which declarations a compiler accepts for a variable in an address space *)
Inductive space := WUniform | WStorage.

(** RequiredAlignOf *)
Definition required_align (c : space) (t : wty) : N :=
  match c, t with
  | WUniform, WArr _ _ | WUniform, WStruct _ _ => round_up (w_align t) 16
  | _, _ => w_align t
  end.

Definition is_wstruct (t : wty) : bool := match t with WStruct _ _ => true | _ => false end.

Fixpoint w_valid (c : space) (t : wty) {struct t} : Prop :=
  match t with
  | WScalar _ => True
  | WVec _ n => (2 <= n <= 4)%nat
  | WMat cols rows => (2 <= cols <= 4)%nat /\ (2 <= rows <= 4)%nat
  | WArr e n => (1 <= n)%nat /\ w_valid c e
      /\ let stride := round_up (w_size e) (w_align e) in
         (required_align c e | stride) /\ (c = WUniform -> (16 | stride))
  | WStruct _ ms =>
    ms <> [] /\ NoDup (map m_name ms)
    /\ (fix all ms := match ms with [] => True | m :: r => w_valid c (snd m) /\ all r end) ms
    (* attributes: a power of two satisfying the required alignment; at least the size *)
    /\ (forall m n, In m ms -> m_align m = Some n -> (exists k, n = 2 ^ k) /\ (required_align c (m_type m) | n))
    /\ (forall m n, In m ms -> m_size m = Some n -> w_size (m_type m) <= n)
    (* every member at a multiple of its required alignment *)
    /\ (forall i m o, nth_error ms i = Some m -> nth_error (w_offsets ms) i = Some o -> (required_align c (m_type m) | o))
    (* in a uniform buffer, what follows a structure keeps a distance *)
    /\ (c = WUniform -> forall i j m o o', (i < j)%nat -> nth_error ms i = Some m -> is_wstruct (m_type m) = true ->
          nth_error (w_offsets ms) i = Some o -> nth_error (w_offsets ms) j = Some o' ->
          o + round_up (w_size (m_type m)) 16 <= o')
  end.

(** ** What a shader sees: scalars are stored with the least significant byte first *)
Definition wread_scalar (buf : list byte) (off : N) : option gval :=
  match read_at buf off 4 with
  | Some bs => Some (GVBits (fold_right (fun b acc => Byte.to_N b + 256 * acc) 0 bs))
  | None => None
  end.
Definition wread_vec (n : nat) (buf : list byte) (off : N) : option gval :=
  match gread_strided (wread_scalar buf) off 4 n with Some vs => Some (GVVec vs) | None => None end.

Fixpoint wread (t : wty) (buf : list byte) (off : N) {struct t} : option gval :=
  match t with
  | WScalar _ => wread_scalar buf off
  | WVec _ n => wread_vec n buf off
  | WMat cols rows =>
    match gread_strided (wread_vec rows buf) off (round_up (4 * N.of_nat rows) (w_vec_align rows)) cols with
    | Some vs => Some (GVMat vs) | None => None end
  | WArr e n =>
    match gread_strided (wread e buf) off (round_up (w_size e) (w_align e)) n with
    | Some vs => Some (GVArr vs) | None => None end
  | WStruct _ ms =>
    match
      (fix go ms (offs : list N) {struct ms} : option (list (string * gval)) :=
         match ms, offs with
         | m :: ms', o :: offs' =>
           match wread (snd m) buf (off + o), go ms' offs' with
           | Some v, Some vs => Some ((m_name m, v) :: vs)
           | _, _ => None
           end
         | _, _ => Some []
         end) ms (w_offsets ms)
    with
    | Some vs => Some (GVStruct vs) | None => None end
  end.

(** ** WGSL and GLSL declarations of the same thing *)

(** the GLSL type with the same name, members and scalars *)
Definition glsl_scalar (s : wscalar) : gscalar := match s with WF32 => GFloat | WI32 => GInt | WU32 => GUint end.
Fixpoint glsl_of (t : wty) : gty :=
  match t with
  | WScalar s => GScalar (glsl_scalar s)
  | WVec s n => GVec (glsl_scalar s) n
  | WMat cols rows => GMat GFloat cols rows
  | WArr e n => GArr (glsl_of e) n
  | WStruct name ms => GStruct name (map (fun m => (m_name m, glsl_of (m_type m))) ms)
  end.

(** no attributes anywhere *)
Fixpoint no_attrs (t : wty) : bool :=
  match t with
  | WArr e _ => no_attrs e
  | WStruct _ ms => forallb (fun m => match m_align m, m_size m with None, None => no_attrs (m_type m) | _, _ => false end) ms
  | _ => true
  end.

(** every member that is a structure gets [@align(16)] and [@size] of its std140 size *)
Fixpoint std140_attrs (t : wty) : wty :=
  match t with
  | WArr e n => WArr (std140_attrs e) n
  | WStruct name ms =>
    WStruct name (map (fun m =>
      (m_name m,
       (if is_wstruct (m_type m) then (Some 16, Some (gsize L140 (glsl_of (m_type m)))) else (None, None)),
       std140_attrs (m_type m))) ms)
  | _ => t
  end.

(** GLSL types that have a WGSL counterpart *)
Fixpoint shareable (g : gty) : bool :=
  match g with
  | GScalar s | GVec s _ => match s with GFloat | GInt | GUint => true | _ => false end
  | GMat s _ _ => match s with GFloat => true | _ => false end
  | GArr e _ => shareable e
  | GStruct _ fs => forallb (fun nf => shareable (snd nf)) fs
  end.

(** a matrix with columns of two components occurs in the type *)
Fixpoint has_mat2 (g : gty) : bool :=
  match g with
  | GMat _ _ rows => Nat.eqb rows 2
  | GArr e _ => has_mat2 e
  | GStruct _ fs => existsb (fun nf => has_mat2 (snd nf)) fs
  | _ => false
  end.
