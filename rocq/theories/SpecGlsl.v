(** * Specification: GLSL types and the std140 / std430 layouts

    Transcribed from the OpenGL 4.6 core specification, section 7.6.2.2
    "Standard Uniform Block Layout"; independent of crevice. *)

From Coq Require Import NArith String Bool List.
From Coq Require Import Strings.Byte.
From Verif Require Import Rust.
Import ListNotations.
Local Open Scope string_scope.
Local Open Scope N_scope.

Inductive gscalar := GFloat | GDouble | GInt | GUint | GBool.

Inductive gty :=
| GScalar (s : gscalar)
| GVec (s : gscalar) (n : nat)              (* n components *)
| GMat (s : gscalar) (cols rows : nat)      (* column-major *)
| GArr (e : gty) (n : nat)
| GStruct (name : string) (fs : list (string * gty)).

(** basic machine units of a scalar; booleans take 32 bits in buffers *)
Definition scalar_size (s : gscalar) : N := match s with GDouble => 8 | _ => 4 end.

(** smallest multiple of [a] that is at least [x] ([a > 0]) *)
Definition round_up (x a : N) : N := (x + (a - 1)) / a * a.

(** "rounded up to the base alignment of a vec4": std140 only *)
Definition vec4_round (l : lay) (a : N) : N :=
  match l with L140 => round_up a 16 | L430 => a end.

(** rules 1-3: scalars N, two-component 2N, three- and four-component 4N *)
Definition vec_align (s : gscalar) (n : nat) : N :=
  match n with
  | 1%nat => scalar_size s
  | 2%nat => 2 * scalar_size s
  | _ => 4 * scalar_size s
  end.

(** base alignment; rules 1-3, 4 (arrays), 5 (matrices as arrays of columns),
    9 (structures: largest member alignment, rounded up to vec4 in std140) *)
Fixpoint base_align (l : lay) (t : gty) : N :=
  match t with
  | GScalar s => scalar_size s
  | GVec s n => vec_align s n
  | GMat s _ rows => vec4_round l (vec_align s rows)
  | GArr e _ => vec4_round l (base_align l e)
  | GStruct _ fs => vec4_round l (fold_right N.max 0 (map (fun nf => base_align l (snd nf)) fs))
  end.

(** Column stride of a matrix: rule 4 applied to its column vectors. *)
Definition col_stride (l : lay) (s : gscalar) (rows : nat) : N :=
  round_up (N.of_nat rows * scalar_size s) (vec4_round l (vec_align s rows)).

(** Offsets of consecutive members starting at [cur], and the end of the last. *)
Fixpoint member_offsets (cur : N) (ms : list (N * N)) : list N :=   (* (align, size) *)
  match ms with
  | [] => []
  | (a, sz) :: r => let o := round_up cur a in o :: member_offsets (o + sz) r
  end.
Fixpoint members_end (cur : N) (ms : list (N * N)) : N :=
  match ms with
  | [] => cur
  | (a, sz) :: r => members_end (round_up cur a + sz) r
  end.

(** Space a member occupies, including the trailing padding of arrays (rule 4)
    and structures (rule 9) that displaces the next member. *)
Fixpoint gsize (l : lay) (t : gty) : N :=
  match t with
  | GScalar s => scalar_size s
  | GVec s n => N.of_nat n * scalar_size s
  | GMat s cols rows => N.of_nat cols * col_stride l s rows
  | GArr e n => N.of_nat n * round_up (gsize l e) (vec4_round l (base_align l e))
  | GStruct _ fs =>
    round_up
      (members_end 0 (map (fun nf => (base_align l (snd nf), gsize l (snd nf))) fs))
      (base_align l t)
  end.

(** Array stride (rules 4, 6, 10). *)
Definition array_stride (l : lay) (e : gty) : N :=
  round_up (gsize l e) (vec4_round l (base_align l e)).

(** Offset of each member of a structure or block. *)
Definition gmembers (l : lay) (fs : list (string * gty)) : list (N * N) :=
  map (fun nf => (base_align l (snd nf), gsize l (snd nf))) fs.
Definition goffsets (l : lay) (fs : list (string * gty)) : list N :=
  member_offsets 0 (gmembers l fs).

(** ** What a shader sees *)

(** GLSL values; scalars are bit patterns, booleans are truth values. *)
Inductive gval :=
| GVBits (n : N)
| GVBool (b : bool)
| GVVec (comps : list gval)
| GVMat (cols : list gval)
| GVArr (elems : list gval)
| GVStruct (fs : list (string * gval)).

(** loading a scalar: a boolean is true iff its word is nonzero *)
Definition gread_scalar (tg : target) (s : gscalar) (buf : list byte) (off : N) : option gval :=
  match read_at buf off (scalar_size s) with
  | None => None
  | Some bs =>
    Some (match s with
          | GBool => GVBool (negb (dec_bytes tg bs =? 0))
          | _ => GVBits (dec_bytes tg bs)
          end)
  end.

(** [n] values at [off], [off + stride], ... *)
Fixpoint gread_strided (rd : N -> option gval) (off stride : N) (n : nat) : option (list gval) :=
  match n with
  | O => Some []
  | S n' =>
    match rd off, gread_strided rd (off + stride) stride n' with
    | Some v, Some vs => Some (v :: vs)
    | _, _ => None
    end
  end.

Definition gread_vec (tg : target) (s : gscalar) (n : nat) (buf : list byte) (off : N) : option gval :=
  match gread_strided (gread_scalar tg s buf) off (scalar_size s) n with
  | Some vs => Some (GVVec vs)
  | None => None
  end.

(** Loading a variable of type [t] that starts at byte [off] of [buf]; [None] if
    the buffer is too short. *)
Fixpoint gread (tg : target) (l : lay) (t : gty) (buf : list byte) (off : N) {struct t} : option gval :=
  match t with
  | GScalar s => gread_scalar tg s buf off
  | GVec s n => gread_vec tg s n buf off
  | GMat s cols rows =>
    match gread_strided (gread_vec tg s rows buf) off (col_stride l s rows) cols with
    | Some vs => Some (GVMat vs)
    | None => None
    end
  | GArr e n =>
    match gread_strided (gread tg l e buf) off (array_stride l e) n with
    | Some vs => Some (GVArr vs)
    | None => None
    end
  | GStruct _ fs =>
    match
      (fix go (cur : N) (fs : list (string * gty)) : option (list (string * gval)) :=
         match fs with
         | [] => Some []
         | (f, ft) :: fs' =>
           let o := round_up cur (base_align l ft) in
           match gread tg l ft buf (off + o), go (o + gsize l ft) fs' with
           | Some v, Some vs => Some ((f, v) :: vs)
           | _, _ => None
           end
         end) 0 fs
    with
    | Some vs => Some (GVStruct vs)
    | None => None
    end
  end.

(** ** Which bytes carry data

    [gcovers l t i]: byte [i] of a variable of type [t] belongs to one of its
    scalar components (the other bytes are padding). *)
Definition strided_covers (cov : N -> bool) (stride : N) (n : nat) (i : N) : bool :=
  existsb (fun k => (N.of_nat k * stride <=? i) && cov (i - N.of_nat k * stride)) (seq 0 n).

Definition vec_covers (s : gscalar) (n : nat) (i : N) : bool :=
  strided_covers (fun j => j <? scalar_size s) (scalar_size s) n i.

Fixpoint gcovers (l : lay) (t : gty) (i : N) {struct t} : bool :=
  match t with
  | GScalar s => i <? scalar_size s
  | GVec s n => vec_covers s n i
  | GMat s cols rows => strided_covers (vec_covers s rows) (col_stride l s rows) cols i
  | GArr e n => strided_covers (gcovers l e) (array_stride l e) n i
  | GStruct _ fs =>
    (fix go (cur : N) (fs : list (string * gty)) : bool :=
       match fs with
       | [] => false
       | (_, ft) :: fs' =>
         let o := round_up cur (base_align l ft) in
         ((o <=? i) && gcovers l ft (i - o)) || go (o + gsize l ft) fs'
       end) 0 fs
  end.
