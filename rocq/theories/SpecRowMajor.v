(** * Specification: blocks declared [layout(row_major)]

    OpenGL 4.6 core specification, section 7.6.2.2, rules 7 and 8: a row-major matrix with [C]
    columns and [R] rows is stored like an array of [R] row vectors with [C] components each.
    Independent of crevice. *)

From Coq Require Import NArith String Bool List.
From Coq Require Import Strings.Byte.
From Verif Require Import Rust SpecGlsl.
Import ListNotations.
Local Open Scope N_scope.

(** base alignment and size, as in [SpecGlsl.v] except for matrices *)
Fixpoint rm_align (l : lay) (t : gty) : N :=
  match t with
  | GScalar s => scalar_size s
  | GVec s n => vec_align s n
  | GMat s cols _ => vec4_round l (vec_align s cols)
  | GArr e _ => vec4_round l (rm_align l e)
  | GStruct _ fs => vec4_round l (fold_right N.max 0 (map (fun nf => rm_align l (snd nf)) fs))
  end.

(** rule 4 applied to the row vectors *)
Definition row_stride (l : lay) (s : gscalar) (cols : nat) : N :=
  round_up (N.of_nat cols * scalar_size s) (vec4_round l (vec_align s cols)).

Fixpoint rm_size (l : lay) (t : gty) : N :=
  match t with
  | GScalar s => scalar_size s
  | GVec s n => N.of_nat n * scalar_size s
  | GMat s cols rows => N.of_nat rows * row_stride l s cols
  | GArr e n => N.of_nat n * round_up (rm_size l e) (vec4_round l (rm_align l e))
  | GStruct _ fs =>
    round_up
      (members_end 0 (map (fun nf => (rm_align l (snd nf), rm_size l (snd nf))) fs))
      (rm_align l t)
  end.

(** Column [c] of a row-major matrix: one component from each row. *)
Definition rm_column (tg : target) (l : lay) (s : gscalar) (cols rows : nat) (buf : list byte) (off : N) (c : nat) : option gval :=
  match gread_strided (gread_scalar tg s buf) (off + N.of_nat c * scalar_size s) (row_stride l s cols) rows with
  | Some comps => Some (GVVec comps)
  | None => None
  end.

(** Loading a variable of type [t] that starts at byte [off] of a row-major block.  A value of a
    matrix type is the list of its columns, however it is stored. *)
Fixpoint rm_read (tg : target) (l : lay) (t : gty) (buf : list byte) (off : N) {struct t} : option gval :=
  match t with
  | GScalar s => gread_scalar tg s buf off
  | GVec s n => gread_vec tg s n buf off
  | GMat s cols rows =>
    match map_opt (rm_column tg l s cols rows buf off) (seq 0 cols) with
    | Some cs => Some (GVMat cs)
    | None => None
    end
  | GArr e n =>
    match gread_strided (rm_read tg l e buf) off (round_up (rm_size l e) (vec4_round l (rm_align l e))) n with
    | Some vs => Some (GVArr vs)
    | None => None
    end
  | GStruct _ fs =>
    match
      (fix go (cur : N) (fs : list (string * gty)) : option (list (string * gval)) :=
         match fs with
         | [] => Some []
         | (f, ft) :: fs' =>
           let o := round_up cur (rm_align l ft) in
           match rm_read tg l ft buf (off + o), go (o + rm_size l ft) fs' with
           | Some v, Some vs => Some ((f, v) :: vs)
           | _, _ => None
           end
         end) 0 fs
    with
    | Some vs => Some (GVStruct vs)
    | None => None
    end
  end.

(** component [r] of column [c] *)
Definition entry (m : list gval) (c r : nat) : option gval :=
  match nth_error m c with
  | Some (GVVec v) => nth_error v r
  | _ => None
  end.

(** [n] columns of [n] components *)
Definition square (n : nat) (m : list gval) : Prop :=
  length m = n /\ Forall (fun c => exists v, c = GVVec v /\ length v = n) m.

(** [flipped x y]: [y] is [x] with every matrix in it transposed. *)
Inductive flipped : gval -> gval -> Prop :=
| flip_bits n : flipped (GVBits n) (GVBits n)
| flip_bool b : flipped (GVBool b) (GVBool b)
| flip_vec v : flipped (GVVec v) (GVVec v)
| flip_mat n a b : square n a -> square n b -> (forall c r, entry b c r = entry a r c) ->
    flipped (GVMat a) (GVMat b)
| flip_arr a b : Forall2 flipped a b -> flipped (GVArr a) (GVArr b)
| flip_struct a b : Forall2 (fun p q => fst p = fst q /\ flipped (snd p) (snd q)) a b ->
    flipped (GVStruct a) (GVStruct b).
