(** * Specification vocabulary: the bytes a GLSL value should have

    Independent of crevice: only the GLSL layout rules of SpecGlsl.v and the encoding of
    scalars on the target (Rust.v) are used. *)

From Coq Require Import NArith String Bool List.
From Coq Require Import Strings.Byte.
From Verif Require Import Rust SpecGlsl SpecBuf.
Import ListNotations.
Local Open Scope string_scope.
Local Open Scope N_scope.

(** the native-endian bytes of a scalar component; a boolean is the word 0 or 1 *)
Definition scalar_bytes (tg : target) (s : gscalar) (x : gval) : option (list byte) :=
  match s, x with
  | GFloat, GVBits n => Some (enc_prim tg PF32 n)
  | GDouble, GVBits n => Some (enc_prim tg PF64 n)
  | GInt, GVBits n => Some (enc_prim tg PI32 n)
  | GUint, GVBits n => Some (enc_prim tg PU32 n)
  | GBool, GVBool b => Some (enc_prim tg PU32 (if b then 1 else 0))
  | _, _ => None
  end.

Definition place_scalar (tg : target) (s : gscalar) (x : gval) (off : N) : option (list placement) :=
  match scalar_bytes tg s x with Some w => Some [(off, w)] | None => None end.

(** the placements of values at [off], [off + stride], ... *)
Fixpoint place_strided (place : gval -> N -> option (list placement)) (xs : list gval) (off stride : N)
  : option (list placement) :=
  match xs with
  | [] => Some []
  | x :: r =>
    match place x off, place_strided place r (off + stride) stride with
    | Some a, Some b => Some (a ++ b)%list
    | _, _ => None
    end
  end.

Definition place_vec (tg : target) (s : gscalar) (n : nat) (x : gval) (off : N) : option (list placement) :=
  match x with
  | GVVec xs => if Nat.eqb (length xs) n then place_strided (place_scalar tg s) xs off (scalar_size s) else None
  | _ => None
  end.

(** Where the scalar components of the value [x] of type [g] are, and their bytes, if the
    variable starts at byte [off]; [None] if [x] is not a value of type [g]. *)
Fixpoint gplaces (tg : target) (l : lay) (g : gty) (x : gval) (off : N) {struct g} : option (list placement) :=
  match g with
  | GScalar s => place_scalar tg s x off
  | GVec s n => place_vec tg s n x off
  | GMat s cols rows =>
    match x with
    | GVMat xs => if Nat.eqb (length xs) cols
                  then place_strided (place_vec tg s rows) xs off (col_stride l s rows) else None
    | _ => None
    end
  | GArr e n =>
    match x with
    | GVArr xs => if Nat.eqb (length xs) n
                  then place_strided (gplaces tg l e) xs off (array_stride l e) else None
    | _ => None
    end
  | GStruct _ fs =>
    match x with
    | GVStruct xs =>
      (fix go (cur : N) (fs : list (string * gty)) (xs : list (string * gval)) : option (list placement) :=
         match fs, xs with
         | [], [] => Some []
         | (f, ft) :: fs', (f', y) :: xs' =>
           let o := round_up cur (base_align l ft) in
           if String.eqb f f' then
             match gplaces tg l ft y (off + o), go (o + gsize l ft) fs' xs' with
             | Some a, Some b => Some (a ++ b)%list
             | _, _ => None
             end
           else None
         | _, _ => None
         end) 0 fs xs
    | _ => None
    end
  end.

(** The bytes of a variable of type [g] holding [x]: its scalar components where the layout
    puts them, and zeros everywhere else. *)
Definition glsl_image (tg : target) (l : lay) (g : gty) (x : gval) (bs : list byte) : Prop :=
  exists ps, gplaces tg l g x 0 = Some ps /\ image ps (gsize l g) bs.

(** ** positions only *)

(** position and size of every scalar component of a variable of type [g] at [off] *)
Fixpoint slots_strided (sl : N -> list (N * N)) (off stride : N) (n : nat) : list (N * N) :=
  match n with
  | O => []
  | S n' => (sl off ++ slots_strided sl (off + stride) stride n')%list
  end.
Definition slot_scalar (s : gscalar) (off : N) : list (N * N) := [(off, scalar_size s)].
Definition slot_vec (s : gscalar) (n : nat) (off : N) : list (N * N) :=
  slots_strided (slot_scalar s) off (scalar_size s) n.
Fixpoint gslots (l : lay) (g : gty) (off : N) {struct g} : list (N * N) :=
  match g with
  | GScalar s => slot_scalar s off
  | GVec s n => slot_vec s n off
  | GMat s cols rows => slots_strided (slot_vec s rows) off (col_stride l s rows) cols
  | GArr e n => slots_strided (gslots l e) off (array_stride l e) n
  | GStruct _ fs =>
    (fix go (cur : N) (fs : list (string * gty)) : list (N * N) :=
       match fs with
       | [] => []
       | (_, ft) :: fs' =>
         let o := round_up cur (base_align l ft) in
         (gslots l ft (off + o) ++ go (o + gsize l ft) fs')%list
       end) 0 fs
  end.

(** A simple condition under which std140 and std430 do not differ: every matrix column,
    array element and structure inside [g] already has an std430 base alignment that is a
    multiple of that of a [vec4] (so no [mat2], no [float[n]], no structure of scalars). *)
Fixpoint vec4_aligned (g : gty) : bool :=
  match g with
  | GScalar _ | GVec _ _ => true
  | GMat s _ rows => vec_align s rows mod 16 =? 0
  | GArr e _ => (base_align L430 e mod 16 =? 0) && vec4_aligned e
  | GStruct _ fs => (base_align L430 g mod 16 =? 0) && forallb (fun nf => vec4_aligned (snd nf)) fs
  end.
