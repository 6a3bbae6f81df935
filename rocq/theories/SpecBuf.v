(** * Specification vocabulary for buffers (independent of the model) *)

From Coq Require Import NArith List.
From Coq Require Import Strings.Byte.
From Verif Require Import Rust Host Buffer SpecLayout.
Import ListNotations.
Local Open Scope N_scope.

(** [o] is the first position at or after [from] that is aligned to [al]
    (an alignment of 0 means "no requirement"). *)
Definition aligned (al o : N) : Prop := al = 0 \/ exists k, o = k * al.
Definition least_aligned (al from o : N) : Prop :=
  from <= o /\ aligned al o /\ forall p, from <= p -> aligned al p -> o <= p.

(** Contract of [io::Write::write_all]: [delivered s] is the byte string the sink
    has received so far.  [Ok] means everything was appended; on [Err] some
    prefix of the argument was appended (possibly all of it). *)
Definition lawful {W} (wi : write_impl W) (delivered : W -> list byte) : Prop :=
  forall s bs s' e, wi s bs = (s', e) ->
    match e with
    | None => delivered s' = delivered s ++ bs
    | Some _ => exists k, (k <= length bs)%nat /\ delivered s' = delivered s ++ firstn k bs
    end.

Definition infallible {W} (wi : write_impl W) : Prop :=
  forall s bs, snd (wi s bs) = None.

(** [p] is a prefix of [q]. *)
Definition prefix {A} (p q : list A) : Prop := exists r, q = p ++ r.

(** byte [i] of [bs] *)
Definition byte_at (bs : list byte) (i : N) : option byte := nth_error bs (N.to_nat i).

(** A placement: offset, contents. *)
Definition placement := (N * list byte)%type.

(** [image ps total bs]: the byte string [bs] has length [total], holds each
    placement's contents at its offset, and is zero everywhere else. *)
Definition image (ps : list placement) (total : N) (bs : list byte) : Prop :=
  len bs = total
  /\ (forall o c, In (o, c) ps -> read_at bs o (len c) = Some c)
  /\ (forall i, i < total ->
        (forall o c, In (o, c) ps -> ~ (o <= i < o + len c)) ->
        byte_at bs i = Some x00).

(** consecutive placements do not overlap and stay within [start, total) *)
Fixpoint increasing (start : N) (ps : list placement) (total : N) : Prop :=
  match ps with
  | [] => start <= total
  | (o, c) :: r => start <= o /\ increasing (o + len c) r total
  end.

(** A part: ALIGNMENT and contents of one layout value. *)
Definition part := (N * list byte)%type.

(** [laid_out cur parts ps total]: starting at position [cur], each part is put
    at the first position at or after the end of the previous one that satisfies
    its alignment; [ps] are the resulting placements and [total] is the end of
    the last one. *)
Inductive laid_out : N -> list part -> list placement -> N -> Prop :=
| lo_nil cur : laid_out cur [] [] cur
| lo_cons cur al bs o r ps total :
    least_aligned al cur o ->
    laid_out (o + len bs) r ps total ->
    laid_out cur ((al, bs) :: r) ((o, bs) :: ps) total.

(** The leaf values of a [WriteStdN] value, in writing order: their ALIGNMENT
    and their [as_stdN().as_bytes()]. *)
Fixpoint parts (tg : target) (l : lay) (x : wval) : option (list part) :=
  match x with
  | WLeaf h v =>
    match out_align tg l h, as_std_bytes tg l h v with
    | Some a, Some b => Some [(a, b)]
    | _, _ => None
    end
  | WStd t s =>
    match Prims.std_align l t, bytes_of tg t s with
    | Some a, Some b => Some [(a, b)]
    | _, _ => None
    end
  | WSeq items =>
    (fix go (items : list wval) : option (list part) :=
       match items with
       | [] => Some []
       | x :: r =>
         match parts tg l x, go r with
         | Some p, Some q => Some (p ++ q)
         | _, _ => None
         end
       end) items
  end.

(** Well-typed values: every leaf is a value of a type that implements the
    layout trait ([layout_type]: hand-written implementations included). *)
Fixpoint wval_ok (tg : target) (l : lay) (x : wval) : Prop :=
  match x with
  | WLeaf h v => (exists t, out_ty tg l h = Some t) /\ hval_ok tg h v = true
  | WStd t s => layout_type tg l t /\ has_sty t s = true
  | WSeq items => (fix go (items : list wval) : Prop :=
       match items with [] => True | x :: r => wval_ok tg l x /\ go r end) items
  end.

(** The same for one operation of a history. *)
Definition op_parts (tg : target) (l : lay) (o : op) : option (list part) :=
  match o with
  | OpWrite x => parts tg l x
  | OpIter xs => parts tg l (WSeq xs)
  | OpStd t s => match Prims.std_align l t, bytes_of tg t s with
                 | Some a, Some b => Some [(a, b)]
                 | _, _ => None
                 end
  end.

Definition op_ok (tg : target) (l : lay) (o : op) : Prop :=
  match o with
  | OpWrite x => wval_ok tg l x
  | OpIter xs => wval_ok tg l (WSeq xs)
  | OpStd t s => layout_type tg l t /\ has_sty t s = true
  end.

(** all parts of a list of operations, in order *)
Fixpoint ops_parts (tg : target) (l : lay) (os : list op) : option (list part) :=
  match os with
  | [] => Some []
  | o :: r =>
    match op_parts tg l o, ops_parts tg l r with
    | Some p, Some q => Some (p ++ q)
    | _, _ => None
    end
  end.

(** a list of typed values, written one by one *)
Definition leaf (x : hty * hval) : wval := WLeaf (fst x) (snd x).

(** every element is a value of its type, and the type has the layout *)
Definition typed_all (tg : target) (l : lay) (xs : list (hty * hval)) : Prop :=
  Forall (fun x => (exists t, out_ty tg l (fst x) = Some t) /\ hval_ok tg (fst x) (snd x) = true) xs.

(** every operation of a history returned [Ok] *)
Definition all_ok (rs : list wres) : Prop := Forall (fun r => exists o, r = WOk o) rs.
