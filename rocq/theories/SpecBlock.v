(** * Specification: members of a buffer block

    A block member is a single value or a slice of values; a slice corresponds to
    a GLSL array with as many elements. *)

From Coq Require Import NArith String Bool List.
From Verif Require Import Rust Host Buffer SpecBuf SpecGlsl SpecHost.
Import ListNotations.
Local Open Scope string_scope.
Local Open Scope N_scope.

Inductive member :=
| MVal (h : hty) (v : hval)
| MSlice (h : hty) (vs : list hval).

(** how the program writes it: [writer.write(&v)] / [writer.write(&vs[..])] *)
Definition member_wval (m : member) : wval :=
  match m with
  | MVal h v => WLeaf h v
  | MSlice h vs => WSeq (map (WLeaf h) vs)
  end.

(** how the shader declares it *)
Definition member_gty (m : member) : option gty :=
  match m with
  | MVal h _ => gty_of h
  | MSlice h vs => match gty_of h with Some g => Some (GArr g (length vs)) | None => None end
  end.

(** the value the shader should see *)
Definition member_gval (tg : target) (m : member) : option gval :=
  match m with
  | MVal h v => gval_of tg h v
  | MSlice h vs => match map_opt (gval_of tg h) vs with Some xs => Some (GVArr xs) | None => None end
  end.

Definition member_ok (tg : target) (l : lay) (m : member) : Prop :=
  match m with
  | MVal h v => (exists t, out_ty tg l h = Some t) /\ hval_ok tg h v = true
  | MSlice h vs => (exists t, out_ty tg l h = Some t) /\ Forall (fun v => hval_ok tg h v = true) vs
  end.

(** a block: named members *)
Definition block := list (string * member).
Definition block_wvals (b : block) : list wval := map (fun m => member_wval (snd m)) b.
Definition block_ok (tg : target) (l : lay) (b : block) : Prop := Forall (fun m => member_ok tg l (snd m)) b.
Definition block_gty (b : block) : option (list (string * gty)) :=
  map_opt (fun m => match member_gty (snd m) with Some g => Some (fst m, g) | None => None end) b.
Definition block_gval (tg : target) (b : block) : option (list (string * gval)) :=
  map_opt (fun m => match member_gval tg (snd m) with Some x => Some (fst m, x) | None => None end) b.

(** Element types for which writing elements one after the other gives the
    element positions of a GLSL array: all of them in std430, those with a base
    alignment of at least 16 in std140. *)
Definition array_elem (l : lay) (g : gty) : Prop := l = L430 \/ 16 <= base_align l g.
Definition slices_ok (l : lay) (b : block) : Prop :=
  forall f h vs g, In (f, MSlice h vs) b -> gty_of h = Some g -> array_elem l g.

(** A slice that is not the last member is not empty, and the padding after its
    last element ([Writer] does not write it) is smaller than the base alignment
    of the next member. *)
Fixpoint gaps_ok (l : lay) (b : block) : Prop :=
  match b with
  | [] => True
  | m :: r =>
    match r with
    | [] => True
    | m' :: _ =>
      (forall h vs g g', snd m = MSlice h vs -> gty_of h = Some g -> member_gty (snd m') = Some g' ->
         vs <> [] /\ array_stride l g - gsize l g < base_align l g')
      /\ gaps_ok l r
    end
  end.

Definition no_empty_slice (b : block) : Prop := forall f h vs, In (f, MSlice h vs) b -> vs <> [].
