(** * Specification: which GLSL type and value a Rust type and value denote

    From the documentation of the crate ("Corresponds to a GLSL `vec2`", ...),
    not from its code. *)

From Coq Require Import NArith String Bool List.
From Verif Require Import Rust Derive Host SpecGlsl.
Import ListNotations.
Local Open Scope string_scope.
Local Open Scope N_scope.

Definition prim_gscalar (p : prim) : option gscalar :=
  match p with
  | PF32 => Some GFloat | PF64 => Some GDouble | PI32 => Some GInt
  | PU32 => Some GUint | PBool => Some GBool | PU8 => None
  end.

(** "Corresponds to a GLSL `...`" (doc attributes in
    /repo/src/std140/primitives.rs:69-87, 124-172; the doc of [DMat4] says
    [dmat3], which is taken to be a typo for [dmat4]). *)
Definition std_names : list (string * gty) := [
  ("Vec2", GVec GFloat 2); ("Vec3", GVec GFloat 3); ("Vec4", GVec GFloat 4);
  ("IVec2", GVec GInt 2); ("IVec3", GVec GInt 3); ("IVec4", GVec GInt 4);
  ("UVec2", GVec GUint 2); ("UVec3", GVec GUint 3); ("UVec4", GVec GUint 4);
  ("BVec2", GVec GBool 2); ("BVec3", GVec GBool 3); ("BVec4", GVec GBool 4);
  ("DVec2", GVec GDouble 2); ("DVec3", GVec GDouble 3); ("DVec4", GVec GDouble 4);
  ("Mat2", GMat GFloat 2 2); ("Mat3", GMat GFloat 3 3); ("Mat4", GMat GFloat 4 4);
  ("DMat2", GMat GDouble 2 2); ("DMat3", GMat GDouble 3 3); ("DMat4", GMat GDouble 4 4)
].

(** names of vector components / matrix columns in all the math libraries *)
Definition comp_names : list string := ["x"; "y"; "z"; "w"].

Definition ncomps (g : gty) : nat :=
  match g with GVec _ n => n | GMat _ c _ => c | _ => 0%nat end.

Definition gscalar_eqb (a b : gscalar) : bool :=
  match a, b with
  | GFloat, GFloat | GDouble, GDouble | GInt, GInt | GUint, GUint | GBool, GBool => true
  | _, _ => false
  end.

(** [c] is the type of the components of the vector type [g] / of the columns of
    the matrix type [g]. *)
Definition is_comp (g c : gty) : bool :=
  match g, c with
  | GVec s _, GScalar s' => gscalar_eqb s s'
  | GMat s _ r, GVec s' n => gscalar_eqb s s' && Nat.eqb r n
  | _, _ => false
  end.

(** The GLSL type a Rust type corresponds to; [None] if there is none
    ([DynamicUniform], and empty structs, which GLSL does not allow).  A math
    type must have exactly the components of the GLSL type, under their usual
    names and with the right types. *)
Fixpoint gty_of (h : hty) : option gty :=
  match h with
  | HPrim p => match prim_gscalar p with Some s => Some (GScalar s) | None => None end
  | HBool => Some (GScalar GBool)
  | HEasy _ std fs =>
    match assoc std std_names,
          map_opt (fun nf => match gty_of (snd nf) with
                             | Some g => Some (fst nf, g) | None => None end) fs with
    | Some g, Some gs =>
      if forallb (fun c => match assoc c gs with Some gc => is_comp g gc | None => false end)
                 (firstn (ncomps g) comp_names)
         && forallb (fun nf => existsb (String.eqb (fst nf)) (firstn (ncomps g) comp_names)) fs
      then Some g else None
    | _, _ => None
    end
  | HMinty _ m => gty_of m
  | HDyn _ => None
  | HStruct name fs =>
    match fs with
    | [] => None
    | _ :: _ =>
      match map_opt (fun nf => match gty_of (snd nf) with
                               | Some g => Some (fst nf, g) | None => None end) fs with
      | Some gs => Some (GStruct name gs)
      | None => None
      end
    end
  | HOut _ h' => gty_of h'
  end.

(** The GLSL value a Rust value denotes.  Components of math types are found
    by name; a raw layout value denotes what [from_std] makes of it. *)
Fixpoint gval_of (tg : target) (h : hty) (v : hval) {struct h} : option gval :=
  match h, v with
  | HPrim PBool, HVBits n => Some (GVBool (negb (n =? 0)))
  | HPrim _, HVBits n => Some (GVBits n)
  | HBool, HVBool b => Some (GVBool b)
  | HEasy _ std fs, HVRec vs =>
    match assoc std std_names with
    | Some g =>
      match map_opt (fun nf => match assoc (fst nf) vs with
                               | Some w => match gval_of tg (snd nf) w with
                                           | Some x => Some (fst nf, x) | None => None end
                               | None => None end) fs with
      | Some xs =>
        match map_opt (fun c => assoc c xs) (firstn (ncomps g) comp_names) with
        | Some comps =>
          match g with
          | GVec _ _ => Some (GVVec comps)
          | GMat _ _ _ => Some (GVMat comps)
          | _ => None
          end
        | None => None
        end
      | None => None
      end
    | None => None
    end
  | HMinty _ m, HVMinty w => gval_of tg m w
  | HStruct _ fs, HVRec vs =>
    match
      (fix go (fs : list (string * hty)) (vs : list (string * hval))
         : option (list (string * gval)) :=
         match fs, vs with
         | [], [] => Some []
         | (f, hf) :: fs', (_, w) :: vs' =>
           match gval_of tg hf w, go fs' vs' with
           | Some x, Some xs => Some ((f, x) :: xs)
           | _, _ => None
           end
         | _, _ => None
         end) fs vs
    with
    | Some xs => Some (GVStruct xs)
    | None => None
    end
  | HOut l' h', HVOut s =>
    match from_std tg l' h' s with Some w => gval_of tg h' w | None => None end
  | _, _ => None
  end.

(** Types in which every layout value is produced by a conversion, i.e. that do
    not embed user-supplied [Std140]/[Std430] structs (whose padding the user
    controls).  Primitives have no padding, so their [Output] is harmless. *)
Fixpoint no_raw (h : hty) : bool :=
  match h with
  | HPrim _ | HBool => true
  | HEasy _ _ fs | HStruct _ fs => forallb (fun nf => no_raw (snd nf)) fs
  | HMinty _ m => no_raw m
  | HDyn h' => no_raw h'
  | HOut _ _ => false
  end.
