(** * Specification: the GLSL type names of the fields of a derived struct *)

From Coq Require Import String List.
From Verif Require Import GlslGen.
Import ListNotations.

(** Field by field: a type with a GLSL name has that name, a type parameter has the name of
    the argument it is instantiated with; a type without a GLSL name is excluded. *)
Definition field_types (args : list string) (fields : list (ident * glsl_fty)) (tys : list string) : Prop :=
  Forall2 (fun f ty => match snd f with
                       | FNamed n => ty = n
                       | FParam i => nth_error args i = Some ty
                       | FNoGlsl => False
                       end) fields tys.
