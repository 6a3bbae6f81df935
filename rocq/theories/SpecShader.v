(** * Specification vocabulary: the structs of a shader *)

From Coq Require Import String List.
From Verif Require Import Host SpecTypes.
Import ListNotations.

(** every struct that a field of a listed struct uses is listed *)
Definition uses_closed (hs : list hty) : Prop :=
  forall h f hf u, In h hs -> In (f, hf) (struct_members h) -> struct_used hf = Some u -> In u hs.
