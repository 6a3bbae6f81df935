(** * Specification vocabulary: values that are already converted *)

From Coq Require Import String List.
From Verif Require Import Rust Host.
Import ListNotations.

(** [converted tg l h v h' v']: the value [v'] of type [h'] is the value [v] of type [h] in
    which some parts (the whole value, or fields at any depth) have already been replaced by
    the result of [as_stdL()], and the types of these fields accordingly by the [Output]
    type. *)
Inductive converted (tg : target) (l : lay) : hty -> hval -> hty -> hval -> Prop :=
| conv_not h v : converted tg l h v h v
| conv_done h v h1 v1 s :
    converted tg l h v h1 v1 -> as_std tg l h1 v1 = Some s -> converted tg l h v (HOut l h1) (HVOut s)
| conv_dynamic h v h' v' :
    converted tg l h v h' v' -> converted tg l (HDyn h) (HVDyn v) (HDyn h') (HVDyn v')
| conv_record name fs vs fs' vs' :
    converted_fields tg l fs vs fs' vs' -> converted tg l (HStruct name fs) (HVRec vs) (HStruct name fs') (HVRec vs')
with converted_fields (tg : target) (l : lay) :
  list (string * hty) -> list (string * hval) -> list (string * hty) -> list (string * hval) -> Prop :=
| conv_no_field : converted_fields tg l [] [] [] []
| conv_field f h v h' v' fs vs fs' vs' :
    converted tg l h v h' v' -> converted_fields tg l fs vs fs' vs' ->
    converted_fields tg l ((f, h) :: fs) ((f, v) :: vs) ((f, h') :: fs') ((f, v') :: vs').
