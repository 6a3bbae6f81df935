(** * Specification: where the parts of a value are in its bytes *)

From Coq Require Import NArith String Bool List.
From Coq Require Import Strings.Byte.
From Verif Require Import Rust Prims Derive Host SpecBuf SpecLayout CustomAny.
Import ListNotations.
Local Open Scope string_scope.
Local Open Scope N_scope.

(** the implementations a type is built from *)
Fixpoint y_impls {X} (T : yty X) : list (any_impl X) :=
  match T with
  | YLeaf a => [a]
  | YDyn T' => y_impls T'
  | YStruct _ fs => flat_map (fun nf => y_impls (snd nf)) fs
  end.

(** Every [Output] is a layout type, and (Rust's type checker) [as_stdN] returns values of its [Output] type. *)
Definition impls_ok {X} (tg : target) (l : lay) (T : yty X) : Prop :=
  forall a, In a (y_impls T) -> layout_type tg l (ai_out a)
    /\ forall x s, ai_as a x = Some s -> has_sty (ai_out a) s = true.

(** the parts of a value that are not [DynamicUniform]s or derived structs *)
Fixpoint y_parts {X} (T : yty X) (v : yval X) {struct T} : list (any_impl X * X) :=
  match T, v with
  | YLeaf a, YVLeaf x => [(a, x)]
  | YDyn T', YVDyn w => y_parts T' w
  | YStruct _ fs, YVRec vs =>
    (fix go (fs : list (string * yty X)) (vs : list (string * yval X)) : list (any_impl X * X) :=
       match fs, vs with
       | (_, T') :: fs', (_, w) :: vs' => (y_parts T' w ++ go fs' vs')%list
       | _, _ => []
       end) fs vs
  | _, _ => []
  end.

Definition move (o : N) (ps : list placement) : list placement := map (fun p => (o + fst p, snd p)) ps.

(** The bytes [as_stdN().as_bytes()] of every such part, at the offset of the part: the sum of the offsets of the
    fields (in the Rust sense, [offset_of!]) that lead to it. *)
Fixpoint y_places {X} (tg : target) (l : lay) (T : yty X) (v : yval X) {struct T} : option (list placement) :=
  match T, v with
  | YLeaf a, YVLeaf x =>
    match ai_as a x with
    | Some s => match bytes_of tg (ai_out a) s with Some b => Some [(0, b)] | None => None end
    | None => None
    end
  | YDyn T', YVDyn w => y_places tg l T' w
  | YStruct name fs, YVRec vs =>
    match y_out tg l (YStruct name fs) with
    | Some t =>
      (fix go (fs : list (string * yty X)) (vs : list (string * yval X)) : option (list placement) :=
         match fs, vs with
         | [], [] => Some []
         | (f, T') :: fs', (_, w) :: vs' =>
           match assoc f (field_offsets tg t), y_places tg l T' w, go fs' vs' with
           | Some o, Some p, Some q => Some (move o p ++ q)%list
           | _, _, _ => None
           end
         | _, _ => None
         end) fs vs
    | None => None
    end
  | _, _ => None
  end.

(** The value whose parts are read from [buf], each at its offset after [off], and handed to the [from_stdN] of the part. *)
Fixpoint y_read {X} (tg : target) (l : lay) (T : yty X) (buf : list byte) (off : N) {struct T} : option (yval X) :=
  match T with
  | YLeaf a =>
    match read_at buf off (size_of tg (ai_out a)) with
    | Some b =>
      match from_bytes tg (ai_out a) b with
      | Some s => match ai_from a s with Some x => Some (YVLeaf x) | None => None end
      | None => None
      end
    | None => None
    end
  | YDyn T' => match y_read tg l T' buf off with Some v => Some (YVDyn v) | None => None end
  | YStruct name fs =>
    match y_out tg l (YStruct name fs) with
    | Some t =>
      match
        (fix go (fs : list (string * yty X)) : option (list (string * yval X)) :=
           match fs with
           | [] => Some []
           | (f, T') :: fs' =>
             match assoc f (field_offsets tg t) with
             | Some o =>
               match y_read tg l T' buf (off + o), go fs' with
               | Some v, Some vs => Some ((f, v) :: vs)
               | _, _ => None
               end
             | None => None
             end
           end) fs
      with
      | Some vs => Some (YVRec vs)
      | None => None
      end
    | None => None
    end
  end.
