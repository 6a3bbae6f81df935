(** * Specification vocabulary: values of user types replaced by what the user's code makes of them *)

From Coq Require Import NArith String Bool List.
From Verif Require Import Rust Prims Derive Host Custom.
Import ListNotations.
Local Open Scope string_scope.

(** the type with every user type replaced by the [Output] the user chose *)
Fixpoint plain_ty {X} (l : lay) (T : xty X) : hty :=
  match T with
  | XHost h => h
  | XUser u => HOut l (ui_out u)
  | XDyn T' => HDyn (plain_ty l T')
  | XStruct name fs => HStruct name (map (fun nf => (fst nf, plain_ty l (snd nf))) fs)
  end.

(** the value with every part of a user type replaced by the result of the user's [as_stdN];
    [None] when one of them panics (or the value does not have the type) *)
Fixpoint plain_val {X} (T : xty X) (v : xval X) {struct T} : option hval :=
  match T, v with
  | XHost _, XVHost w => Some w
  | XUser u, XVUser x => match ui_as u x with Some s => Some (HVOut s) | None => None end
  | XDyn T', XVDyn w => match plain_val T' w with Some p => Some (HVDyn p) | None => None end
  | XStruct _ fs, XVRec vs =>
    match
      (fix go (fs : list (string * xty X)) (vs : list (string * xval X)) : option (list (string * hval)) :=
         match fs, vs with
         | [], [] => Some []
         | (f, T') :: fs', (_, w) :: vs' =>
           match plain_val T' w, go fs' vs' with
           | Some p, Some ps => Some ((f, p) :: ps)
           | _, _ => None
           end
         | _, _ => None
         end) fs vs
    with
    | Some ps => Some (HVRec ps)
    | None => None
    end
  | _, _ => None
  end.

(** the other way round, with the user's [from_stdN] *)
Fixpoint user_val {X} (T : xty X) (v : hval) {struct T} : option (xval X) :=
  match T, v with
  | XHost _, w => Some (XVHost w)
  | XUser u, HVOut s => match ui_from u s with Some x => Some (XVUser x) | None => None end
  | XDyn T', HVDyn w => match user_val T' w with Some p => Some (XVDyn p) | None => None end
  | XStruct _ fs, HVRec vs =>
    match
      (fix go (fs : list (string * xty X)) (vs : list (string * hval)) : option (list (string * xval X)) :=
         match fs, vs with
         | [], [] => Some []
         | (f, T') :: fs', (_, w) :: vs' =>
           match user_val T' w, go fs' vs' with
           | Some p, Some ps => Some ((f, p) :: ps)
           | _, _ => None
           end
         | _, _ => None
         end) fs vs
    with
    | Some ps => Some (XVRec ps)
    | None => None
    end
  | _, _ => None
  end.

(** the user types inside a type *)
Fixpoint user_impls {X} (T : xty X) : list (user_impl X) :=
  match T with
  | XHost _ => []
  | XUser u => [u]
  | XDyn T' => user_impls T'
  | XStruct _ fs => flat_map (fun nf => user_impls (snd nf)) fs
  end.

(** the parts of a value that have a user type *)
Fixpoint user_parts {X} (T : xty X) (v : xval X) {struct T} : list (user_impl X * X) :=
  match T, v with
  | XUser u, XVUser x => [(u, x)]
  | XDyn T', XVDyn w => user_parts T' w
  | XStruct _ fs, XVRec vs =>
    (fix go (fs : list (string * xty X)) (vs : list (string * xval X)) : list (user_impl X * X) :=
       match fs, vs with
       | (_, T') :: fs', (_, w) :: vs' => (user_parts T' w ++ go fs' vs')%list
       | _, _ => []
       end) fs vs
  | _, _ => []
  end.

(** Rust's type checker: a user's [as_stdN] returns values of its [Output] type *)
Definition returns_output {X} (tg : target) (l : lay) (T : xty X) : Prop :=
  forall u x s t, In u (user_impls T) -> ui_as u x = Some s -> out_ty tg l (ui_out u) = Some t -> has_sty t s = true.
