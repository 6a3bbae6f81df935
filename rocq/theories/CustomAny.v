(** * [AsStd140] / [AsStd430] implementations with hand-written [Output] types, at any depth

    Custom.v has user implementations of [AsStdN] (/repo/src/std140/traits.rs:74-90,
    /repo/src/std430/traits.rs:74-90) whose [Output] is a type of the crate or a generated struct.
    Here [Output] is any type that implements [StdN], also by a hand-written [unsafe impl], and
    every type that is not a [DynamicUniform] or a derived struct is such an implementation
    (those of the crate included, see [y_of]). *)

From Coq Require Import NArith String Bool List.
From Coq Require Import Strings.Byte.
From Verif Require Import Rust Internal Prims Derive Host Buffer Custom.
Import ListNotations.
Local Open Scope string_scope.

(** [impl AsStdN for X { type Output = ai_out; .. }]; the functions are arbitrary, [None] when they panic *)
(* The items of the trait: /repo/src/std140/traits.rs:74-90, /repo/src/std430/traits.rs:74-90. *)
Record any_impl (X : Type) := AnyImpl {
  ai_out : sty; ai_as : X -> option sval; ai_from : sval -> option X
}.
Arguments AnyImpl {X} _ _ _.
Arguments ai_out {X} _.
Arguments ai_as {X} _ _.
Arguments ai_from {X} _ _.

(** Types built from such types by [DynamicUniform] and the derive macros *)
(* /repo/crevice-derive/src/layout.rs:245, /repo/src/std140/dynamic_uniform.rs:10. *)
Inductive yty (X : Type) :=
| YLeaf (a : any_impl X)
| YDyn (T : yty X)
| YStruct (name : string) (fs : list (string * yty X)).
Arguments YLeaf {X} _.
Arguments YDyn {X} _.
Arguments YStruct {X} _ _.

(* Values of these types (same places). *)
Inductive yval (X : Type) :=
| YVLeaf (x : X)
| YVDyn (v : yval X)
| YVRec (vs : list (string * yval X)).
Arguments YVLeaf {X} _.
Arguments YVDyn {X} _.
Arguments YVRec {X} _.

(** Typing of values *)
(* As [hval_ok] in Host.v. *)
Fixpoint y_ok {X} (T : yty X) (v : yval X) {struct T} : bool :=
  match T, v with
  | YLeaf _, YVLeaf _ => true
  | YDyn T', YVDyn w => y_ok T' w
  | YStruct _ fs, YVRec vs =>
    (fix go (fs : list (string * yty X)) (vs : list (string * yval X)) : bool :=
       match fs, vs with
       | [], [] => true
       | (f, T') :: fs', (g, w) :: vs' => String.eqb f g && y_ok T' w && go fs' vs'
       | _, _ => false
       end) fs vs
  | _, _ => false
  end.

(** [type Output] *)
(* As [x_out] in Custom.v: /repo/crevice-derive/src/layout.rs:246, /repo/src/std140/dynamic_uniform.rs:13; the bound
   [Output: StdN]: /repo/src/std140/traits.rs:76, /repo/src/std430/traits.rs:76. *)
Fixpoint y_out {X} (tg : target) (l : lay) (T : yty X) {struct T} : option sty :=
  match T with
  | YLeaf a => match std_align l (ai_out a) with Some _ => Some (ai_out a) | None => None end
  | YDyn T' =>
    match l, y_out tg l T' with
    | L140, Some t => Some (TDyn t)
    | _, _ => None
    end
  | YStruct name fs =>
    match map_opt (fun nf => match y_out tg l (snd nf) with
                             | Some t => Some (fst nf, t) | None => None end) fs with
    | Some outs => derive_output tg l name outs
    | None => None
    end
  end.

(** [self.f] *)
(* /repo/crevice-derive/src/layout.rs:150. *)
Definition yfield {X} (f : string) (v : yval X) : option (yval X) :=
  match v with YVRec vs => assoc f vs | _ => None end.

(** [as_std140] / [as_std430] *)
(* As [x_as] in Custom.v: /repo/crevice-derive/src/layout.rs:248-254, /repo/src/std140/dynamic_uniform.rs:15-17. *)
Fixpoint y_as {X} (tg : target) (l : lay) (T : yty X) (v : yval X) {struct T} : option sval :=
  match T with
  | YLeaf a => match v with YVLeaf x => ai_as a x | _ => None end
  | YDyn T' =>
    match v with
    | YVDyn w => match y_as tg l T' w with Some s => Some (SNew s) | None => None end
    | _ => None
    end
  | YStruct name fs =>
    match map_opt (fun nf => match y_out tg l (snd nf) with
                             | Some t => Some (fst nf, t) | None => None end) fs,
          map_opt (fun nf =>
            match yfield (fst nf) v with
            | Some w =>
              match y_as tg l (snd nf) w with
              | Some s => Some (fst nf, s)
              | None => None
              end
            | None => None
            end) fs with
    | Some outs, Some vals => derived_as tg l name outs vals
    | _, _ => None
    end
  end.

(** [from_std140] / [from_std430] *)
(* As [x_from] in Custom.v: /repo/crevice-derive/src/layout.rs:256-260, /repo/src/std140/dynamic_uniform.rs:19-21. *)
Fixpoint y_from {X} (tg : target) (l : lay) (T : yty X) (s : sval) {struct T} : option (yval X) :=
  match T with
  | YLeaf a => match ai_from a s with Some x => Some (YVLeaf x) | None => None end
  | YDyn T' =>
    match s with
    | SNew w => match y_from tg l T' w with Some v => Some (YVDyn v) | None => None end
    | _ => None
    end
  | YStruct name fs =>
    match map_opt (fun nf => match y_out tg l (snd nf) with
                             | Some t => Some (fst nf, t) | None => None end) fs with
    | Some outs =>
      match map_opt (fun nf =>
              match sfield (fst nf) s with
              | Some w =>
                match y_from tg l (snd nf) w with
                | Some v => Some (fst nf, v)
                | None => None
                end
              | None => None
              end) fs with
      | Some vs =>
        match map_opt (fun f => match assoc f vs with
                                | Some v => Some (f, v) | None => None end)
                      (derive_from l name outs) with
        | Some vs' => Some (YVRec vs')
        | None => None
        end
      | None => None
      end
    | None => None
    end
  end.

(** [writer.write(&x)] by the blanket impl; a panic in a conversion happens before the writer is touched *)
(* /repo/src/std140/traits.rs:137-139, /repo/src/std430/traits.rs:137-139, /repo/src/std140/writer.rs:94-99, /repo/src/std430/writer.rs:94-99. *)
Definition y_write {X W} (tg : target) (l : lay) (wi : write_impl W) (T : yty X) (v : yval X) (w : writer W)
  : writer W * wres :=
  match y_out tg l T with
  | Some t =>
    match y_as tg l T v with
    | Some s => write_std tg l wi t s w
    | None => (w, WPanic)
    end
  | None => (w, WUb)
  end.

(** ** The types of Custom.v are such types *)

(* Another way to write a type of Custom.v; [None] if a part has no layout. *)
Fixpoint y_of {X} (tg : target) (l : lay) (T : xty X) {struct T} : option (yty (hval + X)) :=
  match T with
  | XHost h =>
    match out_ty tg l h with
    | Some t => Some (YLeaf (AnyImpl t
        (fun x => match x with inl v => if hval_ok tg h v then as_std tg l h v else None | inr _ => None end)
        (fun s => match from_std tg l h s with Some v => Some (inl v) | None => None end)))
    | None => None
    end
  | XUser u =>
    match out_ty tg l (ui_out u) with
    | Some t => Some (YLeaf (AnyImpl t
        (fun x => match x with inr v => ui_as u v | inl _ => None end)
        (fun s => match ui_from u s with Some v => Some (inr v) | None => None end)))
    | None => None
    end
  | XDyn T' => match y_of tg l T' with Some Y => Some (YDyn Y) | None => None end
  | XStruct name fs =>
    match map_opt (fun nf => match y_of tg l (snd nf) with Some Y => Some (fst nf, Y) | None => None end) fs with
    | Some ys => Some (YStruct name ys)
    | None => None
    end
  end.

(* The values of such types (same places). *)
Fixpoint yv_of {X} (v : xval X) : yval (hval + X) :=
  match v with
  | XVHost w => YVLeaf (inl w)
  | XVUser x => YVLeaf (inr x)
  | XVDyn w => YVDyn (yv_of w)
  | XVRec vs => YVRec (map (fun nv => (fst nv, yv_of (snd nv))) vs)
  end.
