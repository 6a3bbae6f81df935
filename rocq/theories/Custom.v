(** * Hand-written implementations of [AsStd140] / [AsStd430]

    [AsStdN] is a safe public trait (/repo/src/std140/traits.rs:74-90, /repo/src/std430/traits.rs:74-90):
    a user can implement it for his own types with arbitrary conversions, and use these types as
    fields of structs that derive [AsStdN], or inside [DynamicUniform].  The functions below are
    the derived code (/repo/crevice-derive/src/layout.rs:245-261) and the code of
    /repo/src/std140/dynamic_uniform.rs:10-22 at such types.  (Simplification: the generated
    [self.f.as_stdN()] (layout.rs:150) is a method call; the model takes it to be the trait's
    method, i.e. assumes that no other method of that name is called instead: see Methods.v.) *)

From Coq Require Import NArith String Bool List.
From Coq Require Import Strings.Byte.
From Verif Require Import Rust Internal Prims Derive Host Buffer.
Import ListNotations.
Local Open Scope string_scope.

(** What a user writes: [impl AsStdN for X { type Output = <out as AsStdN>::Output; .. }], where
    [out] is any type whose [Output] is meant (all layout types of the crate and all generated
    structs are such [Output]s).  [ui_as] and [ui_from] are arbitrary Rust functions; [None]
    when they panic.  (Simplification: they are functions of the value alone; one
    implementation per layout.) *)
(* The items of the trait: /repo/src/std140/traits.rs:74-90, /repo/src/std430/traits.rs:74-90. *)
Record user_impl (X : Type) := UserImpl {
  ui_out : hty; ui_as : X -> option sval; ui_from : sval -> option X
}.
Arguments UserImpl {X} _ _ _.
Arguments ui_out {X} _.
Arguments ui_as {X} _ _.
Arguments ui_from {X} _ _.

(** Types built from the types of Host.v and from user types. *)
(* As [hty] in Host.v: /repo/crevice-derive/src/layout.rs:245, /repo/src/std140/dynamic_uniform.rs:10. *)
Inductive xty (X : Type) :=
| XHost (h : hty)
| XUser (u : user_impl X)
| XDyn (T : xty X)
| XStruct (name : string) (fs : list (string * xty X)).
Arguments XHost {X} _.
Arguments XUser {X} _.
Arguments XDyn {X} _.
Arguments XStruct {X} _ _.

(* Values of these types (same places). *)
Inductive xval (X : Type) :=
| XVHost (v : hval)
| XVUser (x : X)
| XVDyn (v : xval X)
| XVRec (vs : list (string * xval X)).
Arguments XVHost {X} _.
Arguments XVUser {X} _.
Arguments XVDyn {X} _.
Arguments XVRec {X} _.

(** Typing of values *)
(* As [hval_ok] in Host.v. *)
Fixpoint x_ok {X} (tg : target) (T : xty X) (v : xval X) {struct T} : bool :=
  match T, v with
  | XHost h, XVHost w => hval_ok tg h w
  | XUser _, XVUser _ => true
  | XDyn T', XVDyn w => x_ok tg T' w
  | XStruct _ fs, XVRec vs =>
    (fix go (fs : list (string * xty X)) (vs : list (string * xval X)) : bool :=
       match fs, vs with
       | [], [] => true
       | (f, T') :: fs', (g, w) :: vs' => String.eqb f g && x_ok tg T' w && go fs' vs'
       | _, _ => false
       end) fs vs
  | _, _ => false
  end.

(** [type Output] *)
(* As [out_ty] in Host.v: /repo/crevice-derive/src/layout.rs:246, /repo/src/std140/dynamic_uniform.rs:13; the bound
   [Output: StdN] of a user's impl: /repo/src/std140/traits.rs:76, /repo/src/std430/traits.rs:76. *)
Fixpoint x_out {X} (tg : target) (l : lay) (T : xty X) {struct T} : option sty :=
  match T with
  | XHost h => out_ty tg l h
  | XUser u =>
    match out_ty tg l (ui_out u) with
    | Some t => match std_align l t with Some _ => Some t | None => None end
    | None => None
    end
  | XDyn T' =>
    match l, x_out tg l T' with
    | L140, Some t => Some (TDyn t)
    | _, _ => None
    end
  | XStruct name fs =>
    match map_opt (fun nf => match x_out tg l (snd nf) with
                             | Some t => Some (fst nf, t) | None => None end) fs with
    | Some outs => derive_output tg l name outs
    | None => None
    end
  end.

(** [self.f] *)
(* /repo/crevice-derive/src/layout.rs:150. *)
Definition xfield {X} (f : string) (v : xval X) : option (xval X) :=
  match v with XVRec vs => assoc f vs | _ => None end.

(** [as_std140] / [as_std430]; [None] also when a user's function panics *)
(* As [as_std] in Host.v: /repo/crevice-derive/src/layout.rs:248-254, /repo/src/std140/dynamic_uniform.rs:15-17. *)
Fixpoint x_as {X} (tg : target) (l : lay) (T : xty X) (v : xval X) {struct T} : option sval :=
  match T with
  | XHost h => match v with XVHost w => as_std tg l h w | _ => None end
  | XUser u => match v with XVUser x => ui_as u x | _ => None end
  | XDyn T' =>
    match v with
    | XVDyn w => match x_as tg l T' w with Some s => Some (SNew s) | None => None end
    | _ => None
    end
  | XStruct name fs =>
    match map_opt (fun nf => match x_out tg l (snd nf) with
                             | Some t => Some (fst nf, t) | None => None end) fs with
    | Some outs =>
      match derive_output tg l name outs,
            map_opt (fun nf =>
              match xfield (fst nf) v with
              | Some w =>
                match x_as tg l (snd nf) w with
                | Some s => Some (fst nf, s)
                | None => None
                end
              | None => None
              end) fs with
      | Some t, Some inits =>
        match map_opt (fun f => match assoc f inits with
                                | Some s => Some (f, s) | None => None end)
                      (derive_inits l name outs) with
        | Some inits' => struct_update t inits'
        | None => None
        end
      | _, _ => None
      end
    | None => None
    end
  end.

(** [from_std140] / [from_std430] *)
(* As [from_std] in Host.v: /repo/crevice-derive/src/layout.rs:256-260, /repo/src/std140/dynamic_uniform.rs:19-21. *)
Fixpoint x_from {X} (tg : target) (l : lay) (T : xty X) (s : sval) {struct T} : option (xval X) :=
  match T with
  | XHost h => match from_std tg l h s with Some v => Some (XVHost v) | None => None end
  | XUser u => match ui_from u s with Some x => Some (XVUser x) | None => None end
  | XDyn T' =>
    match s with
    | SNew w => match x_from tg l T' w with Some v => Some (XVDyn v) | None => None end
    | _ => None
    end
  | XStruct name fs =>
    match map_opt (fun nf => match x_out tg l (snd nf) with
                             | Some t => Some (fst nf, t) | None => None end) fs with
    | Some outs =>
      match map_opt (fun nf =>
              match sfield (fst nf) s with
              | Some w =>
                match x_from tg l (snd nf) w with
                | Some v => Some (fst nf, v)
                | None => None
                end
              | None => None
              end) fs with
      | Some vs =>
        match map_opt (fun f => match assoc f vs with
                                | Some v => Some (f, v) | None => None end)
                      (derive_from l name outs) with
        | Some vs' => Some (XVRec vs')
        | None => None
        end
      | None => None
      end
    | None => None
    end
  end.

(** [x.as_std140().as_bytes()] *)
(* As [as_std_bytes] in Host.v. *)
Definition x_bytes {X} (tg : target) (l : lay) (T : xty X) (v : xval X) : option (list byte) :=
  match x_out tg l T, x_as tg l T v with
  | Some t, Some s => bytes_of tg t s
  | _, _ => None
  end.

(** [writer.write(&x)], by the blanket impl of [WriteStdN] for [AsStdN] types: the value is
    converted first, so a conversion that panics does so before the writer is touched *)
(* /repo/src/std140/traits.rs:137-139, /repo/src/std430/traits.rs:137-139, /repo/src/std140/writer.rs:94-99, /repo/src/std430/writer.rs:94-99. *)
Definition x_write {X W} (tg : target) (l : lay) (wi : write_impl W) (T : xty X) (v : xval X) (w : writer W)
  : writer W * wres :=
  match x_out tg l T with
  | Some t =>
    match x_as tg l T v with
    | Some s => write_std tg l wi t s w
    | None => (w, WPanic)
    end
  | None => (w, WUb)
  end.

(** [writer.write(&xs)] for a slice, or [writer.write_iter(xs)], of such values.  (The items
    need not have the same type, which generalises slices.) *)
(* /repo/src/std140/traits.rs:151-165, /repo/src/std430/traits.rs:151-165, /repo/src/std140/writer.rs:105-123, /repo/src/std430/writer.rs:105-123. *)
Definition x_write_seq {X W} (tg : target) (l : lay) (wi : write_impl W) (items : list (xty X * xval X)) (w : writer W)
  : writer W * wres :=
  let offset := writer_len w in
  match items with
  | [] => (w, WOk offset)
  | (T, v) :: iter =>
    match x_write tg l wi T v w with
    | (w1, WOk offset) =>
      (fix rest (iter : list (xty X * xval X)) (w : writer W) {struct iter} : writer W * wres :=
         match iter with
         | [] => (w, WOk offset)
         | (T, v) :: iter' =>
           match x_write tg l wi T v w with
           | (w', WOk _) => rest iter' w'
           | (w', r) => (w', r)
           end
         end) iter w1
    | (w1, r) => (w1, r)
    end
  end.

(** ** Derived conversions, given the layout values of the fields

    The generated code at arbitrary field types, hand-written layout types included. *)

(** [as_stdN] of a derived struct, when [vals] are the results of the calls [self.f.as_stdN()]
    for the fields *)
(* /repo/crevice-derive/src/layout.rs:248-254. *)
Definition derived_as (tg : target) (l : lay) (name : string) (fields : list (string * sty)) (vals : list (string * sval))
  : option sval :=
  match derive_output tg l name fields,
        map_opt (fun f => match assoc f vals with Some s => Some (f, s) | None => None end)
                (derive_inits l name fields) with
  | Some t, Some inits => struct_update t inits
  | _, _ => None
  end.

(** [from_stdN] of a derived struct: the fields [input.f] it hands to [from_stdN] of the field types *)
(* /repo/crevice-derive/src/layout.rs:256-260. *)
Definition derived_from (l : lay) (name : string) (fields : list (string * sty)) (s : sval)
  : option (list (string * sval)) :=
  map_opt (fun f => match sfield f s with Some w => Some (f, w) | None => None end) (derive_from l name fields).
