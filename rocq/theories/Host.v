(** * Host types and their conversions

    Models the [AsStd140] / [AsStd430] implementations:
    /repo/src/std140/traits.rs:74-104, /repo/src/std430/traits.rs:74-104,
    /repo/src/bool.rs, /repo/src/util.rs, /repo/src/std140/dynamic_uniform.rs and
    the impls generated by /repo/crevice-derive/src/layout.rs:245-261. *)

From Coq Require Import NArith String Bool List.
From Coq Require Import Strings.Byte.
From Verif Require Import Rust Internal Prims Derive.
Import ListNotations.
Local Open Scope string_scope.
Local Open Scope N_scope.

(** The universe of Rust types that can implement [AsStd140]/[AsStd430].

    - [HPrim p]: f32, f64, i32, u32, Bool (via the blanket impl for [T: StdN]);
    - [HBool]: Rust's [bool];
    - [HEasy rust std fs]: a row of [easy_impl!]: foreign type [rust] with public
      fields [fs], mapped to [crate::stdN::std];
    - [HMinty rust m]: a row of [minty_impl!]: foreign type [rust] that converts
      to and from the mint type [m];
    - [HDyn h]: [DynamicUniform<h>];
    - [HStruct name fs]: a named struct without generics that derives
      [AsStd140]/[AsStd430];
    - [HOut l h]: the type [<h as AsStdL>::Output] itself, used directly (blanket
      impl): [std140::Vec3], [Std430MyStruct], ... *)
Inductive hty :=
| HPrim (p : prim)
| HBool
| HEasy (rust : string) (std : string) (fs : list (string * hty))
| HMinty (rust : string) (m : hty)
| HDyn (h : hty)
| HStruct (name : string) (fs : list (string * hty))
| HOut (l : lay) (h : hty).

(** Values of host types.  A value of a [minty] type is represented by the mint
    value it converts to (the conversions themselves are foreign code; see
    [minty_as], [minty_from] below for the version with explicit conversions). *)
(* Values of the host types: /repo/src/util.rs:7,30,64,79, /repo/src/std140/traits.rs:91-104, /repo/src/std430/traits.rs:91-104, /repo/src/std140/dynamic_uniform.rs:10, /repo/crevice-derive/src/layout.rs:245. *)
Inductive hval :=
| HVBits (n : N)
| HVBool (b : bool)
| HVRec (fs : list (string * hval))
| HVMinty (v : hval)
| HVDyn (v : hval)
| HVOut (s : sval).

(** ** /repo/src/bool.rs *)

(** /repo/src/bool.rs:15-19 [From<bool> for Bool]: [Self(v as u32)] *)
Definition Bool_from_bool (v : bool) : N := if v then 1 else 0.
(** /repo/src/bool.rs:21-25 [From<Bool> for bool]: [v.0 != 0] *)
Definition bool_from_Bool (v : N) : bool := negb (v =? 0).
(** /repo/src/bool.rs:8 [derive(PartialEq)] on [Bool(u32)] *)
Definition Bool_eq (a b : N) : bool := a =? b.
(** /repo/src/bool.rs:27-31 [Debug for Bool] *)
Definition Bool_debug (v : N) : string :=
  "Bool(" ++ (if bool_from_Bool v then "true" else "false") ++ ")".

(** ** [type Output] *)

(** Type checking of one [easy_impl!] expansion (/repo/src/util.rs:7-28):
    every listed field exists in the std type with exactly the type
    [<field as AsStdN>::Output], and no name is listed twice. *)
Definition easy_typechecks (t : sty) (outs : list (string * sty)) : bool :=
  match t with
  | TStruct _ _ _ decl =>
    nodupb (map fst outs)
    && forallb (fun o => match assoc (fst o) decl with
                         | Some u => sty_eqb (snd o) u
                         | None => false
                         end) outs
  | _ => false
  end.

(** [<h as AsStdL>::Output]; [None] when the impl does not exist or does not
    compile on the target. *)
(* /repo/src/util.rs:8,32,65,80 (type Output), /repo/src/std140/traits.rs:95, /repo/src/std430/traits.rs:95, /repo/src/std140/primitives.rs:28, /repo/src/std430/primitives.rs:28, /repo/src/std140/dynamic_uniform.rs:13, /repo/crevice-derive/src/layout.rs:246. *)
Fixpoint out_ty (tg : target) (l : lay) (h : hty) {struct h} : option sty :=
  match h with
  | HPrim p =>                          (* blanket impl, /repo/src/std{140,430}/traits.rs:91-104 *)
    match std_align l (TPrim p) with Some _ => Some (TPrim p) | None => None end
  | HBool => Some (TPrim PBool)         (* std140/primitives.rs:27-28, std430/primitives.rs:27-28 *)
  | HEasy _ std fs =>                   (* /repo/src/util.rs:8, 32 *)
    match find_std l std,
          map_opt (fun nf => match out_ty tg l (snd nf) with
                             | Some t => Some (fst nf, t) | None => None end) fs with
    | Some t, Some outs => if easy_typechecks t outs then Some t else None
    | _, _ => None
    end
  | HMinty _ m => out_ty tg l m         (* /repo/src/util.rs:65, 80 *)
  | HDyn h' =>                          (* /repo/src/std140/dynamic_uniform.rs:12-13; std140 only *)
    match l, out_ty tg l h' with
    | L140, Some t => Some (TDyn t)
    | _, _ => None
    end
  | HStruct name fs =>                  (* /repo/crevice-derive/src/layout.rs:246 *)
    match map_opt (fun nf => match out_ty tg l (snd nf) with
                             | Some t => Some (fst nf, t) | None => None end) fs with
    | Some outs => derive_output tg l name outs
    | None => None
    end
  | HOut l' h' =>                       (* blanket impl, /repo/src/std{140,430}/traits.rs:91-104 *)
    match out_ty tg l' h' with
    | Some t => match std_align l t with Some _ => Some t | None => None end
    | None => None
    end
  end.

(** ** Typing of host values *)
(* Typing of [hval] (same places). *)
Fixpoint hval_ok (tg : target) (h : hty) (v : hval) {struct h} : bool :=
  match h, v with
  | HPrim p, HVBits n => pbits_ok p n
  | HBool, HVBool _ => true
  | HEasy _ _ fs, HVRec vs | HStruct _ fs, HVRec vs =>
    (fix go (fs : list (string * hty)) (vs : list (string * hval)) : bool :=
       match fs, vs with
       | [], [] => true
       | (f, hf) :: fs', (g, w) :: vs' => String.eqb f g && hval_ok tg hf w && go fs' vs'
       | _, _ => false
       end) fs vs
  | HMinty _ m, HVMinty w => hval_ok tg m w
  | HDyn h', HVDyn w => hval_ok tg h' w
  | HOut l' h', HVOut s =>
    match out_ty tg l' h' with Some t => has_sty t s | None => false end
  | _, _ => false
  end.

(** [self.f] *)
(* /repo/src/util.rs:14,38, /repo/crevice-derive/src/layout.rs:150. *)
Definition hfield (f : string) (v : hval) : option hval :=
  match v with HVRec vs => assoc f vs | _ => None end.

(** ** [as_std140] / [as_std430] *)
Fixpoint as_std (tg : target) (l : lay) (h : hty) (v : hval) {struct h} : option sval :=
  match h with
  | HPrim _ =>                                   (* /repo/src/std{140,430}/traits.rs:97-99: *self *)
    match v with HVBits n => Some (SBits n) | _ => None end
  | HBool =>                                     (* /repo/src/std{140,430}/primitives.rs:30-32 *)
    match v with HVBool b => Some (SBits (Bool_from_bool b)) | _ => None end
  | HEasy _ std fs =>                            (* /repo/src/util.rs:11-18, 35-42 *)
    match find_std l std,
          map_opt (fun nf =>
            match hfield (fst nf) v with
            | Some w =>
              match as_std tg l (snd nf) w with
              | Some s => Some (fst nf, s)
              | None => None
              end
            | None => None
            end) fs with
    | Some t, Some inits => struct_update t inits
    | _, _ => None
    end
  | HMinty _ m =>                                (* /repo/src/util.rs:68-71, 83-86 *)
    match v with HVMinty w => as_std tg l m w | _ => None end
  | HDyn h' =>                                   (* /repo/src/std140/dynamic_uniform.rs:15-17 *)
    match v with
    | HVDyn w => match as_std tg l h' w with Some s => Some (SNew s) | None => None end
    | _ => None
    end
  | HStruct name fs =>                           (* /repo/crevice-derive/src/layout.rs:248-254 *)
    match map_opt (fun nf => match out_ty tg l (snd nf) with
                             | Some t => Some (fst nf, t) | None => None end) fs with
    | Some outs =>
      match derive_output tg l name outs,
            map_opt (fun nf =>
              match hfield (fst nf) v with
              | Some w =>
                match as_std tg l (snd nf) w with
                | Some s => Some (fst nf, s)
                | None => None
                end
              | None => None
              end) fs with
      | Some t, Some inits =>
        (* keep exactly the initialisers the macro emitted *)
        match map_opt (fun f => match assoc f inits with
                                | Some s => Some (f, s) | None => None end)
                      (derive_inits l name outs) with
        | Some inits' => struct_update t inits'
        | None => None
        end
      | _, _ => None
      end
    | None => None
    end
  | HOut _ _ =>                                  (* /repo/src/std{140,430}/traits.rs:97-99: *self *)
    match v with HVOut s => Some s | _ => None end
  end.

(** ** [from_std140] / [from_std430] *)
Fixpoint from_std (tg : target) (l : lay) (h : hty) (s : sval) {struct h} : option hval :=
  match h with
  | HPrim _ =>                                   (* /repo/src/std{140,430}/traits.rs:101-103 *)
    match s with SBits n => Some (HVBits n) | _ => None end
  | HBool =>                                     (* /repo/src/std{140,430}/primitives.rs:34-36 *)
    match s with SBits n => Some (HVBool (bool_from_Bool n)) | _ => None end
  | HEasy _ _ fs =>                              (* /repo/src/util.rs:21-27, 45-51 *)
    match map_opt (fun nf =>
            match sfield (fst nf) s with
            | Some w =>
              match from_std tg l (snd nf) w with
              | Some v => Some (fst nf, v)
              | None => None
              end
            | None => None
            end) fs with
    | Some vs => Some (HVRec vs)
    | None => None
    end
  | HMinty _ m =>                                (* /repo/src/util.rs:74-76, 89-91 *)
    match from_std tg l m s with Some v => Some (HVMinty v) | None => None end
  | HDyn h' =>                                   (* /repo/src/std140/dynamic_uniform.rs:19-21 *)
    match s with
    | SNew w => match from_std tg l h' w with Some v => Some (HVDyn v) | None => None end
    | _ => None
    end
  | HStruct name fs =>                           (* /repo/crevice-derive/src/layout.rs:256-260 *)
    match map_opt (fun nf => match out_ty tg l (snd nf) with
                             | Some t => Some (fst nf, t) | None => None end) fs with
    | Some outs =>
      match map_opt (fun nf =>
              match sfield (fst nf) s with
              | Some w =>
                match from_std tg l (snd nf) w with
                | Some v => Some (fst nf, v)
                | None => None
                end
              | None => None
              end) fs with
      | Some vs =>
        match map_opt (fun f => match assoc f vs with
                                | Some v => Some (f, v) | None => None end)
                      (derive_from l name outs) with
        | Some vs' => Some (HVRec vs')
        | None => None
        end
      | None => None
      end
    | None => None
    end
  | HOut _ _ =>                                  (* /repo/src/std{140,430}/traits.rs:101-103 *)
    Some (HVOut s)
  end.

(** [x.as_std140().as_bytes()]
    (/repo/src/std140/traits.rs:27-29, /repo/src/std430/traits.rs:27-29; the
    inherent [as_bytes] of generated structs, /repo/crevice-derive/src/layout.rs:231-236, is the same). *)
Definition as_std_bytes (tg : target) (l : lay) (h : hty) (v : hval) : option (list byte) :=
  match out_ty tg l h, as_std tg l h v with
  | Some t, Some s => bytes_of tg t s
  | _, _ => None
  end.

(** [T::std140_size_static()] (/repo/src/std140/traits.rs:83-85) *)
Definition std_size_static (tg : target) (l : lay) (h : hty) : option N :=
  match out_ty tg l h with Some t => Some (size_of tg t) | None => None end.

(** [<T::Output as StdN>::ALIGNMENT] *)
(* /repo/src/std140/traits.rs:19, /repo/src/std430/traits.rs:19, as used in /repo/src/std140/sizer.rs:65, /repo/src/std430/sizer.rs:65. *)
Definition out_align (tg : target) (l : lay) (h : hty) : option N :=
  match out_ty tg l h with Some t => std_align l t | None => None end.

(** ** [minty_impl!] with explicit foreign conversions (/repo/src/util.rs:61-99)

    [X] is the foreign type (glam, nalgebra), [into_mint] and [of_mint] its own
    conversions to and from the mint type [m]. *)
Definition minty_as {X} (into_mint : X -> hval) (tg : target) (l : lay) (m : hty) (x : X)
  : option sval := as_std tg l m (into_mint x).
(* /repo/src/util.rs:73-76, 88-91. *)
Definition minty_from {X} (of_mint : hval -> X) (tg : target) (l : lay) (m : hty) (s : sval)
  : option X :=
  match from_std tg l m s with Some v => Some (of_mint v) | None => None end.
