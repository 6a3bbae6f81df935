(** * Which method the derived [as_stdN] calls

    The macro writes [self.f.as_stdN()], a method call, but [<_ as AsStdN>::from_stdN(input.f)], a path
    (/repo/crevice-derive/src/layout.rs:149-151, 160-162).  So rustc looks the method up: the trait has
    to be imported where the struct is, and an inherent method of the field's type comes first.
    Elsewhere in this model the trait's method is assumed to be the one called. *)

From Coq Require Import NArith String Bool List.
From Verif Require Import Rust Internal Prims Derive Host Buffer Custom CustomAny.
Import ListNotations.
Local Open Scope string_scope.

(** A method named [as_stdN] without further arguments: whether its receiver has type [F] ([self]) or [&F]
    ([&self]; or [self] in an [impl .. for &F]), what it returns and what it does ([None]: a panic).
    (A method that takes [&mut self] is found last and cannot be called here; leave it out.) *)
(* Not code of the repository: what a user may define; /repo/src/std140/traits.rs:79, /repo/src/std430/traits.rs:79 is one. *)
Record method (X : Type) := Method { me_by_value : bool; me_ret : sty; me_fn : X -> option sval }.
Arguments Method {X} _ _ _.
Arguments me_by_value {X} _.
Arguments me_ret {X} _.
Arguments me_fn {X} _.

(** The type of a field: its [impl AsStdN], whether it is [Copy], the inherent method of that name, if
    any (rustc allows one, E0592), and those of other traits that are in scope and implemented for it.
    (Not modelled: [Deref] to a type that has such a method, looked at last.) *)
(* Not code of the repository: as above. *)
Record ftype (X : Type) := FType {
  ft_impl : any_impl X; ft_copy : bool; ft_inherent : option (method X); ft_others : list (method X)
}.
Arguments FType {X} _ _ _ _.
Arguments ft_impl {X} _.
Arguments ft_copy {X} _.
Arguments ft_inherent {X} _.
Arguments ft_others {X} _.

(** the method of the crate's trait *)
(* /repo/src/std140/traits.rs:79, /repo/src/std430/traits.rs:79. *)
Definition trait_method {X} (a : any_impl X) : method X := Method false (ai_out a) (ai_as a).

(** rustc's method lookup: first receivers of type [F], then of type [&F]; at each an inherent method comes
    first, then the traits in scope, of which only one may match (E0034). *)
(* The call at /repo/crevice-derive/src/layout.rs:150; the algorithm is rustc's. *)
Definition method_at {X} (by_value : bool) (inherent : option (method X)) (traits : list (method X)) : option (option (method X)) :=
  match filter (fun m => Bool.eqb (me_by_value m) by_value) (match inherent with Some m => [m] | None => [] end) with
  | m :: _ => Some (Some m)
  | [] =>
    match filter (fun m => Bool.eqb (me_by_value m) by_value) traits with
    | [] => None
    | [m] => Some (Some m)
    | _ => Some None
    end
  end.
(* The same; [imported]: the trait [AsStdN] is in scope at the struct. *)
Definition resolve {X} (imported : bool) (F : ftype X) : option (method X) :=
  let traits := ((if imported then [trait_method (ft_impl F)] else []) ++ ft_others F)%list in
  match method_at true (ft_inherent F) traits with
  | Some r => r
  | None => match method_at false (ft_inherent F) traits with Some r => r | None => None end
  end.

(** [f: self.f.as_stdN()]: the result has to have the type of the field of the generated struct (E0308),
    and a receiver taken by value must not be moved out of [&self] (E0507). *)
(* /repo/crevice-derive/src/layout.rs:144-153. *)
Definition initialiser {X} (imported : bool) (F : ftype X) : option (method X) :=
  match resolve imported F with
  | Some m => if sty_eqb (me_ret m) (ai_out (ft_impl F)) && (negb (me_by_value m) || ft_copy F) then Some m else None
  | None => None
  end.

(** The derived struct, with the methods that are called in the place of [as_stdN]; [None]: a call does not
    compile.  [from_stdN] always is the trait's. *)
(* /repo/crevice-derive/src/layout.rs:144-164, 245-261. *)
Definition elaborate {X} (imported : bool) (name : string) (fs : list (string * ftype X)) : option (yty X) :=
  match map_opt (fun nf =>
          match initialiser imported (snd nf) with
          | Some m => Some (fst nf, YLeaf (AnyImpl (ai_out (ft_impl (snd nf))) (me_fn m) (ai_from (ft_impl (snd nf)))))
          | None => None
          end) fs with
  | Some ys => Some (YStruct name ys)
  | None => None
  end.
