(** * Cost of evaluating the generated constants

    rustc's compile-time interpreter executes every call of a [const fn]; calls
    are not memoised.  [ccalls env fuel e] counts the calls of generated padding
    functions (/repo/crevice-derive/src/layout.rs:95-126) made while evaluating
    [e]; [None] if a function is missing or the call depth exceeds [fuel].  Calls of
    [max_arr], [align_offset] and [size_of] are not counted. *)

From Coq Require Import NArith String Bool List.
From Verif Require Import Rust Internal Prims Derive.
Import ListNotations.
Local Open Scope string_scope.
Local Open Scope N_scope.

Definition oadd (a b : option N) : option N :=
  match a, b with Some x, Some y => Some (x + y) | _, _ => None end.

(* Counts calls in the evaluation of /repo/crevice-derive/src/layout.rs:70-126. *)
Fixpoint ccalls (env : list (string * cexpr)) (fuel : nat) : cexpr -> option N :=
  fix ev (e : cexpr) : option N :=
    match e with
    | CLit _ | CSizeOf _ | CAlignOf _ => Some 0
    | CAdd a b | CAlignOffset a b => oadd (ev a) (ev b)
    | CCall f =>
      match fuel with
      | O => None
      | S fuel' =>
        match assoc f env with
        | Some body => oadd (Some 1) (ccalls env fuel' body)
        | None => None
        end
      end
    | CMaxArr es => (fix evs (es : list cexpr) : option N :=
        match es with [] => Some 0 | e :: r => oadd (ev e) (evs r) end) es
    end.

(** Calls needed to know the layout of the generated struct: every padding field
    [[u8; f()]] (/repo/crevice-derive/src/layout.rs:137-140) is evaluated once. *)
Definition struct_calls (g : generated) : option N :=
  fold_right (fun gf acc =>
    match snd gf with
    | GOut _ => acc
    | GPad e => oadd (ccalls (g_pads g) (S (length (g_pads g))) e) acc
    end) (Some 0) (g_fields g).
