(** * Specification: the method a call denotes *)

From Coq Require Import NArith String Bool List.
From Verif Require Import Rust Host SpecLayout CustomAny Methods.
Import ListNotations.
Local Open Scope string_scope.

(** the methods called [as_stdN] that are visible: [true] marks the inherent one *)
Definition candidates {X} (imported : bool) (F : ftype X) : list (bool * method X) :=
  (match ft_inherent F with Some m => [(true, m)] | None => [] end
   ++ (if imported then [(false, Method false (ai_out (ft_impl F)) (ai_as (ft_impl F)))] else [])
   ++ map (fun m => (false, m)) (ft_others F))%list.

(** [self] methods before [&self] methods, then inherent methods before those of traits *)
Definition preferred {X} (a b : bool * method X) : Prop :=
  (me_by_value (snd a) = true /\ me_by_value (snd b) = false)
  \/ (me_by_value (snd a) = me_by_value (snd b) /\ fst a = true /\ fst b = false).

(** the method called: the one preferred to every other *)
Definition called {X} (imported : bool) (F : ftype X) (m : method X) : Prop :=
  exists b before after, candidates imported F = (before ++ (b, m) :: after)%list
    /\ forall c, In c (before ++ after)%list -> preferred (b, m) c.

(** What Rust's type checker knows of the types of the fields. *)
Definition ftypes_ok {X} (tg : target) (l : lay) (fs : list (string * ftype X)) : Prop :=
  forall f F, In (f, F) fs -> layout_type tg l (ai_out (ft_impl F))
    /\ forall imported b m x s, In (b, m) (candidates imported F) -> me_fn m x = Some s -> has_sty (me_ret m) s = true.

(** a value of the struct, given by the values of its fields *)
Definition record_of {X} (vs : list (string * X)) : yval X := YVRec (map (fun v => (fst v, YVLeaf (snd v))) vs).
