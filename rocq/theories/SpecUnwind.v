(** * Specification vocabulary for panics that are caught *)

From Coq Require Import NArith List.
From Coq Require Import Strings.Byte.
From Verif Require Import Rust Prims Host Buffer SpecBuf Client SpecClient Unwind.
Import ListNotations.
Local Open Scope N_scope.

(** Contract of [write_all] as in [SpecBuf.lawful]; when it panics, some prefix of the argument was
    delivered (possibly all of it). *)
Definition p_lawful {W} (pi : panic_impl W) (delivered : W -> list byte) : Prop :=
  forall s bs s' r, pi s bs = (s', r) ->
    match r with
    | SOk => delivered s' = delivered s ++ bs
    | SErr _ | SPanic => exists k, (k <= length bs)%nat /\ delivered s' = delivered s ++ firstn k bs
    end.

(** a sink that never panics, as a [write_impl] of the rest of the development, and back *)
Definition never_panics {W} (wi : write_impl W) : panic_impl W := fun s bs =>
  match wi s bs with (s', None) => (s', SOk) | (s', Some e) => (s', SErr e) end.

(** every value passed to [Writer::write_std140] is a value of a layout type *)
Fixpoint uclient_ok (tg : target) (l : lay) (u : uclient) : Prop :=
  match u with
  | URet _ | UPanic => True
  | ULen k => forall n, uclient_ok tg l (k n)
  | UStd t s k => op_ok tg l (OpStd t s) /\ forall r, uclient_ok tg l (k r)
  end.

(** [n] bytes of zero *)
Definition zero_bytes (n : N) : list byte := repeat x00 (N.to_nat n).

(** the items were written one after the other and each returned [Ok] *)
Inductive wrote {W} (tg : target) (l : lay) (pi : panic_impl W) : writer W -> list uclient -> writer W -> Prop :=
| wrote_nil w : wrote tg l pi w [] w
| wrote_cons w u w1 ev o us w2 :
    run_uclient tg l pi u w = (w1, (ev, WOk o)) -> wrote tg l pi w1 us w2 -> wrote tg l pi w (u :: us) w2.

(** as [SpecClient.pulled]: successive calls of [next] returned [xs] *)
Inductive p_pulled {I} (next : I -> pnext * I) : I -> list uclient -> I -> Prop :=
| p_pulled_nil it : p_pulled next it [] it
| p_pulled_cons it x it1 xs it2 :
    next it = (NSome x, it1) -> p_pulled next it1 xs it2 -> p_pulled next it (x :: xs) it2.
