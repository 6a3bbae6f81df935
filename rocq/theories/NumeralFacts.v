(** * Decimal numerals *)

From Coq Require Import NArith String Ascii Bool List Lia DecimalString DecimalN DecimalNat DecimalPos DecimalFacts.
From Coq Require Import ZArith ZifyBool ZifyN ZifyNat.
From Verif Require Import SpecNumeral.
Local Open Scope string_scope.
Local Open Scope N_scope.

Fixpoint udigits (k : N) (u : Decimal.uint) : N :=
  match u with
  | Decimal.Nil => k
  | Decimal.D0 u => udigits (10 * k + 0) u | Decimal.D1 u => udigits (10 * k + 1) u
  | Decimal.D2 u => udigits (10 * k + 2) u | Decimal.D3 u => udigits (10 * k + 3) u
  | Decimal.D4 u => udigits (10 * k + 4) u | Decimal.D5 u => udigits (10 * k + 5) u
  | Decimal.D6 u => udigits (10 * k + 6) u | Decimal.D7 u => udigits (10 * k + 7) u
  | Decimal.D8 u => udigits (10 * k + 8) u | Decimal.D9 u => udigits (10 * k + 9) u
  end.

Lemma udigits_acc u : forall p, N.pos (Pos.of_uint_acc u p) = udigits (N.pos p) u.
Proof.
  induction u as [|u IH|u IH|u IH|u IH|u IH|u IH|u IH|u IH|u IH|u IH]; intros p;
    [reflexivity|..]; cbn [Pos.of_uint_acc udigits]; rewrite IH; f_equal; lia.
Qed.

Lemma udigits_of u : udigits 0 u = N.of_uint u.
Proof.
  unfold N.of_uint. induction u as [|u IH|u IH|u IH|u IH|u IH|u IH|u IH|u IH|u IH|u IH];
    [reflexivity|exact IH|..]; cbn [udigits Pos.of_uint]; rewrite udigits_acc; reflexivity.
Qed.

Lemma udigits_nat u : forall k, udigits (N.of_nat k) u = N.of_nat (Nat.of_uint_acc u k).
Proof.
  induction u as [|u IH|u IH|u IH|u IH|u IH|u IH|u IH|u IH|u IH|u IH]; intros k; [reflexivity|..];
    cbn [udigits Nat.of_uint_acc]; rewrite <- IH; f_equal; rewrite Nat.tail_mul_spec; lia.
Qed.

Lemma of_uint_nat n : N.of_uint (Nat.to_uint n) = N.of_nat n.
Proof.
  rewrite <- udigits_of. change 0 with (N.of_nat 0). rewrite udigits_nat. fold (Nat.of_uint (Nat.to_uint n)).
  now rewrite DecimalNat.Unsigned.of_to.
Qed.

Lemma digits_value_uint u : forall k, digits_value k (NilEmpty.string_of_uint u) = Some (udigits k u).
Proof.
  induction u as [|u IH|u IH|u IH|u IH|u IH|u IH|u IH|u IH|u IH|u IH]; intros k; [reflexivity|..];
    cbn [NilEmpty.string_of_uint udigits]; rewrite <- IH; reflexivity.
Qed.

Lemma digit_cases c d : digit c = Some d ->
  c = "0"%char /\ d = 0 \/ c = "1"%char /\ d = 1 \/ c = "2"%char /\ d = 2 \/ c = "3"%char /\ d = 3 \/ c = "4"%char /\ d = 4
  \/ c = "5"%char /\ d = 5 \/ c = "6"%char /\ d = 6 \/ c = "7"%char /\ d = 7 \/ c = "8"%char /\ d = 8 \/ c = "9"%char /\ d = 9.
Proof.
  destruct c as [b0 b1 b2 b3 b4 b5 b6 b7]. destruct b0, b1, b2, b3, b4, b5, b6, b7; cbv; intros H; try discriminate H; injection H as <-; tauto.
Qed.

Lemma digits_value_inv s : forall k n, digits_value k s = Some n -> exists u, s = NilEmpty.string_of_uint u /\ n = udigits k u.
Proof.
  induction s as [|c r IH]; intros k n H; cbn [digits_value] in H.
  - injection H as <-. exists Decimal.Nil. split; reflexivity.
  - destruct (digit c) as [d|] eqn:Ed; [|discriminate]. destruct (IH _ _ H) as [u [-> ->]].
    apply digit_cases in Ed.
    destruct Ed as [[-> ->]|[[-> ->]|[[-> ->]|[[-> ->]|[[-> ->]|[[-> ->]|[[-> ->]|[[-> ->]|[[-> ->]|[-> ->]]]]]]]]]];
    [exists (Decimal.D0 u)|exists (Decimal.D1 u)|exists (Decimal.D2 u)|exists (Decimal.D3 u)|exists (Decimal.D4 u)
    |exists (Decimal.D5 u)|exists (Decimal.D6 u)|exists (Decimal.D7 u)|exists (Decimal.D8 u)|exists (Decimal.D9 u)]; split; reflexivity.
Qed.

Lemma to_uint_nonnil n : N.to_uint n <> Decimal.Nil.
Proof. destruct n; [discriminate|]. cbn [N.to_uint]. apply DecimalPos.Unsigned.to_uint_nonnil. Qed.

Lemma nzhead_no_D0 u v : Decimal.nzhead u <> Decimal.D0 v.
Proof. induction u; cbn [Decimal.nzhead]; try discriminate. exact IHu. Qed.

(** numerals are exactly the texts of [N.to_uint] *)
Lemma numeral_iff s n : numeral s = Some n <-> s = NilEmpty.string_of_uint (N.to_uint n).
Proof.
  split; intros H.
  - destruct s as [|c r]; [discriminate|]. unfold numeral in H. destruct (Ascii.eqb c "0") eqn:Ec.
    + destruct r; [|discriminate]. injection H as <-. apply Ascii.eqb_eq in Ec. subst. reflexivity.
    + destruct (digits_value_inv _ _ _ H) as [u [E ->]]. rewrite E. f_equal.
      rewrite udigits_of, DecimalN.Unsigned.to_of.
      destruct u; try reflexivity; cbn [NilEmpty.string_of_uint] in E; [discriminate|].
      injection E as -> _. discriminate.
  - subst s. pose proof (to_uint_nonnil n) as H. pose proof (udigits_of (N.to_uint n)) as E. rewrite DecimalN.Unsigned.of_to in E.
    pose proof (DecimalN.Unsigned.to_of (N.to_uint n)) as U. rewrite DecimalN.Unsigned.of_to in U.
    pose proof (digits_value_uint (N.to_uint n) 0) as D. rewrite E in D.
    destruct (N.to_uint n) as [|u|u|u|u|u|u|u|u|u|u] eqn:Eu; [congruence| |exact D..].
    (* a leading zero: only "0" *)
    clear D. unfold Decimal.unorm in U. cbn [Decimal.nzhead] in U.
    destruct (Decimal.nzhead u) eqn:Ez; [|exfalso; exact (nzhead_no_D0 _ _ Ez)|discriminate..].
    injection U as ->. cbn in E. subst n. reflexivity.
Qed.

Lemma numeral_nat s n : numeral s = Some (N.of_nat n) <-> s = NilEmpty.string_of_uint (Nat.to_uint n).
Proof.
  rewrite numeral_iff. replace (N.to_uint (N.of_nat n)) with (Nat.to_uint n); [reflexivity|].
  rewrite <- of_uint_nat, DecimalN.Unsigned.to_of. symmetry. pose proof (DecimalNat.Unsigned.to_of (Nat.to_uint n)) as U.
  rewrite DecimalNat.Unsigned.of_to in U. now rewrite <- U.
Qed.
