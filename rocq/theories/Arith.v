(** * Arithmetic facts: alignment, rounding, powers of two *)

From Coq Require Import NArith List Bool Lia ZArith.
From Coq Require Import ZifyBool ZifyN ZifyNat.
From Verif Require Import Rust Internal SpecGlsl.
Import ListNotations.
Local Open Scope N_scope.

Lemma align_offset_0 o : align_offset o 0 = 0.
Proof. reflexivity. Qed.

Lemma align_offset_lt o al : 0 < al -> align_offset o al < al.
Proof.
  intros Hal. unfold align_offset.
  destruct (N.eqb_spec al 0); [lia|]. cbn [orb].
  pose proof (N.mod_upper_bound o al ltac:(lia)).
  destruct (N.eqb_spec (o mod al) 0); lia.
Qed.

Lemma align_offset_divide o al : (al | o + align_offset o al) \/ al = 0.
Proof.
  unfold align_offset. destruct (N.eqb_spec al 0) as [->|H0]; [right; reflexivity|left].
  cbn [orb].
  pose proof (N.mod_upper_bound o al H0) as Hlt.
  pose proof (N.div_mod o al H0) as Hdm.
  destruct (N.eqb_spec (o mod al) 0) as [E|E].
  - rewrite N.add_0_r. apply N.mod_divide; assumption.
  - exists (o / al + 1). nia.
Qed.

Lemma align_offset_aligned o al : (al | o) -> align_offset o al = 0.
Proof.
  intros H. unfold align_offset.
  destruct (N.eqb_spec al 0) as [->|H0]; [reflexivity|]. cbn [orb].
  apply N.mod_divide in H; [|assumption]. rewrite H. reflexivity.
Qed.

(** the smallest multiple *)
Lemma align_offset_least o al p : 0 < al -> o <= p -> (al | p) -> o + align_offset o al <= p.
Proof.
  intros Hal Hle [k Hk].
  destruct (align_offset_divide o al) as [[j Hj]|]; [|lia].
  pose proof (align_offset_lt o al Hal).
  assert (j <= k); [|nia].
  destruct (N.le_gt_cases j k); [assumption|]. exfalso. nia.
Qed.

Lemma padding_needed_align_offset o al : 0 < al -> padding_needed_for o al = align_offset o al.
Proof.
  intros H. unfold padding_needed_for, align_offset.
  destruct (N.eqb_spec al 0); [lia|]. cbn [orb].
  destruct (N.eqb_spec (o mod al) 0) as [E|E].
  - rewrite E. reflexivity.
  - destruct (N.ltb_spec 0 (o mod al)); lia.
Qed.

Lemma round_up_align_offset o al : 0 < al -> round_up o al = o + align_offset o al.
Proof.
  intros H. unfold round_up.
  destruct (align_offset_divide o al) as [[j Hj]|]; [|lia].
  pose proof (align_offset_lt o al H).
  assert (E : (o + (al - 1)) / al = j).
  { symmetry. apply N.div_unique with (r := o + (al - 1) - al * j); nia. }
  rewrite E. lia.
Qed.

Lemma round_up_divide o al : 0 < al -> (al | round_up o al).
Proof. intros H. exists ((o + (al - 1)) / al). reflexivity. Qed.

Lemma round_up_ge o al : 0 < al -> o <= round_up o al.
Proof. intros H. rewrite round_up_align_offset by assumption. lia. Qed.

Lemma round_up_least o al p : 0 < al -> o <= p -> (al | p) -> round_up o al <= p.
Proof. intros. rewrite round_up_align_offset by assumption. now apply align_offset_least. Qed.

Lemma round_up_aligned o al : 0 < al -> (al | o) -> round_up o al = o.
Proof. intros H D. rewrite round_up_align_offset, align_offset_aligned by assumption. lia. Qed.

Lemma round_up_zero al : 0 < al -> round_up 0 al = 0.
Proof. intros. apply round_up_aligned; [assumption|]. exists 0. reflexivity. Qed.

Lemma round_up_add b o al : 0 < al -> (al | b) -> round_up (b + o) al = b + round_up o al.
Proof.
  intros H [k ->]. unfold round_up.
  replace (k * al + o + (al - 1)) with (o + (al - 1) + k * al) by lia.
  rewrite N.div_add by lia. lia.
Qed.

Lemma align_offset_add b o al : (al | b) -> align_offset (b + o) al = align_offset o al.
Proof.
  intros [k ->]. unfold align_offset.
  destruct (N.eqb_spec al 0); [reflexivity|]. cbn [orb].
  rewrite N.add_comm, N.mod_add by assumption. reflexivity.
Qed.

Lemma align_offset_mod o al m : (al | m) -> m <> 0 -> align_offset (o mod m) al = align_offset o al.
Proof.
  intros D Hm.
  rewrite (N.div_mod o m Hm) at 2.
  rewrite align_offset_add; [reflexivity|].
  apply N.divide_mul_l. assumption.
Qed.

(** ** Powers of two *)

Definition pow2 (n : N) : Prop := exists k, n = 2 ^ k.

Lemma pow2_pos n : pow2 n -> 0 < n.
Proof. intros [k ->]. apply N.neq_0_lt_0. apply N.pow_nonzero. lia. Qed.

Lemma pow2_divide a b : pow2 a -> pow2 b -> a <= b -> (a | b).
Proof.
  intros [i ->] [j ->] H.
  assert (i <= j) by (apply (N.pow_le_mono_r_iff 2); [lia|assumption]).
  exists (2 ^ (j - i)). rewrite <- N.pow_add_r. f_equal. lia.
Qed.

Lemma pow2_max a b : pow2 a -> pow2 b -> pow2 (N.max a b).
Proof.
  intros Ha Hb. destruct (N.max_spec a b) as [[_ ->]|[_ ->]]; assumption.
Qed.

Lemma pow2_divide_max_l a b : pow2 a -> pow2 b -> (a | N.max a b).
Proof.
  intros Ha Hb. apply pow2_divide; [assumption|now apply pow2_max|lia].
Qed.

Lemma pow2_dec_small n : existsb (N.eqb n) [1;2;4;8;16;32;64;128;256] = true -> pow2 n.
Proof.
  intros H. apply existsb_exists in H. destruct H as [k [Hin E]].
  apply N.eqb_eq in E. subst k.
  cbn [In] in Hin.
  repeat (destruct Hin as [<-|Hin];
    [first [exists 0; reflexivity | exists 1; reflexivity | exists 2; reflexivity
           |exists 3; reflexivity | exists 4; reflexivity | exists 5; reflexivity
           |exists 6; reflexivity | exists 7; reflexivity | exists 8; reflexivity]|]).
  contradiction.
Qed.

Lemma round_up_pow2_16 a : pow2 a -> round_up a 16 = N.max 16 a.
Proof.
  intros Ha. assert (P16 : pow2 16) by (exists 4; reflexivity).
  destruct (N.le_ge_cases a 16) as [H|H].
  - rewrite N.max_l by assumption. pose proof (pow2_pos _ Ha).
    apply N.le_antisymm.
    + apply round_up_least; [lia|assumption|exists 1; reflexivity].
    + destruct (round_up_divide a 16 ltac:(lia)) as [k Hk].
      pose proof (round_up_ge a 16 ltac:(lia)). nia.
  - rewrite N.max_r by assumption. apply round_up_aligned; [lia|].
    apply pow2_divide; assumption.
Qed.

(** ** internal.rs *)

Lemma max_spec a b : Internal.max a b = N.max a b.
Proof. unfold Internal.max. destruct (N.ltb_spec b a); lia. Qed.

Lemma max_arr_loop_spec input : forall fuel i m,
  (length input <= i + fuel)%nat ->
  max_arr_loop fuel input i m = Some (fold_left N.max (skipn i input) m).
Proof.
  induction fuel as [|fuel IH]; intros i m Hf; cbn [max_arr_loop].
  - destruct (Nat.ltb_spec i (length input)); [lia|].
    rewrite skipn_all2 by lia. reflexivity.
  - destruct (Nat.ltb_spec i (length input)) as [Hlt|Hge].
    + destruct (nth_error input i) as [x|] eqn:E.
      2:{ apply nth_error_None in E. lia. }
      rewrite IH by lia.
      assert (Hs : skipn i input = x :: skipn (S i) input).
      { clear - E. revert input E. induction i as [|i IHi]; intros [|y l] E; cbn in *; try discriminate.
        - injection E as ->. reflexivity.
        - apply IHi in E. exact E. }
      rewrite Hs. cbn [fold_left]. do 2 f_equal. destruct (N.ltb_spec m x); lia.
    + rewrite skipn_all2 by lia. reflexivity.
Qed.

Lemma fold_left_max_acc l : forall m, fold_left N.max l m = N.max m (fold_right N.max 0 l).
Proof.
  induction l as [|x l IH]; intros m; cbn [fold_left fold_right]; [lia|].
  rewrite IH. lia.
Qed.

Lemma max_arr_spec input : max_arr input = Some (fold_right N.max 0 input).
Proof.
  unfold max_arr. rewrite max_arr_loop_spec by lia.
  cbn [skipn]. rewrite fold_left_max_acc. f_equal. lia.
Qed.

Lemma fold_max_ge l x : In x l -> x <= fold_right N.max 0 l.
Proof.
  induction l as [|y l IH]; cbn [In fold_right]; [contradiction|].
  intros [->|H]; [lia|]. specialize (IH H). lia.
Qed.

Lemma fold_max_in l : l <> [] -> In (fold_right N.max 0 l) l.
Proof.
  induction l as [|y l IH]; intros H; [congruence|]. cbn [fold_right].
  destruct l as [|z l].
  - left. cbn. lia.
  - destruct (N.max_spec y (fold_right N.max 0 (z :: l))) as [[_ E]|[_ E]]; rewrite E.
    + right. apply IH. congruence.
    + left. reflexivity.
Qed.
