(** * End to end: copying by hand, reading back, dynamic uniforms, zeroed memory (C54-C57) *)

From Coq Require Import NArith String Bool List Lia ZArith Permutation.
From Coq Require Import ZifyBool ZifyN ZifyNat.
From Coq Require Import Strings.Byte.
From Verif Require Import Rust Internal Prims Derive Host Rows Buffer SpecBuf SpecGlsl SpecHost SpecTypes SpecUse
  Arith RustFacts DeriveFacts TypeFacts HostFacts GlslFacts PadFacts BufferFacts WriterFacts Samples
  Proofs_Buffer Proofs_Types Proofs_Struct.
Import ListNotations.
Local Open Scope string_scope.
Local Open Scope N_scope.

Lemma Forall2_length {A B} (R : A -> B -> Prop) a b : Forall2 R a b -> length a = length b.
Proof. induction 1; cbn [length]; congruence. Qed.

(** ** Bytes *)

Lemma byte_at_None bs i : byte_at bs i = None <-> len bs <= i.
Proof. unfold byte_at, len. rewrite nth_error_None. lia. Qed.

Lemma bytes_ext (a b : list byte) : (forall i, byte_at a i = byte_at b i) -> a = b.
Proof.
  unfold byte_at. intros H.
  assert (K : forall i, nth_error a i = nth_error b i) by (intros i; specialize (H (N.of_nat i)); now rewrite !Nat2N.id in H).
  clear H. revert b K. induction a as [|x a IH]; intros [|y b] K; [reflexivity|specialize (K 0%nat); discriminate|specialize (K 0%nat); discriminate|].
  f_equal; [specialize (K 0%nat); now injection K|]. apply IH. intros i. exact (K (S i)).
Qed.

Lemma byte_at_firstn n bs i : byte_at (firstn n bs) i = if (N.to_nat i <? n)%nat then byte_at bs i else None.
Proof.
  unfold byte_at. destruct (N.to_nat i <? n)%nat eqn:E.
  - apply Nat.ltb_lt in E. rewrite <- (firstn_skipn n bs) at 2. destruct (Nat.lt_ge_cases (N.to_nat i) (length (firstn n bs))) as [H|H].
    + now rewrite nth_error_app1.
    + rewrite firstn_length in H. assert (length bs <= N.to_nat i)%nat by lia.
      rewrite firstn_skipn. transitivity (@None byte); [|symmetry]; apply nth_error_None; [rewrite firstn_length|]; lia.
  - apply Nat.ltb_ge in E. apply nth_error_None. rewrite firstn_length. lia.
Qed.

Lemma byte_at_skipn n bs i : byte_at (skipn n bs) i = byte_at bs (N.of_nat n + i).
Proof.
  unfold byte_at. replace (N.to_nat (N.of_nat n + i)) with (n + N.to_nat i)%nat by lia.
  revert bs. induction n as [|n IH]; intros bs; [reflexivity|]. destruct bs as [|x bs]; [cbn; now destruct (N.to_nat i)|]. cbn [skipn Nat.add nth_error]. apply IH.
Qed.

Lemma read_at_bytes bs o c : read_at bs o (len c) = Some c <->
  o + len c <= len bs /\ forall k, k < len c -> byte_at bs (o + k) = byte_at c k.
Proof.
  unfold read_at. split.
  - destruct (N.leb_spec (o + len c) (len bs)) as [H|H]; [|discriminate]. intros E. injection E as E. split; [assumption|].
    intros k Hk. rewrite <- E. rewrite byte_at_firstn, byte_at_skipn.
    replace (N.to_nat k <? N.to_nat (len c))%nat with true by (symmetry; apply Nat.ltb_lt; lia). f_equal. lia.
  - intros [H K]. replace (o + len c <=? len bs) with true by (symmetry; apply N.leb_le; lia). f_equal.
    apply bytes_ext. intros k. rewrite byte_at_firstn, byte_at_skipn.
    destruct (Nat.ltb_spec (N.to_nat k) (N.to_nat (len c))) as [L|L].
    + rewrite <- K by lia. f_equal. lia.
    + symmetry. apply byte_at_None. lia.
Qed.

Lemma copy_at_spec buf o bs : o + len bs <= len buf ->
  exists b, copy_at buf o bs = Some b /\ len b = len buf
    /\ forall i, byte_at b i = if (o <=? i) && (i <? o + len bs) then byte_at bs (i - o) else byte_at buf i.
Proof.
  intros H. unfold copy_at. replace (o + len bs <=? len buf) with true by (symmetry; apply N.leb_le; lia).
  eexists. split; [reflexivity|].
  assert (L1 : len (firstn (N.to_nat o) buf) = o) by (unfold len in *; rewrite firstn_length; lia).
  assert (L2 : len (skipn (N.to_nat (o + len bs)) buf) = len buf - (o + len bs)) by (unfold len in *; rewrite skipn_length; lia).
  split; [rewrite !len_app, L1, L2; lia|]. intros i.
  destruct (N.leb_spec o i) as [A|A]; cbn [andb].
  - rewrite byte_at_app_r by lia. rewrite L1. destruct (N.ltb_spec i (o + len bs)) as [B|B].
    + rewrite byte_at_app_l by lia. reflexivity.
    + rewrite byte_at_app_r by lia. rewrite byte_at_skipn. f_equal. lia.
  - rewrite byte_at_app_l by lia. rewrite byte_at_firstn.
    replace (N.to_nat i <? N.to_nat o)%nat with true by (symmetry; apply Nat.ltb_lt; lia). reflexivity.
Qed.

(** ** Copying placements *)

Definition apart (p q : placement) : Prop :=
  forall i, ~ (fst p <= i < fst p + len (snd p) /\ fst q <= i < fst q + len (snd q)).

Lemma apart_sym p q : apart p q -> apart q p.
Proof. intros H i [A B]. exact (H i (conj B A)). Qed.

Lemma increasing_apart ps : forall start total, increasing start ps total -> ForallOrdPairs apart ps.
Proof.
  induction ps as [|[o c] ps IH]; intros start total H; [constructor|]. cbn [increasing] in H. destruct H as [H1 H2].
  constructor; [|eapply IH; eassumption]. apply Forall_forall. intros [o' c'] Hin.
  pose proof (increasing_in _ _ _ _ _ H2 Hin) as [K _]. intros i. cbn [fst snd]. lia.
Qed.

Lemma apart_perm ps qs : Permutation ps qs -> ForallOrdPairs apart ps -> ForallOrdPairs apart qs.
Proof.
  induction 1 as [|x ps qs HP IH|x y ps|ps qs rs _ IH1 _ IH2]; intros H.
  - constructor.
  - inversion H as [|? ? F1 F2]; subst. constructor; [|auto]. eapply Permutation_Forall; eassumption.
  - inversion H as [|? ? F1 F2]; subst. inversion F2 as [|? ? F3 F4]; subst. inversion F1 as [|? ? F5 F6]; subst.
    constructor; [constructor; [now apply apart_sym|assumption]|]. constructor; assumption.
  - auto.
Qed.

Lemma copy_all_spec ps : forall buf, ForallOrdPairs apart ps ->
  (forall o c, In (o, c) ps -> o + len c <= len buf) ->
  exists b, copy_all buf ps = Some b /\ len b = len buf
    /\ (forall o c, In (o, c) ps -> read_at b o (len c) = Some c)
    /\ (forall i, (forall o c, In (o, c) ps -> ~ (o <= i < o + len c)) -> byte_at b i = byte_at buf i).
Proof.
  induction ps as [|[o c] ps IH]; intros buf HA HR.
  - exists buf. split; [reflexivity|]. split; [reflexivity|]. split; [intros ? ? []|reflexivity].
  - inversion HA as [|? ? A1 A2]; subst. destruct (copy_at_spec buf o c (HR o c (or_introl eq_refl))) as [b1 [E1 [L1 B1]]].
    destruct (IH b1 A2) as [b [E [L [R Z]]]]; [intros o' c' Hin; rewrite L1; apply HR; now right|].
    exists b. cbn [copy_all]. rewrite E1. split; [exact E|]. split; [congruence|]. split.
    + intros o' c' [Hin|Hin]; [|now apply R]. injection Hin as <- <-. apply read_at_bytes.
      split; [rewrite L, L1; apply HR; now left|]. intros k Hk. rewrite Z.
      * rewrite B1. replace (o <=? o + k) with true by (symmetry; apply N.leb_le; lia).
        replace (o + k <? o + len c) with true by (symmetry; apply N.ltb_lt; lia). cbn [andb]. f_equal. lia.
      * intros o' c' Hin Hi. rewrite Forall_forall in A1. apply (A1 _ Hin (o + k)). cbn [fst snd]. lia.
    + intros i Hi. rewrite Z by (intros o' c' Hin; apply Hi; now right). rewrite B1.
      specialize (Hi o c (or_introl eq_refl)). destruct (N.leb_spec o i); cbn [andb]; [|reflexivity].
      destruct (N.ltb_spec i (o + len c)); [lia|reflexivity].
Qed.

Lemma covered_dec (ps : list placement) i :
  (exists o c, In (o, c) ps /\ o <= i < o + len c) \/ (forall o c, In (o, c) ps -> ~ (o <= i < o + len c)).
Proof.
  induction ps as [|[o c] ps [[o' [c' [H1 H2]]]|IH]].
  - right. intros ? ? [].
  - left. exists o', c'. split; [now right|assumption].
  - destruct (N.le_gt_cases o i) as [A|A]; [destruct (N.lt_ge_cases i (o + len c)) as [B|B]|].
    + left. exists o, c. split; [now left|lia].
    + right. intros o' c' [E|E]; [injection E as <- <-; lia|now apply IH].
    + right. intros o' c' [E|E]; [injection E as <- <-; lia|now apply IH].
Qed.

Lemma image_unique ps total a b : image ps total a -> image ps total b -> a = b.
Proof.
  intros [A1 [A2 A3]] [B1 [B2 B3]]. apply bytes_ext. intros i.
  destruct (N.lt_ge_cases i total) as [H|H].
  - destruct (covered_dec ps i) as [[o [c [Hin Hi]]]|Hno].
    + specialize (A2 _ _ Hin). specialize (B2 _ _ Hin). apply read_at_bytes in A2. apply read_at_bytes in B2.
      destruct A2 as [_ A2]. destruct B2 as [_ B2]. specialize (A2 (i - o) ltac:(lia)). specialize (B2 (i - o) ltac:(lia)).
      replace (o + (i - o)) with i in * by lia. congruence.
    + rewrite A3, B3 by assumption. reflexivity.
  - transitivity (@None byte); [|symmetry]; apply byte_at_None; lia.
Qed.

Lemma image_perm ps qs total a : Permutation ps qs -> image ps total a -> image qs total a.
Proof.
  intros HP [A1 [A2 A3]]. split; [assumption|]. split.
  - intros o c Hin. apply A2. eapply Permutation_in; [symmetry; exact HP|exact Hin].
  - intros i Hi Hno. apply A3; [assumption|]. intros o c Hin. apply Hno. eapply Permutation_in; eassumption.
Qed.

(** ** C54 *)

(** C54.  Asking a [Sizer] for the offsets, allocating [len()] zero bytes and copying the
    [as_stdN().as_bytes()] of each value to its offset — in any order — never goes out of
    bounds and produces the bytes a [Writer] produces. *)
Lemma C54_copying_by_hand_proof : forall tg l xs ps places total os s bss order,
  target_ok tg = true -> typed_all tg l xs ->
  parts tg l (WSeq (map leaf xs)) = Some ps -> laid_out 0 ps places total ->
  (t_checks tg = true \/ total < umod tg) ->
  sizer_run tg l (map fst xs) sizer_new = Some (Done (os, s)) ->
  map_opt (fun x => as_std_bytes tg l (fst x) (snd x)) xs = Some bss ->
  Permutation order (combine os bss) ->
  exists w, write_vals tg l vec_sink (map leaf xs) (writer_new []) = (w, (os, None))
    /\ copy_all (repeat x00 (N.to_nat (sizer_len s))) order = Some (w_inner w).
Proof.
  intros tg l xs ps places total os s bss order Htg Hty Hp Hl Hno Hs Hb HP.
  pose proof (C02_sizer_writer_agree_proof _ tg l vec_sink xs sizer_new (writer_new []) Htg vec_infallible Hty eq_refl) as Q.
  rewrite Hs in Q. destruct Q as [w [Hw Hlen]]. exists w. split; [exact Hw|].
  destruct (C03_returned_offsets_proof _ tg l vec_sink (fun v => v) [] xs w os ps places total Htg vec_lawful Hty Hw Hp Hl Hno) as [E1 [E2 [F [img [D I]]]]].
  cbn [app] in D.
  assert (Etot : sizer_len s = total).
  { rewrite <- Hlen. pose proof Hl as Hl'. apply laid_out_spec in Hl'. destruct Hl' as [E3 E4]. rewrite E4.
    rewrite (write_vals_run1 tg l vec_sink Htg xs _ ps Hty Hp) in Hw.
    pose proof (parts_uals tg l Htg _ _ (typed_all_ok _ _ _ Hty) Hp) as Hu.
    destruct (run1_spec tg vec_sink (fun v => v) vec_lawful ps (writer_new []) w os None 0 Hu (at_pos_0 tg) Hw) as [_ [_ [A _]]].
    unfold writer_len. destruct Hno as [C|Hlt]; [now apply (at_pos_checks tg)|]. apply (at_pos_small tg); [|exact A]. lia. }
  assert (Ebs : bss = map snd places).
  { rewrite E2. apply map_opt_Forall2 in Hb. clear -Hb F. revert bss Hb. induction F as [|x p xs ps [A _] _ IH]; intros bss Hb; inversion Hb; subst; [reflexivity|].
    cbn [map]. f_equal; [congruence|auto]. }
  assert (Ec : combine os bss = places).
  { rewrite E1, Ebs. clear. induction places as [|[o c] r IH]; [reflexivity|]. cbn [map combine fst snd]. now rewrite IH. }
  rewrite Ec in HP. rewrite Etot, D.
  apply laid_out_spec in Hl. destruct Hl as [-> ->].
  pose proof (increasing_placements ps 0) as Inc.
  assert (Hz : len (repeat x00 (N.to_nat (end_of 0 ps))) = end_of 0 ps) by (rewrite len_repeat; lia).
  destruct (copy_all_spec order (repeat x00 (N.to_nat (end_of 0 ps)))) as [b [B1 [B2 [B3 B4]]]].
  - eapply apart_perm; [symmetry; exact HP|]. eapply increasing_apart. exact Inc.
  - intros o c Hin. rewrite Hz. apply (Permutation_in _ HP) in Hin. now apply (increasing_in _ _ _ _ _ Inc) in Hin.
  - rewrite B1. f_equal. apply (image_unique (placements 0 ps) (end_of 0 ps)); [|exact I].
    apply (image_perm order); [exact HP|]. split; [congruence|]. split; [exact B3|].
    intros i Hi Hn. rewrite (B4 i Hn). unfold byte_at. apply nth_error_repeat. lia.
Qed.

(** ** C55 *)

(** C55.  After a sequence of successful writes, every value can be found again at the offset
    its [write] returned: the host reads it back with [from_bytes] and [from_stdN], and a
    shader that declares a variable of the corresponding GLSL type at that offset sees the
    value written. *)
Lemma C55_found_at_returned_offset_proof : forall W tg l (wi : write_impl W) delivered inner xs w offs ps places total,
  target_ok tg = true -> lawful wi delivered -> typed_all tg l xs ->
  write_vals tg l wi (map leaf xs) (writer_new inner) = (w, (offs, None)) ->
  parts tg l (WSeq (map leaf xs)) = Some ps -> laid_out 0 ps places total ->
  (t_checks tg = true \/ total < umod tg) ->
  exists img, delivered (w_inner w) = (delivered inner ++ img)%list
  /\ length offs = length xs
  /\ forall i h v o, nth_error xs i = Some (h, v) -> nth_error offs i = Some o ->
       exists t a bs s, out_ty tg l h = Some t /\ std_align l t = Some a /\ aligned a o
         /\ read_at img o (size_of tg t) = Some bs
         /\ from_bytes tg t bs = Some s /\ from_std tg l h s = Some v
         /\ (forall g, gty_of h = Some g -> exists x, gval_of tg h v = Some x /\ gread tg l g img o = Some x).
Proof.
  intros W tg l wi delivered inner xs w offs ps places total Htg Hlaw Hty Hw Hp Hl Hno.
  destruct (C03_returned_offsets_proof _ tg l wi delivered inner xs w offs ps places total Htg Hlaw Hty Hw Hp Hl Hno) as [E1 [E2 [F [img [D I]]]]].
  exists img. split; [exact D|]. split.
  { rewrite E1, map_length. rewrite <- (map_length snd places), E2, map_length. symmetry. eapply Forall2_length. exact F. }
  intros i h v o H1 H2.
  assert (Hok : (exists t, out_ty tg l h = Some t) /\ hval_ok tg h v = true).
  { unfold typed_all in Hty. rewrite Forall_forall in Hty. exact (Hty (h, v) (nth_error_In _ _ H1)). }
  destruct Hok as [[t Ht] Hv].
  assert (K : exists c a, nth_error places i = Some (o, c) /\ nth_error ps i = Some (a, c) /\ as_std_bytes tg l h v = Some c /\ out_align tg l h = Some a).
  { unfold placement, part in *. rewrite E1, nth_error_map in H2. destruct (nth_error places i) as [[o' c]|] eqn:Ep; [|discriminate H2]. cbn [option_map fst] in H2. injection H2 as ->.
    assert (Q : nth_error (map snd places) i = Some c) by (rewrite nth_error_map, Ep; reflexivity).
    rewrite E2, nth_error_map in Q. destruct (nth_error ps i) as [[a c']|] eqn:Eq; [|discriminate Q]. cbn [option_map snd] in Q. injection Q as ->.
    exists c, a. split; [reflexivity|]. split; [reflexivity|]. clear -F H1 Eq. revert i H1 Eq. induction F as [|x p xs ps A _ IH]; intros i H1 Eq; [now destruct i|].
    destruct i as [|i]; [|now apply (IH i)]. cbn [nth_error] in *. injection H1 as ->. injection Eq as ->. exact A. }
  destruct K as [c [a [K1 [K2 [K3 K4]]]]].
  assert (Hr : read_at img o (len c) = Some c) by (destruct I as [_ [I2 _]]; apply I2; eapply nth_error_In; exact K1).
  assert (Hal : aligned a o).
  { apply laid_out_spec in Hl. destruct Hl as [-> _]. clear -K1 K2. revert i K1 K2. generalize 0 as cur.
    induction ps as [|[a' b'] ps IH]; intros cur i K1 K2; [now destruct i|]. destruct i as [|i]; cbn [placements nth_error] in *.
    - injection K1 as <- _. injection K2 as <- _. apply aligned_divide. destruct (align_offset_divide cur a'); auto.
    - eapply IH; eassumption. }
  destruct (leaf_parts _ _ _ _ _ Htg Ht Hv) as [s [A1 [A2 [_ [A4 [A5 [_ [A7 _]]]]]]]].
  rewrite K3 in A5. injection A5 as ->. unfold out_align in K4. rewrite Ht in K4.
  destruct (C20_round_trip_bytes_proof tg l h t v _ Htg Ht Hv K3) as [[s' [S1 S2]] _].
  exists t, a, (flat tg t s), s'. split; [exact Ht|]. split; [exact K4|]. split; [exact Hal|].
  split; [now rewrite <- A7|]. split; [exact S1|]. split; [exact S2|].
  intros g Hg. exact (C23_gpu_reads_host_value_proof tg l h t g v _ img o Htg Ht Hg Hv K3 Hr).
Qed.

(** ** C57 *)

Lemma le_val_zeros n : le_val (repeat x00 n) = 0.
Proof. induction n as [|n IH]; [reflexivity|]. cbn [repeat le_val]. rewrite IH. reflexivity. Qed.

Lemma rev_repeat {A} (x : A) n : rev (repeat x n) = repeat x n.
Proof. induction n as [|n IH]; [reflexivity|]. cbn [repeat rev]. rewrite IH. symmetry. apply (repeat_cons n x). Qed.

Lemma dec_zeros tg n : dec_bytes tg (repeat x00 n) = 0.
Proof. unfold dec_bytes. destruct (t_big tg); [rewrite rev_repeat|]; apply le_val_zeros. Qed.

Lemma read_at_zeros k off n bs : read_at (repeat x00 k) off n = Some bs -> bs = repeat x00 (N.to_nat n).
Proof.
  unfold read_at. destruct (N.leb_spec (off + n) (len (repeat x00 k))) as [H|H]; [|discriminate]. intros E. injection E as <-.
  rewrite len_repeat in H. apply bytes_ext. intros i. rewrite byte_at_firstn, byte_at_skipn. unfold byte_at.
  destruct (Nat.ltb_spec (N.to_nat i) (N.to_nat n)) as [L|L].
  - rewrite !nth_error_repeat by lia. reflexivity.
  - symmetry. apply nth_error_None. rewrite repeat_length. lia.
Qed.

Lemma gread_strided_const (rd : N -> option gval) z : (forall off x, rd off = Some x -> x = z) ->
  forall n off stride xs, gread_strided rd off stride n = Some xs -> xs = repeat z n.
Proof.
  intros H. induction n as [|n IH]; intros off stride xs E; cbn [gread_strided repeat] in *; [now injection E|].
  destruct (rd off) as [x|] eqn:E1; [|discriminate]. destruct (gread_strided rd (off + stride) stride n) as [xs'|] eqn:E2; [|discriminate].
  injection E as <-. f_equal; [eapply H; exact E1|eapply IH; exact E2].
Qed.

Lemma gread_scalar_zeros tg s k off x : gread_scalar tg s (repeat x00 k) off = Some x -> x = gzero_scalar s.
Proof.
  unfold gread_scalar. destruct (read_at _ _ _) as [bs|] eqn:E; [|discriminate]. apply read_at_zeros in E. subst bs.
  rewrite dec_zeros. intros H. injection H as <-. destruct s; reflexivity.
Qed.

Lemma gread_vec_zeros tg s n k off x : gread_vec tg s n (repeat x00 k) off = Some x -> x = GVVec (repeat (gzero_scalar s) n).
Proof.
  unfold gread_vec. destruct (gread_strided _ _ _ _) as [xs|] eqn:E; [|discriminate]. intros H. injection H as <-. f_equal.
  eapply gread_strided_const; [|exact E]. intros o y. apply gread_scalar_zeros.
Qed.

Lemma gread_zeros tg l : forall g k off x, gread tg l g (repeat x00 k) off = Some x -> x = gzero g.
Proof.
  fix IH 1. intros [s|s n|s c r|e n|name fs] k off x; cbn [gread gzero].
  - apply gread_scalar_zeros.
  - apply gread_vec_zeros.
  - destruct (gread_strided _ _ _ _) as [xs|] eqn:E; [|discriminate]. intros H. injection H as <-. f_equal.
    eapply gread_strided_const; [|exact E]. intros o y. apply gread_vec_zeros.
  - destruct (gread_strided _ _ _ _) as [xs|] eqn:E; [|discriminate]. intros H. injection H as <-. f_equal.
    eapply gread_strided_const; [|exact E]. intros o y. apply IH.
  - change (gread tg l (GStruct name fs) (repeat x00 k) off = Some x -> x = GVStruct (map (fun nf => (fst nf, gzero (snd nf))) fs)).
    rewrite gread_struct. destruct (gread_fields tg l (repeat x00 k) off 0 fs) as [xs|] eqn:E; [|discriminate]. intros H. injection H as <-. f_equal.
    revert E. generalize 0 as cur. revert xs. induction fs as [|[f g] fs IHfs]; intros xs cur; cbn [gread_fields map fst snd].
    + intros H. now injection H.
    + cbn zeta. destruct (gread tg l g _ _) as [y|] eqn:E1; [|discriminate].
      destruct (gread_fields _ _ _ _ _ _) as [ys|] eqn:E2; [|discriminate].
      intros H. injection H as <-. f_equal; [f_equal; eapply IH; exact E1|eapply IHfs; exact E2].
Qed.

Lemma assoc_zeroed f decl u : assoc f decl = Some u ->
  assoc f (map (fun nf : string * sty => (fst nf, zeroed (snd nf))) decl) = Some (zeroed u).
Proof.
  induction decl as [|[g t] decl IH]; [discriminate|]. cbn [map fst snd]. rewrite !assoc_cons.
  destruct (String.eqb f g); [intros H; now injection H as ->|exact IH].
Qed.

Definition zero_fix (tg : target) (h : hty) : Prop := forall l t v,
  out_ty tg l h = Some t -> from_std tg l h (zeroed t) = Some v -> as_std tg l h v = Some (zeroed t).

Lemma zero_struct tg l fs outs ln n al decl vs : target_ok tg = true ->
  Forall (fun nf => zero_fix tg (snd nf)) fs -> out_fields tg l fs = Some outs ->
  NoDup (map fst fs) -> NoDup (map fst decl) -> (forall f t, In (f, t) outs -> assoc f decl = Some t) ->
  from_inits tg l fs (zeroed (TStruct ln n al decl)) = Some vs ->
  exists inits, as_inits tg l fs (HVRec vs) = Some inits
    /\ struct_update (TStruct ln n al decl) inits = Some (zeroed (TStruct ln n al decl)).
Proof.
  intros Htg HZ Ho Hn Hnd Hd Hf.
  assert (IH : Forall (fun nf => conv_ok tg (snd nf)) fs) by (apply Forall_forall; intros nf _; now apply conv_total).
  destruct (conv_struct tg l fs outs ln n al decl IH Ho Hn Hnd Hd) as [Ha Hb].
  destruct (Hb _ (has_sty_zeroed (TStruct ln n al decl))) as [vs' [B1 B2]]. rewrite Hf in B1. injection B1 as <-.
  destruct (Ha vs B2) as [inits [A1 [A2 [A3 _]]]]. exists inits. split; [exact A1|]. rewrite A3. f_equal. cbn [zeroed]. f_equal.
  assert (K : forall f s, In (f, s) inits -> exists u, In (f, u) outs /\ s = zeroed u).
  { cbn [zeroed] in Hf. clear -A2 Hf HZ Hd. unfold from_inits in Hf. apply map_opt_Forall2 in Hf.
    induction A2 as [|f0 h w u s0 fs vs outs ss H1 H2 H3 H4 H5 _ IH]; intros f s Hin; [contradiction|].
    inversion HZ as [|? ? Z1 Z2]; subst. inversion Hf as [|? ? ? ? F1 F2]; subst. cbn [fst snd] in *.
    destruct Hin as [E|Hin].
    - injection E as <- <-. exists u. split; [now left|]. cbn [sfield] in F1. rewrite (assoc_zeroed f0 decl u (Hd _ _ (or_introl eq_refl))) in F1.
      destruct (from_std tg l h (zeroed u)) as [w'|] eqn:Ew; [|discriminate]. injection F1 as ->.
      rewrite (Z1 l u w H1 Ew) in H3. now injection H3.
    - destruct (IH Z2 (fun f t H => Hd f t (or_intror H)) F2 f s Hin) as [u' [U1 U2]]. exists u'. split; [now right|assumption]. }
  unfold updated. apply map_ext_in. intros [f u] Hin. cbn [fst snd]. f_equal.
  destruct (assoc f inits) as [s|] eqn:E; [|reflexivity]. apply assoc_in in E. destruct (K f s E) as [u' [U1 ->]].
  apply Hd in U1. rewrite (assoc_nodup f u decl Hnd Hin) in U1. now injection U1 as <-.
Qed.

Lemma zero_fix_all tg : target_ok tg = true -> forall h, zero_fix tg h.
Proof.
  intros Htg. induction h as [p| |r s fs IH|r m IH|h IH|n fs IH|l' h IH] using hty_ind'; intros l t v H Hf.
  - cbn [out_ty] in H. destruct (std_align l (TPrim p)); [|discriminate]. injection H as <-. cbn in Hf. injection Hf as <-. reflexivity.
  - cbn [out_ty] in H. injection H as <-. cbn in Hf. injection Hf as <-. reflexivity.
  - destruct (easy_facts _ _ _ _ _ _ H) as [outs [ln [n [al [decl [E1 [E2 [-> [Hn [Hnd Hd]]]]]]]]]].
    rewrite from_std_HEasy in Hf. destruct (from_inits tg l fs _) as [vs|] eqn:Ef; [|discriminate]. injection Hf as <-.
    destruct (zero_struct tg l fs outs ln n al decl vs Htg IH E2 Hn Hnd Hd Ef) as [inits [Z1 Z2]].
    rewrite as_std_HEasy, E1, Z1. exact Z2.
  - cbn [out_ty from_std] in *. destruct (from_std tg l m (zeroed t)) as [w|] eqn:E; [|discriminate]. injection Hf as <-. cbn [as_std]. now apply IH.
  - cbn [out_ty] in H. destruct l; [|discriminate]. destruct (out_ty tg L140 h) as [u|] eqn:E; [|discriminate]. injection H as <-.
    cbn [zeroed from_std] in Hf. destruct (from_std tg L140 h (zeroed u)) as [w|] eqn:Ew; [|discriminate]. injection Hf as <-.
    cbn [as_std zeroed]. now rewrite (IH L140 u w E Ew).
  - destruct (struct_facts _ _ _ _ _ Htg H) as [outs [E [Hn [Hnd [Hd [HG Et]]]]]].
    rewrite (from_std_HStruct _ _ _ _ _ outs Hn E) in Hf.
    destruct (from_inits tg l fs (zeroed t)) as [vs|] eqn:Ef; [|discriminate]. injection Hf as <-.
    rewrite Et in Ef. unfold derived in Ef.
    destruct (zero_struct tg l fs outs _ _ _ _ vs Htg IH E Hn Hnd Hd Ef) as [inits [Z1 Z2]].
    rewrite as_std_HStruct, H, Z1 by assumption. rewrite Et. exact Z2.
  - cbn [out_ty] in H. destruct (out_ty tg l' h) as [u|] eqn:E; [|discriminate]. destruct (std_align l u); [|discriminate]. injection H as <-.
    cbn [from_std] in Hf. injection Hf as <-. reflexivity.
Qed.

(** C57.  Zeroed memory is the zero value: reading [size] zero bytes as [T::Output] gives
    [Zeroable::zeroed()], whose [as_bytes()] are zero, and the host ([from_stdN]) and a shader
    both see the value whose components are all zero (false). *)
Lemma C57_zeroed_memory_proof : forall tg l h t,
  target_ok tg = true -> out_ty tg l h = Some t ->
  let zs := repeat x00 (N.to_nat (size_of tg t)) in
  from_bytes tg t zs = Some (zeroed t) /\ bytes_of tg t (zeroed t) = Some zs
  /\ exists v, from_std tg l h (zeroed t) = Some v /\ hval_ok tg h v = true
       /\ as_std_bytes tg l h v = Some zs
       /\ (forall g, gty_of h = Some g -> gval_of tg h v = Some (gzero g) /\ gread tg l g zs 0 = Some (gzero g)).
Proof.
  intros tg l h t Htg Ho zs.
  pose proof (good_nopad _ _ _ (out_ty_good tg Htg h l t Ho)) as G.
  pose proof (has_sty_zeroed t) as Hs.
  assert (Eb : bytes_of tg t (zeroed t) = Some zs) by (rewrite bytes_of_flat by assumption; f_equal; now apply flat_zeroed).
  assert (Ef : from_bytes tg t zs = Some (zeroed t)) by (unfold zs; rewrite <- (flat_zeroed tg t G); now apply from_bytes_flat).
  split; [exact Ef|]. split; [exact Eb|].
  destruct (conv_total tg Htg h l t Ho) as [_ Hc]. destruct (Hc _ Hs) as [v [V1 V2]].
  exists v. split; [exact V1|]. split; [exact V2|].
  pose proof (zero_fix_all tg Htg h l t v Ho V1) as Z.
  split; [unfold as_std_bytes; now rewrite Ho, Z|].
  intros g Hg.
  assert (R : read_at zs 0 (size_of tg t) = Some zs).
  { replace (size_of tg t) with (len zs) by (unfold zs; rewrite len_repeat; lia). apply read_at_all. }
  destruct (C24_host_reads_gpu_value_proof tg l h t g zs 0 zs Htg Ho Hg R) as [s [v' [x [X1 [X2 [_ [X4 X5]]]]]]].
  rewrite Ef in X1. injection X1 as <-. rewrite V1 in X2. injection X2 as <-.
  pose proof (gread_zeros tg l g _ _ _ X5) as ->. auto.
Qed.

(** ** C56 *)

Lemma round_up_shift q n a : a <> 0 -> round_up (q * a + n) a = q * a + round_up n a.
Proof.
  intros Ha. unfold round_up. replace (q * a + n + (a - 1)) with (q * a + (n + (a - 1))) by lia.
  rewrite N.div_add_l by assumption. lia.
Qed.

(** C56.  A slice of [DynamicUniform<T>] written by [std140::Writer]: element [i] is at
    [i * stride], where the stride is the size of [T] rounded up to 256 (so every element
    offset is usable as a dynamic offset on any device that allows multiples of 256), and
    at each of these offsets the host reads back the element and a shader declaring a [T]
    sees it.  std430 has no [DynamicUniform]. *)
Lemma C56_dynamic_slice_proof : forall tg h n vs w offs,
  target_ok tg = true -> std_size_static tg L140 h = Some n ->
  Forall (fun v => hval_ok tg h v = true) vs ->
  write_vals tg L140 vec_sink (map (fun v => WLeaf (HDyn h) (HVDyn v)) vs) (writer_new []) = (w, (offs, None)) ->
  (t_checks tg = true \/ N.of_nat (length vs) * round_up n 256 < umod tg) ->
  offs = map (fun i => N.of_nat i * round_up n 256) (seq 0 (length vs))
  /\ (forall i v, nth_error vs i = Some v ->
        let o := N.of_nat i * round_up n 256 in
        (exists bs, as_std_bytes tg L140 h v = Some bs /\ read_at (w_inner w) o n = Some bs)
        /\ (forall g, gty_of h = Some g -> exists x, gval_of tg h v = Some x /\ gread tg L140 g (w_inner w) o = Some x)).
Proof.
  intros tg h n vs w offs Htg Hn Hvs Hw Hno.
  unfold std_size_static in Hn. destruct (out_ty tg L140 h) as [t|] eqn:Ht; [|discriminate]. injection Hn as <-.
  set (n := size_of tg t) in *.
  assert (Ht' : out_ty tg L140 (HDyn h) = Some (TDyn t)) by (cbn [out_ty]; now rewrite Ht).
  set (xs := map (fun v => (HDyn h, HVDyn v)) vs).
  assert (Exs : map (fun v => WLeaf (HDyn h) (HVDyn v)) vs = map leaf xs) by (unfold xs; rewrite map_map; reflexivity).
  assert (Hty : typed_all tg L140 xs).
  { unfold xs, typed_all. clear -Hvs Ht'. induction Hvs; cbn [map]; constructor; [|assumption]. cbn [fst snd hval_ok]. eauto. }
  rewrite Exs in Hw.
  destruct (parts_total tg L140 Htg _ (typed_all_ok _ _ _ Hty)) as [ps Hp].
  destruct (laid_out_total 0 ps) as [places [total Hl]].
  assert (HF : Forall2 (fun v p => fst p = 256 /\ as_std_bytes tg L140 h v = Some (snd p) /\ len (snd p) = n) vs ps).
  { clear -Htg Hp Ht Ht' Hvs n. rewrite parts_WSeq in Hp. unfold xs in Hp. revert ps Hp. induction Hvs as [|v vs Hv _ IH]; intros ps Hp; cbn [map parts_list] in Hp.
    - injection Hp as <-. constructor.
    - change (leaf (HDyn h, HVDyn v)) with (WLeaf (HDyn h) (HVDyn v)) in Hp.
      destruct (leaf_parts _ _ _ _ _ Htg Ht Hv) as [s [E1 [E2 [E3 [E4 [E5 [E6 [E7 G]]]]]]]].
      destruct (leaf_parts tg L140 (HDyn h) (HVDyn v) _ Htg Ht' Hv) as [s' [D1 [D2 [D3 [D4 [D5 [D6 [D7 G']]]]]]]].
      rewrite D3 in Hp. destruct (parts_list tg L140 _) as [q|]; [|discriminate Hp]. injection Hp as <-. constructor; [|auto].
      cbn [fst snd]. split; [|split].
      + pose proof (good_alN_le _ _ _ G) as L. pose proof (good_alN _ _ _ G') as A'. cbn [std_align] in A'. rewrite (good_alN _ _ _ G), max_spec in A'. injection A' as <-. lia.
      + cbn [as_std] in D1. rewrite E1 in D1. injection D1 as <-. rewrite E5. cbn [flat]. reflexivity.
      + cbn [as_std] in D1. rewrite E1 in D1. injection D1 as <-. cbn [flat]. exact E7. }
  assert (Hpl : forall k, placements (match k with O => 0 | S j => N.of_nat j * round_up n 256 + n end) ps
             = combine (map (fun i => N.of_nat i * round_up n 256) (seq k (length vs))) (map snd ps)
           /\ end_of (match k with O => 0 | S j => N.of_nat j * round_up n 256 + n end) ps <= N.of_nat (k + length vs) * round_up n 256).
  { clear -HF. induction HF as [|v [a b] vs ps [H1 [H2 H3]] _ IH]; intros k.
    - cbn [placements end_of length seq map combine]. split; [reflexivity|]. rewrite Nat.add_0_r. destruct k as [|j]; [lia|].
      assert (n <= round_up n 256) by (apply round_up_ge; reflexivity). lia.
    - cbn [fst snd] in *. subst a. cbn [placements end_of length seq map combine snd].
      set (c := match k with O => 0 | S j => N.of_nat j * round_up n 256 + n end).
      assert (Ec : c + align_offset c 256 = N.of_nat k * round_up n 256).
      { rewrite <- next_aligned_eq. unfold next_aligned. cbn [N.eqb]. subst c. destruct k as [|j]; [reflexivity|].
        assert (D : exists q, round_up n 256 = q * 256) by (exists ((n + 255) / 256); reflexivity).
        destruct D as [q D]. rewrite D, N.mul_assoc, round_up_shift by discriminate. rewrite D. lia. }
      rewrite Ec, H3. destruct (IH (S k)) as [I1 I2]. rewrite I1. split; [reflexivity|]. rewrite Nat.add_succ_r. exact I2. }
  destruct (Hpl 0%nat) as [P1 P2]. cbn [Nat.add] in P2.
  pose proof Hl as Hl'. apply laid_out_spec in Hl'. destruct Hl' as [Epl Etot].
  assert (Hno' : t_checks tg = true \/ total < umod tg) by (destruct Hno; [now left|right; lia]).
  destruct (C03_returned_offsets_proof _ tg L140 vec_sink (fun v => v) [] xs w offs ps places total Htg vec_lawful Hty Hw Hp Hl Hno') as [E1 [E2 [F [img [D I]]]]].
  cbn [app] in D.
  assert (Lps : length ps = length vs) by (symmetry; eapply Forall2_length; exact HF).
  split.
  - rewrite E1, Epl, P1. clear -Lps. assert (L : length (map (fun i => N.of_nat i * round_up n 256) (seq 0 (length vs))) = length (map snd ps)) by (rewrite !map_length, seq_length; auto).
    revert L. generalize (map (fun i => N.of_nat i * round_up n 256) (seq 0 (length vs))) as a. generalize (map snd ps) as b.
    intros b a. revert b. induction a as [|x a IHa]; intros [|y b] L; try discriminate L; [reflexivity|]. cbn [combine map fst]. f_equal. apply IHa. now injection L.
  - intros i v Hi o.
    assert (Hv : hval_ok tg h v = true) by (rewrite Forall_forall in Hvs; apply Hvs; eapply nth_error_In; exact Hi).
    assert (K : exists b, as_std_bytes tg L140 h v = Some b /\ len b = n /\ In (o, b) places).
    { assert (Q : exists a b, nth_error ps i = Some (a, b) /\ as_std_bytes tg L140 h v = Some b /\ len b = n).
      { clear -HF Hi. revert i Hi. induction HF as [|v0 [a b] vs ps [H1 [H2 H3]] _ IH]; intros i Hi; [now destruct i|]. destruct i as [|i]; [|now apply IH].
        cbn [nth_error] in Hi. injection Hi as ->. exists a, b. auto. }
      destruct Q as [a [b [Q1 [Q2 Q3]]]]. exists b. split; [exact Q2|]. split; [exact Q3|]. rewrite Epl, P1. unfold o.
      assert (Hil : (i < length vs)%nat) by (apply nth_error_Some; congruence).
      apply (nth_error_In _ i). clear -Q1 Hil Lps.
      assert (X1 : nth_error (map (fun i => N.of_nat i * round_up n 256) (seq 0 (length vs))) i = Some (N.of_nat i * round_up n 256)).
      { rewrite nth_error_map, (nth_error_nth' _ 0%nat) by (now rewrite seq_length). cbn [option_map]. now rewrite seq_nth. }
      assert (X2 : nth_error (map snd ps) i = Some b) by exact (map_nth_error snd i ps Q1).
      revert i X1 X2 Q1 Hil. generalize (N.of_nat) as z. intros z i X1 X2 _ _. revert X1 X2. generalize (z i * round_up n 256) as e.
      generalize (map (fun i => z i * round_up n 256) (seq 0 (length vs))) as l1. generalize (map snd ps) as l2. clear.
      induction i as [|i IH]; intros [|y l2] [|x l1] e X1 X2; try discriminate; cbn [nth_error combine] in *; [congruence|now apply IH]. }
    destruct K as [b [K1 [K2 K3]]].
    assert (Hr : read_at img o (len b) = Some b) by (destruct I as [_ [I2 _]]; now apply I2).
    rewrite D. split; [exists b; split; [exact K1|now rewrite <- K2]|].
    intros g Hg. exact (C23_gpu_reads_host_value_proof tg L140 h t g v b img o Htg Ht Hg Hv K1 Hr).
Qed.

(** C56.  [DynamicUniform] is for std140 only: no type that contains one, however deeply, has
    a std430 version. *)
Lemma C56_std140_only_proof : forall tg h, target_ok tg = true -> has_dyn h = true -> out_ty tg L430 h = None.
Proof.
  intros tg h Htg. enough (K : has_dyn h = true -> out_ty tg L430 h = None /\ forall t, out_ty tg L140 h = Some t -> std_align L430 t = None) by (intros D; now apply K).
  assert (F : forall fs, Forall (fun nf : string * hty => has_dyn (snd nf) = true -> out_ty tg L430 (snd nf) = None /\ forall t, out_ty tg L140 (snd nf) = Some t -> std_align L430 t = None) fs ->
    existsb (fun nf => has_dyn (snd nf)) fs = true -> out_fields tg L430 fs = None).
  { intros fs IH D. unfold out_fields. induction IH as [|[f h0] fs Hh _ IHfs]; [discriminate|]. cbn [existsb map_opt fst snd] in *.
    apply orb_true_iff in D. destruct D as [D|D]; [destruct (Hh D) as [-> _]; reflexivity|]. rewrite (IHfs D). now destruct (out_ty tg L430 h0). }
  induction h as [p| |r s fs IH|r m IH|h IH|n fs IH|l' h IH] using hty_ind'; intros D; try discriminate D.
  - cbn [has_dyn] in D. rewrite out_ty_HEasy, (F fs IH D). split; [now destruct (find_std L430 s)|].
    intros t H. destruct (easy_facts _ _ _ _ _ _ H) as [outs [ln [nm [al [decl [E1 [_ [-> _]]]]]]]].
    assert (Q : forallb (fun nm => match find_std L140 nm with Some t => match std_align L430 t with None => true | _ => false end | None => true end) table_names = true) by (vm_compute; reflexivity).
    rewrite forallb_forall in Q. specialize (Q _ (find_std_names _ _ _ E1)). rewrite E1 in Q. now destruct (std_align L430 _).
  - cbn [has_dyn out_ty] in *. auto.
  - split; [reflexivity|]. intros t H. cbn [out_ty] in H. destruct (out_ty tg L140 h); [|discriminate]. injection H as <-. reflexivity.
  - cbn [has_dyn] in D. rewrite out_ty_HStruct, (F fs IH D). split; [reflexivity|]. intros t H.
    destruct (struct_facts _ _ _ _ _ Htg H) as [outs [_ [_ [_ [_ [_ ->]]]]]]. reflexivity.
  - cbn [has_dyn] in D. destruct (IH D) as [K1 K2]. cbn [out_ty]. destruct l'.
    + destruct (out_ty tg L140 h) as [t|]; [|split; [reflexivity|discriminate]]. specialize (K2 t eq_refl). rewrite K2. split; [reflexivity|].
      intros u. destruct (std_align L140 t); [|discriminate]. intros E. now injection E as <-.
    + rewrite K1. split; [reflexivity|discriminate].
Qed.

(** [C54]: the sample values, copied in reverse order *)
Lemma C54_ex_proof :
  exists ps os s bss w, typed_all x86_64 L140 sample_xs
  /\ parts x86_64 L140 (WSeq (map leaf sample_xs)) = Some ps
  /\ sizer_run x86_64 L140 (map fst sample_xs) sizer_new = Some (Done (os, s))
  /\ map_opt (fun x => as_std_bytes x86_64 L140 (fst x) (snd x)) sample_xs = Some bss
  /\ write_vals x86_64 L140 vec_sink (map leaf sample_xs) (writer_new []) = (w, (os, None))
  /\ copy_all (repeat x00 (N.to_nat (sizer_len s))) (rev (combine os bss)) = Some (w_inner w)
  /\ os = [0; 16; 48; 64; 76; 96].
Proof.
  do 5 eexists. split; [apply sample_typed; cbn; tauto|]. split; [vm_compute; reflexivity|]. split; [vm_compute; reflexivity|].
  split; [vm_compute; reflexivity|]. split; [vm_compute; reflexivity|]. split; vm_compute; reflexivity.
Qed.

(** [C56]: two lights *)
Lemma C56_ex_proof :
  exists w, write_vals x86_64 L140 vec_sink (map (fun v => WLeaf (HDyn point_light) (HVDyn v)) [light1; light2]) (writer_new [])
            = (w, ([0; 256], None))
  /\ std_size_static x86_64 L140 point_light = Some 32 /\ round_up 32 256 = 256
  /\ hval_ok x86_64 point_light light1 = true /\ hval_ok x86_64 point_light light2 = true
  /\ has_dyn (HDyn (HDyn point_light)) = true /\ out_ty x86_64 L140 (HDyn (HDyn point_light)) <> None.
Proof. eexists. repeat (split; [vm_compute; reflexivity|]). vm_compute. discriminate. Qed.

(** [C57]: a struct with booleans and doubles *)
Lemma C57_ex_proof :
  exists t g, out_ty x86_64 L140 contains_bools = Some t /\ gty_of contains_bools = Some g
  /\ gzero g = GVStruct [("x", GVBool false); ("y", GVVec [GVBool false; GVBool false])]
  /\ gread x86_64 L140 g (repeat x00 16) 0 = Some (gzero g).
Proof. do 2 eexists. repeat (split; [vm_compute; reflexivity|]). vm_compute. reflexivity. Qed.

(** C55: the sample values, written after three bytes of other output, satisfy the hypotheses. *)
Lemma C55_ex_proof :
  exists w offs ps places total, typed_all x86_64 L140 sample_xs
  /\ write_vals x86_64 L140 vec_sink (map leaf sample_xs) (writer_new [xff; xfe; xfd]) = (w, (offs, None))
  /\ offs = [0; 16; 48; 64; 76; 96] /\ len (w_inner w) = 259
  /\ parts x86_64 L140 (WSeq (map leaf sample_xs)) = Some ps /\ laid_out 0 ps places total /\ t_checks x86_64 = true.
Proof.
  do 3 eexists. destruct (laid_out_total 0 (match parts x86_64 L140 (WSeq (map leaf sample_xs)) with Some ps => ps | None => [] end)) as [pl [tot L]].
  exists pl, tot. split; [apply sample_typed; cbn; tauto|]. split; [vm_compute; reflexivity|]. split; [reflexivity|].
  split; [vm_compute; reflexivity|]. split; [vm_compute; reflexivity|]. split; [|reflexivity]. vm_compute in L. exact L.
Qed.
