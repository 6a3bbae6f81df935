(** * Proofs: retrying after I/O errors *)

From Coq Require Import NArith String Bool List Lia ZArith.
From Coq Require Import ZifyBool ZifyN ZifyNat.
From Coq Require Import Strings.Byte.
From Verif Require Import Rust RustFacts Internal Prims Derive Host Buffer Samples.
From Verif Require Import SpecBuf SpecRetry Arith DeriveFacts TypeFacts HostFacts GlslFacts BufferFacts WriterFacts Proofs_Buffer.
Import ListNotations.
Local Open Scope string_scope.
Local Open Scope N_scope.

Lemma align_aligned pos al : align_offset (pos + align_offset pos al) al = 0.
Proof.
  assert (H : least_aligned al pos (pos + align_offset pos al)) by now apply least_aligned_spec.
  assert (H' : least_aligned al (pos + align_offset pos al) (pos + align_offset pos al)).
  { destruct H as [_ [H _]]. split; [lia|]. split; [assumption|]. auto. }
  apply least_aligned_spec in H'. lia.
Qed.

Section Retry.
  Context {W : Type} (tg : target) (l : lay) (wi : write_impl W) (delivered : W -> list byte).
  Hypothesis Htg : target_ok tg = true.
  Hypothesis Hlaw : lawful wi delivered.

  (** one attempt at one value *)
  Lemma attempt h v al bs w w' r : wval_ok tg l (WLeaf h v) -> parts tg l (WLeaf h v) = Some [(al, bs)] ->
    w_offset w + align_offset (w_offset w) al + len bs < umod tg ->
    writer_write tg l wi w (WLeaf h v) = (w', r) ->
    let pad := align_offset (w_offset w) al in
    match r with
    | WOk o => o = w_offset w + pad /\ w_offset w' = w_offset w + pad + len bs
        /\ delivered (w_inner w') = (delivered (w_inner w) ++ zeros pad ++ bs)%list
    | WErr e =>
        (exists k, k <= pad /\ w_offset w' = w_offset w
           /\ delivered (w_inner w') = (delivered (w_inner w) ++ zeros k)%list)
        \/ (exists k, (k <= length bs)%nat /\ w_offset w' = w_offset w + pad
           /\ delivered (w_inner w') = (delivered (w_inner w) ++ zeros pad ++ firstn k bs)%list)
    | _ => False
    end.
  Proof.
    intros Hok Hp Hlt Hw pad. unfold writer_write in Hw.
    rewrite (write_val_run1 tg l wi Htg _ w _ Hok Hp) in Hw.
    pose proof (parts_uals tg l Htg _ _ Hok Hp) as Hu. pose proof (Forall_inv Hu) as Hu1. cbn [fst] in Hu1.
    cbn [run1] in Hw. destruct (write1 tg wi (al, bs) w) as [w1 r1] eqn:R.
    assert (Hat : at_pos tg (w_offset w) (w_offset w)).
    { split; [symmetry; apply N.mod_small; lia|intros; lia]. }
    pose proof (write1_spec tg wi delivered Hlaw _ _ _ _ _ _ Hu1 Hat R) as S. cbn zeta in S. fold pad in S.
    destruct r1 as [o1|er| |].
    - injection Hw as <- <-. destruct S as [S1 [S2 S3]].
      apply (at_pos_small tg) in S1; [|lia]. apply (at_pos_small tg) in S2; [|lia].
      cbn [ret_of]. split; [cbn; exact S1|]. split; assumption.
    - injection Hw as <- <-. destruct S as [S|[k [Q1 [Q2 Q3]]]]; [left; exact S|right; exists k].
      apply (at_pos_small tg) in Q2; [|lia]. auto.
    - injection Hw as <- <-. lia.
    - contradiction.
  Qed.

  (** any number of attempts at one value *)
  Lemma retried_spec x w w' o : retried tg l wi w x w' o ->
    forall h v al bs, x = WLeaf h v -> wval_ok tg l x -> parts tg l x = Some [(al, bs)] ->
    w_offset w + align_offset (w_offset w) al + len bs < umod tg ->
    o = w_offset w + align_offset (w_offset w) al
    /\ w_offset w' = o + len bs
    /\ exists g k, delivered (w_inner w') = (delivered (w_inner w) ++ g ++ bs)%list
       /\ len g = align_offset (w_offset w) al + k
       /\ (k = 0 -> g = zeros (align_offset (w_offset w) al)).
  Proof.
    induction 1 as [w x w' o E|w x w1 e w' o E _ IH]; intros h v al bs -> Hok Hp Hlt.
    - pose proof (attempt _ _ _ _ _ _ _ Hok Hp Hlt E) as [-> [E2 E3]].
      split; [reflexivity|]. split; [lia|]. exists (zeros (align_offset (w_offset w) al)), 0.
      split; [assumption|]. rewrite len_zeros. split; [lia|reflexivity].
    - destruct (attempt _ _ _ _ _ _ _ Hok Hp Hlt E) as [[k [Hk [E2 E3]]]|[k [Hk [E2 E3]]]].
      + specialize (IH _ _ al bs eq_refl Hok Hp). rewrite E2 in IH. destruct (IH Hlt) as [I1 [I2 [g [j [I3 [I4 I5]]]]]].
        split; [assumption|]. split; [assumption|]. exists (zeros k ++ g)%list, (k + j).
        split; [rewrite I3, E3, <- !app_assoc; reflexivity|]. rewrite len_app, len_zeros. split; [lia|].
        intros Z. assert (k = 0) by lia. assert (j = 0) by lia. subst k. now rewrite I5.
      + specialize (IH _ _ al bs eq_refl Hok Hp). rewrite E2, align_aligned in IH.
        destruct IH as [I1 [I2 [g [j [I3 [I4 I5]]]]]]; [lia|].
        split; [lia|]. split; [assumption|].
        exists (zeros (align_offset (w_offset w) al) ++ firstn k bs ++ g)%list, (N.of_nat k + j).
        split; [rewrite I3, E3, <- !app_assoc; reflexivity|]. rewrite !len_app, len_zeros.
        split. { unfold len at 1. rewrite firstn_length. lia. }
        intros Z. assert (k = 0)%nat by lia. assert (j = 0) by lia. subst k. cbn [firstn app]. rewrite I5 by assumption.
        cbn. now rewrite app_nil_r.
  Qed.

  Lemma shifted_app from ps ds to g1 g2 : shifted from ps ds to g1 -> shifted from ps ds to (g1 ++ g2)%list.
  Proof.
    revert from ds. induction ps as [|[o bs] ps IH]; intros from [|d ds] H; try exact H.
    cbn [shifted] in *. destruct H as [H1 [H2 H3]]. split; [assumption|]. split; [|now apply IH].
    rewrite read_at_app_l; [assumption|]. unfold read_at in H2.
    destruct (_ <=? _) eqn:E in H2; [lia|discriminate].
  Qed.

  Lemma retried_all_spec w xs w' os : retried_all tg l wi w xs w' os ->
    forall vs ps got0 d0, xs = map leaf vs -> typed_all tg l vs -> parts tg l (WSeq xs) = Some ps ->
    end_of (w_offset w) ps < umod tg ->
    len got0 = w_offset w + d0 ->
    os = map fst (placements (w_offset w) ps)
    /\ w_offset w' = end_of (w_offset w) ps
    /\ exists g d ds, delivered (w_inner w') = (delivered (w_inner w) ++ g)%list
       /\ len (got0 ++ g)%list = w_offset w' + d
       /\ shifted d0 (placements (w_offset w) ps) ds d (got0 ++ g)%list
       /\ (d = d0 -> g = render (w_offset w) ps).
  Proof.
    induction 1 as [w|w x w1 o xs w' os R _ IH]; intros vs ps got0 d0 Hx Hty Hp Hlt Hlen.
    - injection Hp as <-. cbn [placements end_of map render]. split; [reflexivity|]. split; [reflexivity|].
      exists [], d0, []. rewrite !app_nil_r. split; [reflexivity|]. split; [assumption|]. split; [cbn; lia|]. reflexivity.
    - destruct vs as [|[h v] vs]; [discriminate|]. injection Hx as -> ->.
      inversion Hty as [|? ? Hx Hvs]; subst. pose proof Hx as [[t Ht] Hv]. cbn [fst snd] in Ht, Hv.
      destruct (leaf_parts _ _ _ _ _ Htg Ht Hv) as [s [E1 [E2 [E3 _]]]].
      set (al := alN l t) in *. change (leaf (h, v)) with (WLeaf h v) in *.
      match type of E3 with _ = Some [(_, ?b)] => set (bs := b) in * end.
      rewrite parts_WSeq in Hp. cbn [parts_list map] in Hp. rewrite E3 in Hp.
      destruct (parts_list tg l (map leaf vs)) as [q|] eqn:Q; [|discriminate]. injection Hp as <-.
      cbn [app placements end_of map fst render] in *.
      assert (Hok : wval_ok tg l (WLeaf h v)) by (split; [eauto|assumption]).
      pose proof (end_of_ge q (w_offset w + align_offset (w_offset w) al + len bs)) as Hge.
      destruct (retried_spec _ _ _ _ R h v al bs eq_refl Hok E3) as [-> [I2 [g [k [I3 [I4 I5]]]]]]; [lia|].
      assert (Qp : parts tg l (WSeq (map leaf vs)) = Some q) by (rewrite parts_WSeq; exact Q).
      set (o := w_offset w + align_offset (w_offset w) al) in *.
      destruct (IH vs q (got0 ++ g ++ bs)%list (d0 + k) eq_refl Hvs Qp) as [J1 [J2 [g' [d [ds [J3 [J4 [J5 J6]]]]]]]].
      { rewrite I2. assumption. }
      { rewrite !len_app, I2, I4. lia. }
      rewrite I2 in J1, J2, J5, J6. split; [now rewrite J1|]. split; [assumption|].
      exists ((g ++ bs) ++ g')%list, d, ((d0 + k) :: ds). split; [rewrite J3, I3, <- !app_assoc; reflexivity|].
      rewrite app_assoc. split; [exact J4|]. split.
      + cbn [shifted]. split; [lia|]. split; [|exact J5].
        rewrite read_at_app_l by (rewrite !len_app; lia). rewrite app_assoc. rewrite read_at_app_r by (rewrite len_app; lia).
        rewrite len_app. replace (o + (d0 + k) - (len got0 + len g)) with 0 by lia.
        apply read_at_all.
      + intros ->. assert (Hle : d0 + k <= d0).
        { clear - J5. revert J5. generalize (d0 + k) as from. generalize (got0 ++ g ++ bs)%list as gg. clear.
          intros gg from. generalize (placements (o + len bs) q) as pl. intros pl. revert from ds.
          induction pl as [|[a b] pl IHp]; intros from [|d ds] H; cbn [shifted] in H; try contradiction; [assumption|].
          destruct H as [H1 [_ H]]. apply IHp in H. lia. }
        rewrite J6 by lia. rewrite I5 by lia. now rewrite <- !app_assoc.
  Qed.
End Retry.

Lemma align_mono p q al : p <= q -> p + align_offset p al <= q + align_offset q al.
Proof.
  intros H. assert (Hp : least_aligned al p (p + align_offset p al)) by now apply least_aligned_spec.
  assert (Hq : least_aligned al q (q + align_offset q al)) by now apply least_aligned_spec.
  destruct Hp as [_ [_ Hp]]. destruct Hq as [Hq1 [Hq2 _]]. apply Hp; [lia|assumption].
Qed.

Lemma end_of_mono ps : forall p q, p <= q -> end_of p ps <= end_of q ps.
Proof.
  induction ps as [|[al bs] ps IH]; intros p q H; cbn [end_of]; [assumption|].
  apply IH. pose proof (align_mono p q al H). lia.
Qed.

Lemma shifted_weaken from from' ps ds to got : from' <= from -> shifted from ps ds to got -> shifted from' ps ds to got.
Proof.
  intros H. destruct ps as [|[o bs] ps], ds as [|d ds]; cbn [shifted]; try tauto; [lia|].
  intros [H1 H2]. split; [lia|assumption].
Qed.

Lemma shifted_le from ps ds to got : shifted from ps ds to got -> from <= to.
Proof.
  revert from ds. induction ps as [|[a b] pl IHp]; intros from [|d ds] H; cbn [shifted] in H; try contradiction; [assumption|].
  destruct H as [H1 [_ H]]. apply IHp in H. lia.
Qed.

Lemma image_zeros pl total got n : image pl total got -> image pl (total + n) (got ++ zeros n)%list.
Proof.
  intros [H1 [H2 H3]]. split; [rewrite len_app, len_zeros; lia|]. split.
  - intros o c Hin. specialize (H2 o c Hin). rewrite read_at_app_l; [assumption|].
    unfold read_at in H2. destruct (_ <=? _) eqn:E in H2; [lia|discriminate].
  - intros i Hi Hout. destruct (N.lt_ge_cases i total) as [Hlt|Hge].
    + rewrite byte_at_app_l by lia. now apply H3.
    + rewrite byte_at_app_r by lia. apply byte_at_zeros. lia.
Qed.

Lemma image_snoc pl total got bs : image pl total got ->
  image (pl ++ [(total, bs)]) (total + len bs) (got ++ bs)%list.
Proof.
  intros [H1 [H2 H3]]. split; [rewrite len_app; lia|]. split.
  - intros o c Hin. apply in_app_iff in Hin. destruct Hin as [Hin|[E|[]]].
    + specialize (H2 o c Hin). rewrite read_at_app_l; [assumption|].
      unfold read_at in H2. destruct (_ <=? _) eqn:E in H2; [lia|discriminate].
    + injection E as <- <-. rewrite read_at_app_r by lia. rewrite H1, N.sub_diag. apply read_at_all.
  - intros i Hi Hout. destruct (N.lt_ge_cases i total) as [Hlt|Hge].
    + rewrite byte_at_app_l by lia. apply H3; [assumption|]. intros o c Hin. apply Hout, in_app_iff. now left.
    + exfalso. apply (Hout total bs); [apply in_app_iff; right; now left|lia].
Qed.

Section Ignored.
  Context {W : Type} (tg : target) (l : lay) (wi : write_impl W) (delivered : W -> list byte).
  Hypothesis Htg : target_ok tg = true.
  Hypothesis Hlaw : lawful wi delivered.

  Lemma ignored_spec vs : forall ps w w' rs got0 d0 pl, typed_all tg l vs -> parts tg l (WSeq (map leaf vs)) = Some ps ->
    end_of (w_offset w) ps < umod tg -> len got0 = w_offset w + d0 ->
    (d0 = 0 -> image pl (w_offset w) got0) ->
    run_ops tg l wi (map (fun x => OpWrite (leaf x)) vs) w = (w', rs) ->
    length rs = length vs
    /\ Forall (fun r => (exists o, r = WOk o) \/ (exists e, r = WErr e)) rs
    /\ exists g d ds, delivered (w_inner w') = (delivered (w_inner w) ++ g)%list
       /\ len (got0 ++ g)%list = w_offset w' + d
       /\ shifted d0 (succeeded rs ps) ds d (got0 ++ g)%list
       /\ (d = 0 -> image (pl ++ succeeded rs ps)%list (w_offset w') (got0 ++ g)%list).
  Proof.
    induction vs as [|[h v] vs IH]; intros ps w w' rs got0 d0 pl Hty Hp Hlt Hlen Him Hrun.
    - cbn [map run_ops] in Hrun. injection Hrun as <- <-. injection Hp as <-.
      split; [reflexivity|]. split; [constructor|]. exists [], d0, []. cbn [succeeded shifted]. rewrite !app_nil_r.
      split; [reflexivity|]. split; [assumption|]. split; [lia|assumption].
    - inversion Hty as [|? ? Hx Hvs]; subst. pose proof Hx as [[t Ht] Hv]. cbn [fst snd] in Ht, Hv.
      destruct (leaf_parts _ _ _ _ _ Htg Ht Hv) as [s [E1 [E2 [E3 _]]]].
      set (al := alN l t) in *.
      match type of E3 with _ = Some [(_, ?b)] => set (bs := b) in * end.
      rewrite parts_WSeq in Hp. cbn [parts_list map] in Hp. change (leaf (h, v)) with (WLeaf h v) in *. rewrite E3 in Hp.
      destruct (parts_list tg l (map leaf vs)) as [q|] eqn:Q; [|discriminate]. injection Hp as <-.
      assert (Qp : parts tg l (WSeq (map leaf vs)) = Some q) by (rewrite parts_WSeq; exact Q).
      cbn [app end_of] in *. cbn [map run_ops run_op] in Hrun. change (leaf (h, v)) with (WLeaf h v) in *.
      destruct (writer_write tg l wi w (WLeaf h v)) as [w1 r] eqn:R.
      destruct (run_ops tg l wi (map _ vs) w1) as [w2 rs2] eqn:R2. injection Hrun as <- <-.
      assert (Hok : wval_ok tg l (WLeaf h v)) by (split; [eauto|assumption]).
      pose proof (end_of_ge q (w_offset w + align_offset (w_offset w) al + len bs)) as Hge.
      assert (Hlt1 : w_offset w + align_offset (w_offset w) al + len bs < umod tg) by lia.
      pose proof (attempt tg l wi delivered Htg Hlaw _ _ _ _ _ _ _ Hok E3 Hlt1 R) as S. cbn zeta in S.
      set (pad := align_offset (w_offset w) al) in *.
      assert (K : exists g1 k dd,
          w_offset w1 <= w_offset w + pad + len bs
          /\ ((exists o, r = WOk o) \/ (exists e, r = WErr e))
          /\ delivered (w_inner w1) = (delivered (w_inner w) ++ g1)%list
          /\ len (got0 ++ g1)%list = w_offset w1 + (d0 + k)
          /\ (forall rs' ps' g' ds' to, shifted (d0 + k) (succeeded rs' ps') ds' to ((got0 ++ g1) ++ g')%list ->
                shifted d0 (succeeded (r :: rs') ((al, bs) :: ps')) (dd ++ ds')%list to ((got0 ++ g1) ++ g')%list)
          /\ exists pl1, (forall rs' ps', pl ++ succeeded (r :: rs') ((al, bs) :: ps') = pl1 ++ succeeded rs' ps')%list
             /\ (d0 + k = 0 -> image pl1 (w_offset w1) (got0 ++ g1)%list)).
      { destruct r as [o|e| |].
        - destruct S as [-> [S2 S3]]. exists (zeros pad ++ bs)%list, 0, [d0].
          split; [lia|]. split; [eauto|]. split; [assumption|].
          split; [rewrite !len_app, len_zeros; lia|]. split.
          + intros rs' ps' g' ds' to HH. cbn [succeeded app shifted]. rewrite N.add_0_r in HH.
            split; [lia|]. split; [|assumption].
            rewrite read_at_app_l by (rewrite !len_app, len_zeros; lia).
            rewrite app_assoc, read_at_app_r by (rewrite len_app, len_zeros; lia).
            rewrite len_app, len_zeros. replace (w_offset w + pad + d0 - (len got0 + pad)) with 0 by lia. apply read_at_all.
          + exists (pl ++ [(w_offset w + pad, bs)])%list. split; [intros; cbn [succeeded]; now rewrite <- app_assoc|].
            intros Z. rewrite S2, app_assoc. apply image_snoc, image_zeros, Him. lia.
        - destruct S as [[k [Q1 [Q2 Q3]]]|[k [Q1 [Q2 Q3]]]].
          + exists (zeros k), k, []. split; [lia|]. split; [eauto|]. split; [assumption|].
            split; [rewrite len_app, len_zeros; lia|]. split.
            * intros rs' ps' g' ds' to HH. cbn [succeeded app]. eapply shifted_weaken; [|exact HH]. lia.
            * exists pl. split; [reflexivity|]. intros Z. assert (k = 0) by lia. subst k. rewrite Q2.
              cbn [zeros N.to_nat repeat]. rewrite app_nil_r. apply Him. lia.
          + exists (zeros pad ++ firstn k bs)%list, (N.of_nat k), []. split; [lia|]. split; [eauto|]. split; [assumption|].
            split; [rewrite !len_app, len_zeros; unfold len at 2; rewrite firstn_length; lia|]. split.
            * intros rs' ps' g' ds' to HH. cbn [succeeded app]. eapply shifted_weaken; [|exact HH]. lia.
            * exists pl. split; [reflexivity|]. intros Z. assert (k = 0)%nat by lia. subst k. rewrite Q2.
              cbn [firstn]. rewrite app_nil_r. apply image_zeros, Him. lia.
        - contradiction.
        - contradiction. }
      destruct K as [g1 [k [dd [K1 [K2 [K3 [K4 [K5 [pl1 [K6 K7]]]]]]]]]].
      destruct (IH q w1 w2 rs2 (got0 ++ g1)%list (d0 + k) pl1 Hvs Qp) as [I1 [I2 [g [d [ds [I3 [I4 [I5 I6]]]]]]]].
      { pose proof (end_of_mono q _ _ K1). lia. }
      { assumption. }
      { assumption. }
      { exact R2. }
      split; [cbn [length]; lia|]. split; [constructor; assumption|].
      exists (g1 ++ g)%list, d, (dd ++ ds)%list. split; [rewrite I3, K3, <- app_assoc; reflexivity|].
      rewrite app_assoc. split; [assumption|]. split; [now apply K5|].
      rewrite K6. assumption.
  Qed.
  Lemma increasing_weaken a b pl total : a <= b -> increasing b pl total -> increasing a pl total.
  Proof. destruct pl as [|[o bs] pl]; cbn [increasing]; [lia|]. intros H [H1 H2]. split; [lia|assumption]. Qed.

  (** the offsets returned when errors are ignored; [cur] is where the fault-free run would be *)
  Lemma ignored_offsets vs : forall ps w w' rs cur, typed_all tg l vs -> parts tg l (WSeq (map leaf vs)) = Some ps ->
    end_of (w_offset w) ps < umod tg -> w_offset w <= cur ->
    run_ops tg l wi (map (fun x => OpWrite (leaf x)) vs) w = (w', rs) ->
    increasing (w_offset w) (succeeded rs ps) (w_offset w') /\ w_offset w' <= end_of cur ps
    /\ forall i o al bs, nth_error rs i = Some (WOk o) -> nth_error ps i = Some (al, bs) ->
       aligned al o /\ forall o' bs', nth_error (placements cur ps) i = Some (o', bs') -> o <= o'.
  Proof.
    induction vs as [|[h v] vs IH]; intros ps w w' rs cur Hty Hp Hlt Hcur Hrun.
    - cbn [map run_ops] in Hrun. injection Hrun as <- <-. injection Hp as <-. cbn [succeeded increasing end_of].
      split; [lia|]. split; [assumption|]. intros [|i] o al bs H; discriminate.
    - inversion Hty as [|? ? Hx Hvs]; subst. pose proof Hx as [[t Ht] Hv]. cbn [fst snd] in Ht, Hv.
      destruct (leaf_parts _ _ _ _ _ Htg Ht Hv) as [s [E1 [E2 [E3 _]]]].
      set (al := alN l t) in *.
      match type of E3 with _ = Some [(_, ?b)] => set (bs := b) in * end.
      rewrite parts_WSeq in Hp. cbn [parts_list map] in Hp. change (leaf (h, v)) with (WLeaf h v) in *. rewrite E3 in Hp.
      destruct (parts_list tg l (map leaf vs)) as [q|] eqn:Q; [|discriminate]. injection Hp as <-.
      assert (Qp : parts tg l (WSeq (map leaf vs)) = Some q) by (rewrite parts_WSeq; exact Q).
      cbn [app end_of placements] in *. cbn [map run_ops run_op] in Hrun. change (leaf (h, v)) with (WLeaf h v) in *.
      destruct (writer_write tg l wi w (WLeaf h v)) as [w1 r] eqn:R.
      destruct (run_ops tg l wi (map _ vs) w1) as [w2 rs2] eqn:R2. injection Hrun as <- <-.
      assert (Hok : wval_ok tg l (WLeaf h v)) by (split; [eauto|assumption]).
      pose proof (end_of_ge q (w_offset w + align_offset (w_offset w) al + len bs)) as Hge.
      assert (Hlt1 : w_offset w + align_offset (w_offset w) al + len bs < umod tg) by lia.
      pose proof (attempt tg l wi delivered Htg Hlaw _ _ _ _ _ _ _ Hok E3 Hlt1 R) as S. cbn zeta in S.
      pose proof (align_mono _ _ al Hcur) as Hm.
      set (pad := align_offset (w_offset w) al) in *.
      assert (Hb : w_offset w <= w_offset w1 <= w_offset w + pad + len bs).
      { destruct r as [o|e| |]; [lia| |contradiction|contradiction].
        destruct S as [[k [_ [S2 _]]]|[k [_ [S2 _]]]]; lia. }
      destruct (IH q w1 w2 rs2 (cur + align_offset cur al + len bs) Hvs Qp) as [I1 [I2 I3]].
      { pose proof (end_of_mono q _ _ (proj2 Hb)). lia. }
      { lia. }
      { exact R2. }
      split; [|split; [assumption|]].
      + destruct r as [o|e| |]; cbn [succeeded]; try (eapply increasing_weaken; [|exact I1]; lia).
        cbn [increasing]. destruct S as [-> [S2 _]]. split; [lia|]. now rewrite S2 in I1.
      + intros [|i] o al' bs' H1 H2; cbn [nth_error] in *; [|now apply I3 with (bs := bs')].
        injection H1 as ->. injection H2 as <- <-. destruct S as [-> _]. split.
        { assert (L : least_aligned al (w_offset w) (w_offset w + pad)) by now apply least_aligned_spec. apply L. }
        intros o' bs' H. injection H as <- <-. exact Hm.
  Qed.
End Ignored.

Lemma C82_retry_proof : forall W tg l (wi : write_impl W) delivered inner xs w offs ps places total,
  target_ok tg = true -> lawful wi delivered -> typed_all tg l xs ->
  parts tg l (WSeq (map leaf xs)) = Some ps -> laid_out 0 ps places total -> total < umod tg ->
  retried_all tg l wi (writer_new inner) (map leaf xs) w offs ->
  offs = map fst places /\ writer_len w = total
  /\ exists got d ds, delivered (w_inner w) = (delivered inner ++ got)%list
     /\ len got = writer_len w + d
     /\ shifted 0 places ds d got
     /\ (d = 0 <-> image places total got).
Proof.
  intros W tg l wi delivered inner xs w offs ps places total Htg Hlaw Hty Hp Hlo Hlt Hr.
  apply laid_out_spec in Hlo. destruct Hlo as [-> ->].
  destruct (retried_all_spec tg l wi delivered Htg Hlaw _ _ _ _ Hr xs ps [] 0 eq_refl Hty Hp) as [H1 [H2 [g [d [ds [H3 [H4 [H5 H6]]]]]]]].
  { exact Hlt. } { reflexivity. }
  cbn [writer_new w_offset w_inner app] in *. split; [assumption|]. split; [assumption|].
  exists g, d, ds. split; [assumption|]. split; [assumption|]. split; [assumption|]. split.
  - intros Z. rewrite H6 by assumption. apply render_is_image.
  - intros [I _]. lia.
Qed.

Lemma C82_ignored_errors_proof : forall W tg l (wi : write_impl W) delivered inner xs w rs ps places total,
  target_ok tg = true -> lawful wi delivered -> typed_all tg l xs ->
  parts tg l (WSeq (map leaf xs)) = Some ps -> laid_out 0 ps places total -> total < umod tg ->
  run_ops tg l wi (map (fun x => OpWrite (leaf x)) xs) (writer_new inner) = (w, rs) ->
  length rs = length xs
  /\ Forall (fun r => (exists o, r = WOk o) \/ (exists e, r = WErr e)) rs
  /\ exists got d ds, delivered (w_inner w) = (delivered inner ++ got)%list
     /\ len got = writer_len w + d
     /\ shifted 0 (succeeded rs ps) ds d got
     /\ (d = 0 <-> image (succeeded rs ps) (writer_len w) got).
Proof.
  intros W tg l wi delivered inner xs w rs ps places total Htg Hlaw Hty Hp Hlo Hlt Hr.
  apply laid_out_spec in Hlo. destruct Hlo as [-> ->].
  destruct (ignored_spec tg l wi delivered Htg Hlaw xs ps (writer_new inner) w rs [] 0 [] Hty Hp) as [H1 [H2 [g [d [ds [H3 [H4 [H5 H6]]]]]]]].
  { exact Hlt. } { reflexivity. }
  { intros _. split; [reflexivity|]. split; [intros ? ? []|]. cbn [writer_new w_offset]. lia. }
  { assumption. }
  cbn [writer_new w_offset w_inner app] in *. split; [assumption|]. split; [assumption|].
  exists g, d, ds. split; [assumption|]. split; [assumption|]. split; [assumption|]. split; [assumption|].
  intros [I _]. unfold writer_len in *. lia.
Qed.

(** C82, offsets when errors are ignored.  The values whose write returned [Ok] do not overlap, each is at
    a multiple of its alignment, none is later than it would be without errors, and [len()] is at or after
    the end of the last one and at most what it would be without errors. *)
Lemma C82_ignored_offsets_proof : forall W tg l (wi : write_impl W) delivered inner xs w rs ps places total,
  target_ok tg = true -> lawful wi delivered -> typed_all tg l xs ->
  parts tg l (WSeq (map leaf xs)) = Some ps -> laid_out 0 ps places total -> total < umod tg ->
  run_ops tg l wi (map (fun x => OpWrite (leaf x)) xs) (writer_new inner) = (w, rs) ->
  increasing 0 (succeeded rs ps) (writer_len w) /\ writer_len w <= total
  /\ forall i o al bs, nth_error rs i = Some (WOk o) -> nth_error ps i = Some (al, bs) ->
     aligned al o /\ forall o' bs', nth_error places i = Some (o', bs') -> o <= o'.
Proof.
  intros W tg l wi delivered inner xs w rs ps places total Htg Hlaw Hty Hp Hlo Hlt Hr.
  apply laid_out_spec in Hlo. destruct Hlo as [-> ->].
  exact (ignored_offsets tg l wi delivered Htg Hlaw xs ps (writer_new inner) w rs 0 Hty Hp Hlt (N.le_refl 0) Hr).
Qed.

(** ** All-or-nothing sinks *)

Lemma atomic_lawful {W} (wi : write_impl W) delivered : atomic wi delivered -> lawful wi delivered.
Proof.
  intros H s bs s' e E. apply H in E. destruct e; [|assumption]. exists O. split; [lia|]. cbn. now rewrite app_nil_r.
Qed.

Section Atomic.
  Context {W : Type} (tg : target) (l : lay) (wi : write_impl W) (delivered : W -> list byte).
  Hypothesis Htg : target_ok tg = true.
  Hypothesis Hat : atomic wi delivered.

  Lemma attempt_atomic h v al bs w w' e : wval_ok tg l (WLeaf h v) -> parts tg l (WLeaf h v) = Some [(al, bs)] ->
    align_offset (w_offset w) al = 0 -> w_offset w + len bs < umod tg ->
    writer_write tg l wi w (WLeaf h v) = (w', WErr e) ->
    w_offset w' = w_offset w /\ delivered (w_inner w') = delivered (w_inner w).
  Proof.
    intros Hok Hp Hpad Hlt Hw. unfold writer_write in Hw.
    rewrite (write_val_run1 tg l wi Htg _ w _ Hok Hp) in Hw. cbn [run1] in Hw. unfold write1 in Hw.
    rewrite Hpad in Hw. cbn [N.to_nat write_padding] in Hw.
    assert (U : forall n, w_offset w + n < umod tg -> uadd tg (w_offset w) n = Done (w_offset w + n)).
    { intros n Hn. unfold uadd. now replace (w_offset w + n <? umod tg) with true by lia. }
    rewrite (U 0), N.add_0_r in Hw by lia. destruct (wi (w_inner w) bs) as [i2 [e2|]] eqn:E.
    - injection Hw as <- <-. apply Hat in E. split; [reflexivity|assumption].
    - rewrite U in Hw by lia. discriminate.
  Qed.

  Lemma retried_atomic x w w' o : retried tg l wi w x w' o ->
    forall h v al bs, x = WLeaf h v -> wval_ok tg l x -> parts tg l x = Some [(al, bs)] ->
    align_offset (w_offset w) al = 0 -> w_offset w + len bs < umod tg ->
    w_offset w' = w_offset w + len bs /\ delivered (w_inner w') = (delivered (w_inner w) ++ bs)%list.
  Proof.
    induction 1 as [w x w' o E|w x w1 e w' o E _ IH]; intros h v al bs -> Hok Hp Hpad Hlt.
    - assert (Hlt' : w_offset w + align_offset (w_offset w) al + len bs < umod tg) by lia.
      destruct (attempt tg l wi delivered Htg (atomic_lawful _ _ Hat) _ _ _ _ _ _ _ Hok Hp Hlt' E) as [_ [E2 E3]].
      rewrite Hpad in *. split; [lia|exact E3].
    - destruct (attempt_atomic _ _ _ _ _ _ _ Hok Hp Hpad Hlt E) as [E1 E2].
      specialize (IH _ _ al bs eq_refl Hok Hp). rewrite E1, E2 in IH. now apply IH.
  Qed.

  Lemma retried_all_atomic w xs w' os : retried_all tg l wi w xs w' os ->
    forall vs ps, xs = map leaf vs -> typed_all tg l vs -> parts tg l (WSeq xs) = Some ps ->
    end_of (w_offset w) ps < umod tg ->
    end_of (w_offset w) ps = w_offset w + len (concat (map snd ps)) ->
    delivered (w_inner w') = (delivered (w_inner w) ++ render (w_offset w) ps)%list.
  Proof.
    induction 1 as [w|w x w1 o xs w' os R _ IH]; intros vs ps Hx Hty Hp Hlt Hsum.
    - injection Hp as <-. cbn [render]. now rewrite app_nil_r.
    - destruct vs as [|[h v] vs]; [discriminate|]. injection Hx as -> ->.
      inversion Hty as [|? ? Hx Hvs]; subst. pose proof Hx as [[t Ht] Hv]. cbn [fst snd] in Ht, Hv.
      destruct (leaf_parts _ _ _ _ _ Htg Ht Hv) as [s [E1 [E2 [E3 _]]]].
      set (al := alN l t) in *. change (leaf (h, v)) with (WLeaf h v) in *.
      match type of E3 with _ = Some [(_, ?b)] => set (bs := b) in * end.
      rewrite parts_WSeq in Hp. cbn [parts_list map] in Hp. rewrite E3 in Hp.
      destruct (parts_list tg l (map leaf vs)) as [q|] eqn:Q; [|discriminate]. injection Hp as <-.
      assert (Qp : parts tg l (WSeq (map leaf vs)) = Some q) by (rewrite parts_WSeq; exact Q).
      cbn [app end_of map fst snd render concat] in *. rewrite len_app in Hsum.
      assert (Hge : forall p q', p + len (concat (map snd q')) <= end_of p q').
      { intros p q'. revert p. induction q' as [|[a b] q' IHq]; intros p; cbn [map concat end_of snd]; [cbn; lia|].
        rewrite len_app. specialize (IHq (p + align_offset p a + len b)). lia. }
      pose proof (Hge (w_offset w + align_offset (w_offset w) al + len bs) q) as G.
      assert (Hpad : align_offset (w_offset w) al = 0) by lia. rewrite Hpad in *. rewrite N.add_0_r in *.
      assert (Hok : wval_ok tg l (WLeaf h v)) by (split; [eauto|assumption]).
      destruct (retried_atomic _ _ _ _ R h v al bs eq_refl Hok E3 Hpad) as [I1 I2]; [lia|].
      rewrite <- I1 in *. rewrite (IH vs q eq_refl Hvs Qp); [|assumption|lia].
      rewrite I2. cbn. now rewrite <- app_assoc.
  Qed.
End Atomic.

Lemma C82_atomic_sink_proof : forall W tg l (wi : write_impl W) delivered inner xs w offs ps places total,
  target_ok tg = true -> atomic wi delivered -> typed_all tg l xs ->
  parts tg l (WSeq (map leaf xs)) = Some ps -> laid_out 0 ps places total -> total < umod tg ->
  total = len (concat (map snd ps)) ->
  retried_all tg l wi (writer_new inner) (map leaf xs) w offs ->
  offs = map fst places /\ writer_len w = total
  /\ exists got, delivered (w_inner w) = (delivered inner ++ got)%list /\ image places total got.
Proof.
  intros W tg l wi delivered inner xs w offs ps places total Htg Hat Hty Hp Hlo Hlt Hsum Hr.
  pose proof (C82_retry_proof _ _ _ _ delivered inner xs w offs ps places total Htg (atomic_lawful _ _ Hat) Hty Hp Hlo Hlt Hr) as [H1 [H2 _]].
  split; [assumption|]. split; [assumption|].
  apply laid_out_spec in Hlo. destruct Hlo as [-> ->].
  exists (render 0 ps). split; [|apply render_is_image].
  apply (retried_all_atomic tg l wi delivered Htg Hat _ _ _ _ Hr xs ps eq_refl Hty Hp); assumption.
Qed.

(** answers each [write_all] from a list: accept everything, or fail delivering nothing *)
Definition answers_sink : write_impl (list bool * list byte) := fun st bs =>
  match fst st with
  | false :: r => ((r, snd st), Some (OtherError 11))
  | true :: r => ((r, (snd st ++ bs)%list), None)
  | [] => (([], (snd st ++ bs)%list), None)
  end.

Lemma answers_atomic : atomic answers_sink snd.
Proof.
  intros [[|[|] r] d] bs s' e E; injection E as <- <-; reflexivity.
Qed.

Lemma C82_atomic_sink_refuted_proof :
  exists (wi : write_impl (list bool * list byte)) inner xs w offs ps places total,
    atomic wi snd /\ typed_all x86_64 L140 xs
    /\ parts x86_64 L140 (WSeq (map leaf xs)) = Some ps /\ laid_out 0 ps places total
    /\ retried_all x86_64 L140 wi (writer_new inner) (map leaf xs) w offs
    /\ offs = [0; 16] /\ writer_len w = 48 /\ len (snd (w_inner w)) = 50
    /\ ~ image places total (snd (w_inner w)).
Proof.
  exists answers_sink, ([true; true; true; false], []), [(HPrim PU32, bits 2); (point_light, light1)].
  do 5 eexists. split; [apply answers_atomic|].
  split. { repeat constructor; try (eexists; vm_compute; reflexivity); vm_compute; reflexivity. }
  split; [vm_compute; reflexivity|]. split; [apply laid_out_spec; split; reflexivity|].
  split. { cbn [map leaf fst snd]. eapply ra_cons; [apply retried_ok; vm_compute; reflexivity|].
    eapply ra_cons; [|apply ra_nil]. eapply retried_err; [vm_compute; reflexivity|]. apply retried_ok; vm_compute; reflexivity. }
  split; [reflexivity|]. split; [vm_compute; reflexivity|]. split; [vm_compute; reflexivity|].
  intros [H _]. vm_compute in H. discriminate.
Qed.

Lemma C82_slice_retry_refuted_proof :
  exists (wi : write_impl (list bool * list byte)) inner x w o,
    atomic wi snd /\ wval_ok x86_64 L140 x
    /\ x = WSeq [WLeaf (HPrim PU32) (bits 1); WLeaf (HPrim PU32) (bits 2)]
    /\ retried x86_64 L140 wi (writer_new inner) x w o
    /\ snd inner = [] /\ o = 4 /\ writer_len w = 12 /\ len (snd (w_inner w)) = 12
    /\ read_at (snd (w_inner w)) 0 4 = read_at (snd (w_inner w)) 4 4.
Proof.
  exists answers_sink, ([true; false], []). do 3 eexists. split; [apply answers_atomic|].
  split; [|split; [reflexivity|]].
  { repeat constructor; try (eexists; vm_compute; reflexivity); vm_compute; reflexivity. }
  split. { eapply retried_err; [vm_compute; reflexivity|]. apply retried_ok; vm_compute; reflexivity. }
  split; [reflexivity|]. split; [reflexivity|]. split; [vm_compute; reflexivity|]. split; vm_compute; reflexivity.
Qed.

Lemma C82_ex_retry_proof :
  exists inner xs w offs ps places total,
    lawful script_sink snd /\ typed_all x86_64 L140 xs
    /\ parts x86_64 L140 (WSeq (map leaf xs)) = Some ps /\ laid_out 0 ps places total /\ total < umod x86_64
    /\ retried_all x86_64 L140 script_sink (writer_new inner) (map leaf xs) w offs
    /\ offs = [0; 16] /\ writer_len w = 48 /\ len (snd (w_inner w)) = 48.
Proof.
  exists ([RError 1; RAccept 4; RError 2] ++ repeat (RAccept 1) 12 ++ [RError 3], [])%list, [(HPrim PU32, bits 2); (point_light, light1)].
  do 5 eexists. split; [apply script_lawful|].
  assert (Hty : typed_all x86_64 L140 [(HPrim PU32, bits 2); (point_light, light1)]).
  { repeat constructor; try (eexists; vm_compute; reflexivity); vm_compute; reflexivity. }
  split; [exact Hty|]. 
  split; [vm_compute; reflexivity|]. split; [apply laid_out_spec; split; reflexivity|]. split; [vm_compute; reflexivity|].
  split. { cbn [map leaf fst snd]. eapply ra_cons.
    - eapply retried_err; [vm_compute; reflexivity|]. apply retried_ok; vm_compute; reflexivity.
    - eapply ra_cons; [|apply ra_nil]. do 2 (eapply retried_err; [vm_compute; reflexivity|]). apply retried_ok; vm_compute; reflexivity. }
  split; [reflexivity|]. split; vm_compute; reflexivity.
Qed.

Lemma C82_ex_ignored_proof :
  exists inner xs w rs, typed_all x86_64 L140 xs
    /\ run_ops x86_64 L140 script_sink (map (fun x => OpWrite (leaf x)) xs) (writer_new inner) = (w, rs)
    /\ rs = [WOk 0; WErr (OtherError 3); WOk 16] /\ writer_len w = 28 /\ len (snd (w_inner w)) = 33
    /\ read_at (snd (w_inner w)) (16 + 5) 4 = Some [x01; x00; x00; x00].
Proof.
  exists ([RAccept 4] ++ repeat (RAccept 1) 12 ++ [RAccept 5; RError 3], [])%list,
    [(HPrim PU32, bits 2); (point_light, light1); (vec3f, v3 1 2 3)].
  do 2 eexists.
  split. { repeat constructor; try (eexists; vm_compute; reflexivity); vm_compute; reflexivity. }
  split; [vm_compute; reflexivity|]. split; [reflexivity|]. split; [vm_compute; reflexivity|]. split; vm_compute; reflexivity.
Qed.

Lemma C82_ex_atomic_proof :
  exists inner xs w offs ps places total,
    typed_all x86_64 L140 xs
    /\ parts x86_64 L140 (WSeq (map leaf xs)) = Some ps /\ laid_out 0 ps places total /\ total < umod x86_64
    /\ total = len (concat (map snd ps))
    /\ retried_all x86_64 L140 answers_sink (writer_new inner) (map leaf xs) w offs
    /\ offs = [0; 32] /\ total = 36 /\ fst inner = [false; true; false; false].
Proof.
  exists ([false; true; false; false], []), [(point_light, light1); (HPrim PU32, bits 2)].
  do 5 eexists.
  split. { repeat constructor; try (eexists; vm_compute; reflexivity); vm_compute; reflexivity. }
  split; [vm_compute; reflexivity|]. split; [apply laid_out_spec; split; reflexivity|].
  split; [vm_compute; reflexivity|]. split; [vm_compute; reflexivity|].
  split. { cbn [map leaf fst snd]. eapply ra_cons.
    - eapply retried_err; [vm_compute; reflexivity|]. apply retried_ok; vm_compute; reflexivity.
    - eapply ra_cons; [|apply ra_nil]. do 2 (eapply retried_err; [vm_compute; reflexivity|]). apply retried_ok; vm_compute; reflexivity. }
  split; [reflexivity|]. split; [vm_compute; reflexivity|reflexivity].
Qed.
