(** * Runs of a Writer: images, errors, overflow *)

From Coq Require Import NArith String Bool List Lia ZArith.
From Coq Require Import ZifyBool ZifyN ZifyNat.
From Coq Require Import Strings.Byte.
From Verif Require Import Rust Internal Prims Derive Host Buffer SpecBuf SpecGlsl SpecHost
  Arith RustFacts DeriveFacts TypeFacts SpecLayout LayoutFacts HostFacts GlslFacts BufferFacts.
Import ListNotations.
Local Open Scope string_scope.
Local Open Scope N_scope.

(** alignments that divide [usize::MAX + 1] *)
Definition ual (tg : target) (al : N) : Prop := al = 0 \/ (al | umod tg).

Lemma umod_pos tg : 0 < umod tg.
Proof. unfold umod. apply N.neq_0_lt_0, N.pow_nonzero. discriminate. Qed.

Lemma align_offset_umod tg pos al : ual tg al -> align_offset (pos mod umod tg) al = align_offset pos al.
Proof.
  intros [->|D]; [reflexivity|]. apply align_offset_mod; [assumption|].
  pose proof (umod_pos tg). lia.
Qed.

(** [pos]: true position; the machine offset is [pos] modulo [umod]. *)
Definition at_pos (tg : target) (off pos : N) : Prop :=
  off = pos mod umod tg /\ (t_checks tg = true -> pos < umod tg).

Lemma at_pos_0 tg : at_pos tg 0 0.
Proof. split; [|intros; apply umod_pos]. symmetry. apply N.mod_0_l. pose proof (umod_pos tg); lia. Qed.

Lemma at_pos_checks tg off pos : t_checks tg = true -> at_pos tg off pos -> off = pos.
Proof. intros H [-> Hlt]. apply N.mod_small. auto. Qed.

Lemma at_pos_small tg off pos : pos < umod tg -> at_pos tg off pos -> off = pos.
Proof. intros H [-> _]. now apply N.mod_small. Qed.

Lemma uadd_spec tg off pos n : at_pos tg off pos ->
  match uadd tg off n with
  | Done o => at_pos tg o (pos + n)
  | Panicked => t_checks tg = true /\ umod tg <= pos + n
  end.
Proof.
  intros Hp. pose proof (umod_pos tg) as HM. unfold uadd.
  destruct (N.ltb_spec (off + n) (umod tg)) as [Hlt|Hge].
  - destruct Hp as [-> Hc]. split.
    + rewrite <- N.add_mod_idemp_l by lia. symmetry. now apply N.mod_small.
    + intros C. specialize (Hc C). rewrite N.mod_small in Hlt by assumption. assumption.
  - destruct (t_checks tg) eqn:C.
    + apply (at_pos_checks _ _ _ C) in Hp. subst. auto.
    + destruct Hp as [-> Hc]. split; [|congruence].
      now rewrite N.add_mod_idemp_l by lia.
Qed.

Section Lawful.
  Context {W : Type} (tg : target) (wi : write_impl W) (delivered : W -> list byte).
  Hypothesis Hlaw : lawful wi delivered.

  Lemma write_padding_spec n : forall inner inner' e, write_padding wi n inner = (inner', e) ->
    match e with
    | None => delivered inner' = (delivered inner ++ repeat x00 n)%list
    | Some _ => exists k, (k <= n)%nat /\ delivered inner' = (delivered inner ++ repeat x00 k)%list
    end.
  Proof.
    induction n as [|n IH]; intros inner inner' e H; cbn [write_padding] in H.
    - injection H as <- <-. cbn. now rewrite app_nil_r.
    - destruct (wi inner [x00]) as [i1 [e1|]] eqn:E.
      + injection H as <- <-. apply Hlaw in E. destruct E as [k [Hk E]]. cbn [length] in Hk.
        exists k. split; [lia|]. rewrite E. f_equal. destruct k as [|[|k]]; [reflexivity|reflexivity|lia].
      + apply Hlaw in E. apply IH in H. destruct e.
        * destruct H as [k [Hk H]]. exists (S k). split; [lia|]. rewrite H, E, <- app_assoc. reflexivity.
        * rewrite H, E, <- app_assoc. reflexivity.
  Qed.

  (** exhaustive description of one write *)
  Lemma write1_spec al bs w w' r pos : ual tg al -> at_pos tg (w_offset w) pos ->
    write1 tg wi (al, bs) w = (w', r) ->
    let pad := align_offset pos al in
    match r with
    | WOk o => at_pos tg o (pos + pad) /\ at_pos tg (w_offset w') (pos + pad + len bs)
        /\ delivered (w_inner w') = (delivered (w_inner w) ++ zeros pad ++ bs)%list
    | WErr e =>
        (exists k, k <= pad /\ w_offset w' = w_offset w
           /\ delivered (w_inner w') = (delivered (w_inner w) ++ zeros k)%list)
        \/ (exists k, (k <= length bs)%nat /\ at_pos tg (w_offset w') (pos + pad)
           /\ delivered (w_inner w') = (delivered (w_inner w) ++ zeros pad ++ firstn k bs)%list)
    | WPanic => t_checks tg = true /\ umod tg <= pos + pad + len bs
        /\ exists k, delivered (w_inner w') = (delivered (w_inner w) ++ firstn k (zeros pad ++ bs))%list
    | WUb => False
    end.
  Proof.
    intros Hal Hpos H pad. unfold write1 in H.
    assert (Ep : align_offset (w_offset w) al = pad).
    { destruct Hpos as [-> _]. now apply align_offset_umod. }
    rewrite Ep in H.
    destruct (write_padding wi (N.to_nat pad) (w_inner w)) as [i1 [e1|]] eqn:E1.
    - injection H as <- <-. apply write_padding_spec in E1. destruct E1 as [k [Hk E1]]. left.
      exists (N.of_nat k). cbn [w_offset w_inner]. split; [lia|]. split; [reflexivity|]. rewrite E1. unfold zeros.
      now rewrite Nat2N.id.
    - apply write_padding_spec in E1. fold (zeros pad) in E1.
      pose proof (uadd_spec tg _ _ pad Hpos) as U1. destruct (uadd tg (w_offset w) pad) as [here|].
      + destruct (wi i1 bs) as [i2 [e2|]] eqn:E2.
        * injection H as <- <-. right. apply Hlaw in E2. destruct E2 as [k [Hk E2]]. exists k.
          cbn [w_offset w_inner]. split; [assumption|]. split; [assumption|]. rewrite E2, E1. now rewrite <- app_assoc.
        * apply Hlaw in E2. pose proof (uadd_spec tg _ _ (len bs) U1) as U2.
          destruct (uadd tg here (len bs)) as [off'|]; injection H as <- <-; cbn [w_offset w_inner].
          -- split; [assumption|]. split; [assumption|]. rewrite E2, E1. now rewrite <- app_assoc.
          -- destruct U2 as [C U2]. split; [assumption|]. split; [assumption|].
             exists (length (zeros pad ++ bs)%list). rewrite firstn_all, E2, E1. now rewrite <- app_assoc.
      + injection H as <- <-. destruct U1 as [C U1]. split; [assumption|]. split; [lia|]. cbn [w_inner].
        exists (length (zeros pad)). rewrite firstn_app, Nat.sub_diag, firstn_all. cbn [firstn]. now rewrite app_nil_r.
  Qed.

  Lemma write1_prefix al bs w w' r : write1 tg wi (al, bs) w = (w', r) ->
    prefix (delivered (w_inner w)) (delivered (w_inner w')).
  Proof.
    intros H. unfold write1 in H. set (pad := align_offset (w_offset w) al) in *.
    destruct (write_padding wi (N.to_nat pad) (w_inner w)) as [i1 [e1|]] eqn:E1.
    - injection H as <- <-. apply write_padding_spec in E1. destruct E1 as [k [_ E1]]. eexists. exact E1.
    - apply write_padding_spec in E1. destruct (uadd tg (w_offset w) pad) as [here|].
      + destruct (wi i1 bs) as [i2 [e2|]] eqn:E2.
        * injection H as <- <-. apply Hlaw in E2. destruct E2 as [k [_ E2]]. eexists. cbn [w_inner].
          rewrite E2, E1, <- app_assoc. reflexivity.
        * apply Hlaw in E2. destruct (uadd tg here (len bs)); injection H as <- <-; eexists; cbn [w_inner];
            rewrite E2, E1, <- app_assoc; reflexivity.
      + injection H as <- <-. eexists. exact E1.
  Qed.

  (** ** Runs *)

  Definition uals (ps : list part) : Prop := Forall (fun p => ual tg (fst p)) ps.

  (** position up to which [ps] is complete after [n] parts *)
  Definition pos_after (pos : N) (ps : list part) (n : nat) : N := end_of pos (firstn n ps).

  Lemma run1_spec ps : forall w w' os e pos, uals ps -> at_pos tg (w_offset w) pos ->
    run1 tg wi ps w = (w', (os, e)) ->
    Forall2 (at_pos tg) os (map fst (firstn (length os) (placements pos ps)))
    /\ match e with
    | None => length os = length ps
        /\ at_pos tg (w_offset w') (end_of pos ps)
        /\ delivered (w_inner w') = (delivered (w_inner w) ++ render pos ps)%list
    | Some (WErr _) => (length os < length ps)%nat
        /\ (exists k, delivered (w_inner w') = (delivered (w_inner w) ++ firstn k (render pos ps))%list)
        /\ let done := firstn (length os) ps in
           let pos1 := end_of pos done in
           let base := (delivered (w_inner w) ++ render pos done)%list in
           match skipn (length os) ps with
           | (al, bs) :: _ =>
             let pad := align_offset pos1 al in
             (exists k, k <= pad /\ at_pos tg (w_offset w') pos1
                /\ delivered (w_inner w') = (base ++ zeros k)%list)
             \/ (exists k, (k <= length bs)%nat /\ at_pos tg (w_offset w') (pos1 + pad)
                /\ delivered (w_inner w') = (base ++ zeros pad ++ firstn k bs)%list)
           | [] => False
           end
    | Some WPanic => (length os < length ps)%nat
        /\ (exists k, delivered (w_inner w') = (delivered (w_inner w) ++ firstn k (render pos ps))%list)
        /\ t_checks tg = true /\ umod tg <= end_of pos ps
    | Some _ => False
    end.
  Proof.
    induction ps as [|[al bs] ps IH]; intros w w' os e pos Hu Hpos H; cbn [run1] in H.
    - injection H as <- <- <-. cbn. rewrite app_nil_r. split; [constructor|]. split; [reflexivity|]. split; [assumption|reflexivity].
    - inversion Hu as [|? ? Hu1 Hu2]; subst. cbn [fst] in Hu1.
      destruct (write1 tg wi (al, bs) w) as [w1 r] eqn:E1.
      pose proof (write1_spec al bs w w1 r pos Hu1 Hpos E1) as S. cbn [placements end_of render].
      set (pad := align_offset pos al) in *. cbn zeta in S. cbn [render].
      destruct r as [o|er| |].
      + destruct S as [S1 [S2 S3]].
        destruct (run1 tg wi ps w1) as [w2 [os' e']] eqn:E2. injection H as <- <- <-.
        destruct (IH w1 w2 os' e' (pos + pad + len bs) Hu2 S2 E2) as [F R]. split.
        { cbn [length firstn map fst]. constructor; assumption. }
        destruct e' as [[o'|er| |]|].
        * exact R.
        * destruct R as [R1 [[k R2] R3]]. cbn [length]. split; [lia|]. split.
          { exists (length (zeros pad ++ bs) + k)%nat. rewrite R2, S3.
            rewrite (app_assoc (zeros pad)), firstn_app_2. now rewrite <- !app_assoc. }
          cbn [firstn skipn end_of render]. fold pad. cbn zeta in *.
          destruct (skipn (length os') ps) as [|[al' bs'] rr]; [assumption|].
          destruct R3 as [[k' [Q1 [Q2 Q3]]]|[k' [Q1 [Q2 Q3]]]].
          -- left. exists k'. split; [assumption|]. split; [assumption|]. rewrite Q3, S3. now rewrite <- !app_assoc.
          -- right. exists k'. split; [assumption|]. split; [assumption|]. rewrite Q3, S3. now rewrite <- !app_assoc.
        * destruct R as [R1 [[k R2] R3]]. cbn [length]. split; [lia|]. split; [|assumption].
          exists (length (zeros pad ++ bs) + k)%nat. rewrite R2, S3.
          rewrite (app_assoc (zeros pad)), firstn_app_2. now rewrite <- !app_assoc.
        * exact R.
        * destruct R as [R1 [R2 R3]]. cbn [length]. split; [lia|]. split; [assumption|].
          rewrite R3, S3. now rewrite <- !app_assoc.
      + injection H as <- <- <-. cbn [length firstn skipn map end_of render]. split; [constructor|]. split; [lia|]. cbn zeta. fold pad.
        split.
        * destruct S as [[k [Q1 [Q2 Q3]]]|[k [Q1 [Q2 Q3]]]]; rewrite Q3.
          -- exists (N.to_nat k). f_equal. rewrite firstn_app.
             replace (N.to_nat k - length (zeros pad))%nat with 0%nat by (unfold zeros; rewrite repeat_length; lia).
             cbn [firstn]. rewrite app_nil_r. unfold zeros. clear -Q1.
             replace (N.to_nat pad) with (N.to_nat k + N.to_nat (pad - k))%nat by lia.
             rewrite repeat_app. rewrite firstn_app, repeat_length, Nat.sub_diag. cbn [firstn]. rewrite app_nil_r.
             now rewrite firstn_all2 by (rewrite repeat_length; lia).
          -- exists (length (zeros pad) + k)%nat. f_equal. rewrite firstn_app_2. f_equal.
             rewrite firstn_app. replace (k - length bs)%nat with 0%nat by lia. cbn [firstn]. now rewrite app_nil_r.
        * rewrite app_nil_r. destruct S as [[k [Q1 [Q2 Q3]]]|S]; [left|right; exact S].
          exists k. split; [assumption|]. split; [now rewrite Q2|assumption].
      + injection H as <- <- <-. cbn [length firstn map]. split; [constructor|]. split; [lia|].
        destruct S as [S1 [S2 [k S3]]]. split.
        * exists (Nat.min k (length (zeros pad ++ bs)%list)). rewrite S3. f_equal.
          rewrite (app_assoc (zeros pad)). rewrite (firstn_app _ (zeros pad ++ bs)%list).
          replace (Nat.min k (length (zeros pad ++ bs)%list) - length (zeros pad ++ bs)%list)%nat with 0%nat by lia.
          cbn [firstn]. rewrite app_nil_r.
          destruct (Nat.le_gt_cases k (length (zeros pad ++ bs)%list)) as [Hk|Hk].
          -- now rewrite Nat.min_l by assumption.
          -- rewrite Nat.min_r by lia. now rewrite firstn_all, firstn_all2 by lia.
        * split; [assumption|]. pose proof (end_of_ge ps (pos + pad + len bs)). lia.
      + contradiction.
  Qed.

  Lemma run1_prefix ps : forall w w' r, run1 tg wi ps w = (w', r) ->
    prefix (delivered (w_inner w)) (delivered (w_inner w')).
  Proof.
    induction ps as [|[al bs] ps IH]; intros w w' r H; cbn [run1] in H.
    - injection H as <- <-. exists []. now rewrite app_nil_r.
    - destruct (write1 tg wi (al, bs) w) as [w1 r1] eqn:E1.
      pose proof (write1_prefix _ _ _ _ _ E1) as [a Ha].
      destruct r1 as [o|e| |].
      + destruct (run1 tg wi ps w1) as [w2 [os e]] eqn:E2. injection H as <- <-.
        destruct (IH _ _ _ E2) as [b Hb]. exists (a ++ b)%list. rewrite Hb, Ha. now rewrite <- app_assoc.
      + injection H as <- <-. exists a. assumption.
      + injection H as <- <-. exists a. assumption.
      + injection H as <- <-. exists a. assumption.
  Qed.
End Lawful.

(** ** Infallible sinks *)
Section Infallible.
  Context {W : Type} (tg : target) (wi : write_impl W).
  Hypothesis Hinf : infallible wi.

  Lemma write_padding_inf n : forall inner, exists inner', write_padding wi n inner = (inner', None).
  Proof.
    induction n as [|n IH]; intros inner; cbn [write_padding]; [eauto|].
    pose proof (Hinf inner [x00]) as E. destruct (wi inner [x00]) as [i [e|]]; cbn [snd] in E; [discriminate|]. apply IH.
  Qed.

  (** offsets do not depend on the sink *)
  Lemma write1_inf al bs w : exists i', 
    write1 tg wi (al, bs) w =
    match uadd tg (w_offset w) (align_offset (w_offset w) al) with
    | Panicked => (Writer i' (w_offset w), WPanic)
    | Done here =>
      match uadd tg here (len bs) with
      | Panicked => (Writer i' here, WPanic)
      | Done off => (Writer i' off, WOk here)
      end
    end.
  Proof.
    unfold write1. destruct (write_padding_inf (N.to_nat (align_offset (w_offset w) al)) (w_inner w)) as [i1 ->].
    destruct (uadd tg (w_offset w) _) as [here|]; [|eauto].
    pose proof (Hinf i1 bs) as E. destruct (wi i1 bs) as [i2 [e|]]; cbn [snd] in E; [discriminate|].
    exists i2. destruct (uadd tg here (len bs)); reflexivity.
  Qed.

  Lemma run1_inf_err ps : forall w w' os e, run1 tg wi ps w = (w', (os, e)) -> e = None \/ e = Some WPanic.
  Proof.
    induction ps as [|[al bs] ps IH]; intros w w' os e H; cbn [run1] in H; [injection H as <- <- <-; auto|].
    destruct (write1_inf al bs w) as [i' E]. rewrite E in H. clear E.
    destruct (uadd tg (w_offset w) _) as [here|]; [|injection H as <- <- <-; auto].
    destruct (uadd tg here (len bs)) as [off|]; [|injection H as <- <- <-; auto].
    destruct (run1 tg wi ps _) as [w2 [os2 e2]] eqn:E. injection H as <- <- <-. eauto.
  Qed.
End Infallible.

(** the machine offsets of a run on an infallible sink, as a function *)
Fixpoint offs (tg : target) (off : N) (ps : list (N * N)) : outcome (list N * N) :=   (* (align, size) *)
  match ps with
  | [] => Done ([], off)
  | (al, n) :: r =>
    match uadd tg off (align_offset off al) with
    | Panicked => Panicked
    | Done here =>
      match uadd tg here n with
      | Panicked => Panicked
      | Done off' =>
        match offs tg off' r with
        | Panicked => Panicked
        | Done (os, e) => Done (here :: os, e)
        end
      end
    end
  end.

Definition dims (ps : list part) : list (N * N) := map (fun p => (fst p, len (snd p))) ps.

Lemma run1_offs {W} tg (wi : write_impl W) : infallible wi -> forall ps w,
  match offs tg (w_offset w) (dims ps) with
  | Done (os, off') => exists i', run1 tg wi ps w = (Writer i' off', (os, None))
  | Panicked => exists w' os, run1 tg wi ps w = (w', (os, Some WPanic))
  end.
Proof.
  intros Hinf. induction ps as [|[al bs] ps IH]; intros w; cbn [dims map offs fst snd run1].
  - exists (w_inner w). now destruct w.
  - destruct (write1_inf tg wi Hinf al bs w) as [i' E]. rewrite E.
    destruct (uadd tg (w_offset w) _) as [here|]; [|eauto].
    destruct (uadd tg here (len bs)) as [off|]; [|eauto].
    specialize (IH (Writer i' off)). cbn [w_offset] in IH. fold (dims ps).
    destruct (offs tg off (dims ps)) as [[os e]|].
    + destruct IH as [i2 ->]. eauto.
    + destruct IH as [w' [os ->]]. eauto.
Qed.

(** with enough address space the offsets are the ideal ones *)
Lemma offs_spec tg ps : forall off pos, uals tg ps -> at_pos tg off pos ->
  match offs tg off (dims ps) with
  | Done (os, off') => Forall2 (at_pos tg) os (map fst (placements pos ps)) /\ at_pos tg off' (end_of pos ps)
  | Panicked => t_checks tg = true /\ umod tg <= end_of pos ps
  end.
Proof.
  induction ps as [|[al bs] ps IH]; intros off pos Hu Hpos; cbn [dims map offs fst snd placements end_of].
  - split; [constructor|assumption].
  - inversion Hu as [|? ? Hu1 Hu2]; subst. cbn [fst] in Hu1.
    assert (Ep : align_offset off al = align_offset pos al).
    { destruct Hpos as [-> _]. now apply align_offset_umod. }
    rewrite Ep. set (pad := align_offset pos al).
    pose proof (uadd_spec tg _ _ pad Hpos) as U1. destruct (uadd tg off pad) as [here|].
    + pose proof (uadd_spec tg _ _ (len bs) U1) as U2. destruct (uadd tg here (len bs)) as [off'|].
      * specialize (IH off' _ Hu2 U2). fold (dims ps). destruct (offs tg off' (dims ps)) as [[os e]|].
        -- destruct IH as [I1 I2]. split; [now constructor|assumption].
        -- exact IH.
      * destruct U2. split; [assumption|]. pose proof (end_of_ge ps (pos + pad + len bs)). lia.
    + destruct U1. split; [assumption|]. pose proof (end_of_ge ps (pos + pad + len bs)). lia.
Qed.

Lemma offs_ok tg ps off : uals tg ps -> off < umod tg -> end_of off ps < umod tg ->
  offs tg off (dims ps) = Done (map fst (placements off ps), end_of off ps).
Proof.
  revert off. induction ps as [|[al bs] ps IH]; intros off Hu H0 H; cbn [dims map offs fst snd placements end_of] in *; [reflexivity|].
  inversion Hu as [|? ? Hu1 Hu2]; subst.
  pose proof (end_of_ge ps (off + align_offset off al + len bs)).
  unfold uadd. replace (off + align_offset off al <? umod tg) with true by (symmetry; apply N.ltb_lt; lia).
  replace (off + align_offset off al + len bs <? umod tg) with true by (symmetry; apply N.ltb_lt; lia).
  fold (dims ps). rewrite IH; [reflexivity|assumption|lia|assumption].
Qed.

Lemma lgood_ual tg l t : target_ok tg = true -> lgood tg l t -> ual tg (alN l t).
Proof.
  intros Htg G. pose proof (lgood_alN_le _ _ _ Htg G) as L. destruct (lgood_alN_pow2 _ _ _ G) as [E|P]; [now left|right].
  apply pow2_divide; [assumption|exists (t_bits tg); reflexivity|]. lia.
Qed.

(** ** Parts of well-typed values have admissible alignments *)
Lemma pow2_umod tg a : target_ok tg = true -> pow2_0 a -> a <= 256 -> ual tg a.
Proof.
  intros Htg [->|P] H; [now left|right].
  apply pow2_divide; [assumption|exists (t_bits tg); reflexivity|].
  unfold target_ok in Htg. rewrite !andb_true_iff in Htg. destruct Htg as [[_ Hb] _]. apply N.leb_le in Hb.
  unfold umod. transitivity (2 ^ 16); [change (2^16) with 65536; lia|]. apply N.pow_le_mono_r; lia.
Qed.

Lemma parts_uals tg l : target_ok tg = true -> forall x ps, wval_ok tg l x -> parts tg l x = Some ps ->
  uals tg ps.
Proof.
  intros Htg. induction x as [h v|t s|items IH] using wval_ind'; intros ps Hok Hp.
  - cbn [wval_ok] in Hok. destruct Hok as [[t Ht] Hv].
    destruct (leaf_parts _ _ _ _ _ Htg Ht Hv) as [s [_ [_ [E [_ [_ [_ [_ G]]]]]]]].
    rewrite E in Hp. injection Hp as <-. constructor; [|constructor]. cbn [fst].
    apply pow2_umod; [assumption|eapply good_alN_pow2; eassumption|eapply good_alN_le; eassumption].
  - cbn [wval_ok] in Hok. destruct Hok as [Ht Hs].
    destruct (std_parts _ _ _ _ Htg Ht Hs) as [E [_ [_ [_ G]]]].
    rewrite E in Hp. injection Hp as <-. constructor; [|constructor]. cbn [fst]. now apply (lgood_ual tg l).
  - apply wval_ok_WSeq in Hok. rewrite parts_WSeq in Hp. revert ps Hp.
    induction Hok as [|x r Hx _ IHr]; intros ps Hp; [injection Hp as <-; constructor|].
    inversion IH as [|? ? I1 I2]; subst. cbn [parts_list] in Hp.
    destruct (parts tg l x) as [p|] eqn:E1; [|discriminate].
    destruct (parts_list tg l r) as [q|] eqn:E2; [|discriminate]. injection Hp as <-.
    apply Forall_app. split; [now apply I1|now apply IHr].
Qed.

(** ** Operations *)
Lemma op_parts_total tg l o : target_ok tg = true -> op_ok tg l o ->
  exists ps, op_parts tg l o = Some ps /\ uals tg ps.
Proof.
  intros Htg H. destruct o as [x|xs|t s]; cbn [op_ok op_parts] in *.
  - destruct (parts_total tg l Htg x H) as [ps E]. exists ps. split; [assumption|]. eapply parts_uals; eassumption.
  - destruct (parts_total tg l Htg _ H) as [ps E]. exists ps. split; [assumption|]. eapply parts_uals; eassumption.
  - destruct H as [Ht Hs]. destruct (std_parts _ _ _ _ Htg Ht Hs) as [_ [E4 [E6 [_ G]]]].
    rewrite E4, E6. eexists. split; [reflexivity|]. constructor; [|constructor]. cbn [fst]. now apply (lgood_ual tg l).
Qed.

Lemma run_op_run1 {W} tg l (wi : write_impl W) o w ps : target_ok tg = true -> op_ok tg l o ->
  op_parts tg l o = Some ps -> exists ret,
  run_op tg l wi o w =
  match run1 tg wi ps w with
  | (w', (os, None)) => (w', WOk (ret os))
  | (w', (_, Some r)) => (w', r)
  end
  /\ match o with
     | OpWrite x => ret = ret_of x (w_offset w)
     | OpIter xs => ret = ret_of (WSeq xs) (w_offset w)
     | OpStd t s => ret = hd (w_offset w)
     end.
Proof.
  intros Htg Hok Hp. destruct o as [x|xs|t s]; cbn [op_ok op_parts run_op] in *.
  - exists (ret_of x (w_offset w)). split; [|reflexivity]. unfold writer_write. now apply write_val_run1.
  - exists (ret_of (WSeq xs) (w_offset w)). split; [|reflexivity].
    rewrite <- write_val_WSeq. now apply write_val_run1.
  - exists (hd (w_offset w)). split; [|reflexivity].
    destruct Hok as [Ht Hs]. destruct (std_parts _ _ _ _ Htg Ht Hs) as [_ [E4 [E6 [E7 _]]]].
    rewrite E4, E6 in Hp. injection Hp as <-.
    erewrite write_std_write1; [|exact E4|exact E6|symmetry; exact E7].
    cbn [run1]. destruct (write1 tg wi _ w) as [w1 [o|e| |]]; reflexivity.
Qed.

(** ** Concrete sinks *)
Lemma vec_lawful : lawful vec_sink (fun v => v).
Proof. intros s bs s' e H. unfold vec_sink in H. injection H as <- <-. reflexivity. Qed.
Lemma vec_infallible : infallible vec_sink.
Proof. intros s bs. reflexivity. Qed.
Lemma io_sink_infallible : infallible io_sink.
Proof. intros s bs. reflexivity. Qed.

Lemma slice_lawful : lawful slice_sink fst.
Proof.
  intros [f r] bs s' e H. unfold slice_sink in H.
  destruct (Nat.ltb_spec (Nat.min (length bs) (length r)) (length bs)) as [Hlt|Hge]; injection H as <- <-; cbn [fst].
  - exists (Nat.min (length bs) (length r)). split; [lia|reflexivity].
  - now rewrite firstn_all2 by lia.
Qed.

Lemma script_lawful : lawful script_sink snd.
Proof.
  intros [sc d] bs s' e. unfold script_sink. cbn [fst snd]. revert d bs.
  induction sc as [|c sc IH]; intros d bs H; cbn [script_loop] in H.
  - destruct bs as [|b bs]; injection H as <- <-; cbn [snd]; [now rewrite app_nil_r|reflexivity].
  - destruct bs as [|b bs]; [injection H as <- <-; cbn [snd]; now rewrite app_nil_r|].
    destruct c as [n| |er].
    + destruct (Nat.min n (length (b :: bs))) as [|k] eqn:En.
      * injection H as <- <-. exists 0%nat. cbn. split; [lia|]. now rewrite app_nil_r.
      * apply IH in H. set (buf := b :: bs) in *. destruct e as [e|].
        -- destruct H as [k' [Hk' H]]. exists (S k + k')%nat. rewrite skipn_length in Hk'. split; [lia|].
           rewrite H, <- app_assoc. f_equal.
           rewrite <- (firstn_skipn (S k) buf) at 3.
           replace (S k + k')%nat with (length (firstn (S k) buf) + k')%nat by (rewrite firstn_length; lia).
           now rewrite firstn_app_2.
        -- rewrite H, <- app_assoc. f_equal. apply firstn_skipn.
    + apply IH in H. exact H.
    + injection H as <- <-. exists 0%nat. cbn. split; [lia|]. now rewrite app_nil_r.
Qed.
