(** * Invariants of all layout types, hand-written ones included

    As TypeFacts.v, without the bound of 256 on alignments. *)

From Coq Require Import NArith String Bool List Lia ZArith.
From Coq Require Import ZifyBool ZifyN ZifyNat.
From Verif Require Import Rust Internal Prims Derive Host SpecGlsl SpecLayout Arith RustFacts DeriveFacts TypeFacts.
Import ListNotations.
Local Open Scope string_scope.
Local Open Scope N_scope.

Definition lgood (tg : target) (l : lay) (t : sty) : Prop :=
  exists a, std_align l t = Some a
  /\ nopad tg t = true
  /\ pow2 (align_of tg t)
  /\ (align_of tg t | size_of tg t)
  /\ (a = 0 -> align_of tg t = 1 /\ size_of tg t = 0)
  /\ (a <> 0 -> pow2 a /\ a < umod tg /\ (align_of tg t | a)).

Lemma lgood_alN tg l t : lgood tg l t -> std_align l t = Some (alN l t).
Proof. intros [a [H _]]. unfold alN. now rewrite H. Qed.

Lemma lgood_nopad tg l t : lgood tg l t -> nopad tg t = true.
Proof. intros [a [_ [H _]]]. exact H. Qed.

Lemma lgood_dyn tg t : target_ok tg = true -> lgood tg L140 t -> lgood tg L140 (TDyn t).
Proof.
  intros Htg [a [H1 [H2 [H3 [H4 [H5 H6]]]]]]. destruct (target_umod tg Htg) as [_ Hu]. exists (Internal.max 256 a).
  cbn [std_align]. rewrite H1. split; [reflexivity|].
  change (nopad tg (TDyn t)) with (nopad tg t).
  change (align_of tg (TDyn t)) with (align_of tg t).
  change (size_of tg (TDyn t)) with (size_of tg t).
  rewrite max_spec. split; [assumption|]. split; [assumption|]. split; [assumption|].
  split; [lia|]. intros _.
  destruct (N.eq_dec a 0) as [E|E].
  - destruct (H5 E) as [E1 E2]. subst a. rewrite E1. split; [exact pow2_256|]. split; [lia|].
    apply N.divide_1_l.
  - destruct (H6 E) as [P [Hle D]]. split; [apply pow2_max; [exact pow2_256|assumption]|].
    split; [lia|]. transitivity a; [assumption|]. rewrite N.max_comm.
    apply pow2_divide_max_l; [assumption|exact pow2_256].
Qed.

Lemma lgood_alN_pow2 tg l t : lgood tg l t -> pow2_0 (alN l t).
Proof.
  intros G. pose proof (lgood_alN _ _ _ G) as E. destruct G as [a [H [_ [_ [_ [_ H6]]]]]].
  rewrite H in E. injection E as ->. destruct (N.eq_dec (alN l t) 0); [now left|right].
  now apply H6.
Qed.

Lemma lgood_alN_le tg l t : target_ok tg = true -> lgood tg l t -> alN l t < umod tg.
Proof.
  intros Htg G. destruct (target_umod tg Htg) as [_ Hu]. pose proof (lgood_alN _ _ _ G) as E. destruct G as [a [H [_ [_ [_ [_ H6]]]]]].
  rewrite H in E. injection E as ->. destruct (N.eq_dec (alN l t) 0); [lia|].
  now apply H6.
Qed.

Lemma lgood_align_divides tg l t : lgood tg l t -> align_of tg t = 1 \/ (align_of tg t | alN l t) /\ alN l t <> 0.
Proof.
  intros G. pose proof (lgood_alN _ _ _ G) as E. destruct G as [a [H [_ [_ [_ [H5 H6]]]]]].
  rewrite H in E. injection E as ->. destruct (N.eq_dec (alN l t) 0); [left; now apply H5|right].
  split; [now apply H6|assumption].
Qed.

Lemma lgood_align_divides_any tg l t c : lgood tg l t -> (alN l t | c) \/ alN l t = 0 -> (align_of tg t | c).
Proof.
  intros G H. destruct (lgood_align_divides _ _ _ G) as [->|[D Hn]]; [apply N.divide_1_l|].
  destruct H as [H|H]; [|contradiction]. now transitivity (alN l t).
Qed.

Lemma lstruct_al_pow2 tg l fields : Forall (fun f => lgood tg l (snd f)) fields -> pow2_0 (struct_al l fields).
Proof.
  intros H. unfold struct_al. apply fold_max_pow2. constructor; [apply min_struct_alignment_pow2|].
  induction H as [|f fs Hf _ IH]; cbn [map]; constructor; [|assumption]. eapply lgood_alN_pow2, Hf.
Qed.

Lemma lstruct_al_le tg l fields : target_ok tg = true -> Forall (fun f => lgood tg l (snd f)) fields -> struct_al l fields < umod tg.
Proof.
  intros Htg H. destruct (target_umod tg Htg) as [_ Hu]. unfold struct_al. cbn [fold_right].
  assert (fold_right N.max 0 (map (fun f => alN l (snd f)) fields) < umod tg).
  { induction H as [|f fs Hf _ IH]; cbn [map fold_right]; [lia|].
    pose proof (lgood_alN_le _ _ _ Htg Hf). lia. }
  destruct l; cbn [min_struct_alignment]; lia.
Qed.

Lemma lstruct_al_divides tg l fields f t : Forall (fun f => lgood tg l (snd f)) fields ->
  In (f, t) fields -> alN l t = 0 \/ (alN l t | struct_al l fields) /\ struct_al l fields <> 0.
Proof.
  intros HF Hin. pose proof (struct_al_ge l fields f t Hin) as Hle.
  pose proof (proj1 (Forall_forall _ _) HF _ Hin) as G. cbn [snd] in G.
  destruct (lgood_alN_pow2 _ _ _ G) as [E|P]; [now left|right].
  pose proof (pow2_pos _ P).
  destruct (lstruct_al_pow2 tg l fields HF) as [E|P2]; [lia|].
  split; [now apply pow2_divide|lia].
Qed.

Lemma lgen_fields_nopad tg l fin A fs : Forall (fun f => lgood tg l (snd f)) fs ->
  forall idx cur, head_aligned l fin cur fs ->
  padding_needed_for (cur + sizes tg (gen_fields tg l fin idx cur fs)) A = 0 ->
  nopad_fields tg A cur (gen_fields tg l fin idx cur fs) = true.
Proof.
  induction 1 as [|[f t] fs G _ IH]; intros idx cur Hh He.
  - cbn [gen_fields sizes nopad_fields] in *. rewrite N.add_0_r in He. now apply N.eqb_eq.
  - cbn [snd] in G. cbn [gen_fields nopad_fields sizes] in *. rewrite size_pad, align_pad in *.
    rewrite (lgood_nopad _ _ _ G).
    set (e := cur + size_of tg t) in *.
    set (p := align_offset e match fs with [] => fin | (_, u) :: _ => alN l u end) in *.
    assert (Hp : 0 < align_of tg t) by (apply pow2_pos; destruct G as [a G]; apply G).
    rewrite padding_needed_divides; [|assumption|].
    2:{ apply (lgood_align_divides_any _ _ _ _ G). cbn [head_aligned] in Hh. tauto. }
    rewrite padding_needed_divides; [|lia|apply N.divide_1_l].
    cbn [N.eqb andb nopad]. apply IH.
    + apply head_aligned_next.
    + replace (e + p + sizes tg (gen_fields tg l fin (S idx) (e + p) fs))
        with (cur + (size_of tg t + (p + sizes tg (gen_fields tg l fin (S idx) (e + p) fs))))
        by (unfold e; lia).
      exact He.
Qed.

Lemma lgen_sizes_0 tg l fin fs : Forall (fun f => lgood tg l (snd f)) fs ->
  Forall (fun f => alN l (snd f) = 0) fs -> forall idx,
  sizes tg (gen_fields tg l fin idx 0 fs) = 0.
Proof.
  induction 1 as [|[f t] fs G _ IH]; intros H idx; [reflexivity|].
  inversion H as [|? ? H1 H2]; subst. cbn [snd] in *.
  cbn [gen_fields sizes]. rewrite size_pad.
  assert (E : size_of tg t = 0).
  { pose proof (lgood_alN _ _ _ G) as E. destruct G as [a [Ha [_ [_ [_ [H5 _]]]]]].
    rewrite Ha in E. injection E as ->. now apply H5. }
  rewrite E. rewrite align_offset_aligned by (apply N.divide_0_r).
  rewrite !N.add_0_r. now apply IH.
Qed.

Lemma lderived_props tg l name fields :
  target_ok tg = true -> Forall (fun f => lgood tg l (snd f)) fields ->
  let t := derived tg l name fields in
  lgood tg l t
  /\ size_of tg t = sizes tg (derived_fields tg l fields)
  /\ (struct_al l fields = 0 \/ (struct_al l fields | size_of tg t)).
Proof.
  intros Htg HF t.
  assert (HA : align_of tg t = 1 \/ (align_of tg t | struct_al l fields) /\ struct_al l fields <> 0).
  { destruct (align_of_struct_cases tg l (trait_name l ++ name) (struct_al l fields) (derived_fields tg l fields))
      as [E|[f [u [Hin E]]]]; [now left|].
    fold (derived tg l name fields) in E. change (derived tg l name fields) with t in E. rewrite E.
    apply gen_fields_in in Hin. destruct Hin as [Hin|[p ->]]; [|left; reflexivity].
    pose proof (proj1 (Forall_forall _ _) HF _ Hin) as G. cbn [snd] in G.
    destruct (lstruct_al_divides tg l fields f u HF Hin) as [E0|[D Hn]].
    - left. destruct (lgood_align_divides _ _ _ G) as [E1|[_ E1]]; [assumption|contradiction].
    - destruct (lgood_align_divides _ _ _ G) as [E1|[E1 _]]; [now left|right].
      split; [now transitivity (alN l u)|assumption]. }
  assert (HP : pow2 (align_of tg t)).
  { destruct (align_of_struct_cases tg l (trait_name l ++ name) (struct_al l fields) (derived_fields tg l fields))
      as [E|[f [u [Hin E]]]]; change (TStruct l (trait_name l ++ name) (struct_al l fields) (derived_fields tg l fields)) with t in E; rewrite E.
    - exists 0. reflexivity.
    - apply gen_fields_in in Hin. destruct Hin as [Hin|[p ->]]; [|exists 0; reflexivity].
      pose proof (proj1 (Forall_forall _ _) HF _ Hin) as [a G]. apply G. }
  pose proof (pow2_pos _ HP) as Hpos.
  pose proof (gen_fields_end tg l (struct_al l fields) fields 0 0 (head_aligned_0 _ _ _)) as Hend.
  fold (derived_fields tg l fields) in Hend. rewrite N.add_0_l in Hend.
  assert (HD : (align_of tg t | sizes tg (derived_fields tg l fields))).
  { destruct HA as [->|[D Hn]]; [apply N.divide_1_l|]. destruct Hend as [|Hend]; [contradiction|].
    now transitivity (struct_al l fields). }
  assert (Hnp : nopad tg t = true).
  { unfold t, derived. rewrite nopad_struct. apply lgen_fields_nopad; [assumption|apply head_aligned_0|].
    rewrite <- (align_of_struct tg l (trait_name l ++ name) (struct_al l fields)).
    change (TStruct l (trait_name l ++ name) (struct_al l fields) (gen_fields tg l (struct_al l fields) 0 0 fields)) with t.
    fold (derived_fields tg l fields). rewrite N.add_0_l.
    now apply padding_needed_divides. }
  assert (Hsz : size_of tg t = sizes tg (derived_fields tg l fields)) by (now apply nopad_size_of).
  split; [|split; [exact Hsz|rewrite Hsz; exact Hend]].
  exists (struct_al l fields). split.
  { unfold t, derived. cbn [std_align]. now rewrite lay_eqb_refl. }
  split; [assumption|]. split; [assumption|]. split; [now rewrite Hsz|]. split.
  - intros E. split; [destruct HA as [HA|[_ HA]]; [assumption|contradiction]|].
    rewrite Hsz. apply lgen_sizes_0; [assumption|now apply struct_al_0].
  - intros E. destruct (lstruct_al_pow2 tg l fields HF) as [E1|P]; [contradiction|].
    split; [assumption|]. split; [now apply lstruct_al_le|].
    destruct HA as [->|[D _]]; [apply N.divide_1_l|assumption].
Qed.


Lemma good_lgood tg l t : target_ok tg = true -> good tg l t -> lgood tg l t.
Proof.
  intros Htg [a [H1 [H2 [H3 [H4 [H5 H6]]]]]]. destruct (target_umod tg Htg) as [_ Hu].
  exists a. split; [assumption|]. split; [assumption|]. split; [assumption|]. split; [assumption|].
  split; [assumption|]. intros E. destruct (H6 E) as [P [L D]]. split; [assumption|]. split; [lia|assumption].
Qed.

(** ** Pod types have no padding *)
Lemma map_opt_id_app {A} (a b : list (option A)) r : map_opt (fun c => c) (a ++ b) = Some r ->
  exists x y, map_opt (fun c => c) a = Some x /\ map_opt (fun c => c) b = Some y.
Proof.
  revert r. induction a as [|c a IH]; intros r H; [exists [], r; split; [reflexivity|exact H]|].
  cbn [app] in H. rewrite map_opt_cons in H. destruct c as [c|]; [|discriminate].
  destruct (map_opt (fun c0 => c0) (a ++ b)) as [r'|] eqn:E; [|discriminate].
  destruct (IH _ eq_refl) as [x [y [Ex Ey]]]. exists (c :: x), y. split; [|assumption].
  rewrite map_opt_cons, Ex. reflexivity.
Qed.

Lemma map_opt_id_none {A} n r : map_opt (fun c : option A => c) (repeat None (N.to_nat n)) = Some r -> n = 0.
Proof.
  destruct (N.to_nat n) as [|k] eqn:E; [lia|]. cbn [repeat]. rewrite map_opt_cons. discriminate.
Qed.

Lemma mem_nopad tg t : forall s m r, mem_of tg t s = Some m -> map_opt (fun c => c) m = Some r -> nopad tg t = true.
Proof.
  induction t as [p|p n|l n al fs IH|t IH] using sty_ind'; intros s m r Hm Hr; try reflexivity.
  - destruct s as [| |vs|]; try discriminate Hm. rewrite mem_of_struct in Hm. rewrite nopad_struct.
    revert Hm. generalize (repr_c_align (map (fun nf => layout_of tg (snd nf)) fs)) as A.
    generalize 0 as cur. intros cur A Hm. revert cur vs m r Hm Hr.
    induction IH as [|[f ft] fs Hft _ IHfs]; intros cur [|[g v] vs] m r Hm Hr; try discriminate Hm.
    + cbn [mem_fields nopad_fields] in *. injection Hm as <-. apply map_opt_id_none in Hr. now apply N.eqb_eq.
    + cbn [mem_fields nopad_fields] in *. rewrite layout_of_eq in Hm.
      destruct (String.eqb f g); [|discriminate].
      destruct (mem_of tg ft v) as [m1|] eqn:E1; [|discriminate].
      destruct (mem_fields _ _ _ _ _) as [m2|] eqn:E2; [|discriminate]. injection Hm as <-.
      apply map_opt_id_app in Hr. destruct Hr as [x [y [Hx Hy]]]. apply map_opt_id_none in Hx.
      apply map_opt_id_app in Hy. destruct Hy as [y1 [y2 [Hy1 Hy2]]].
      rewrite Hx, N.add_0_r in *. cbn [snd] in Hft. rewrite (Hft _ _ _ E1 Hy1), (IHfs _ _ _ _ E2 Hy2). reflexivity.
  - destruct s as [| | |s]; try discriminate Hm. cbn [mem_of nopad] in *. eapply IH; eassumption.
Qed.

Lemma pod_nopad tg t : (forall s, has_sty t s = true -> exists bs, bytes_of tg t s = Some bs) -> nopad tg t = true.
Proof.
  intros H. destruct (H _ (has_sty_zeroed t)) as [bs E]. unfold bytes_of in E.
  destruct (mem_of tg t (zeroed t)) as [m|] eqn:Em; [|discriminate]. eapply mem_nopad; eassumption.
Qed.

(** ** Rust's own sizes and alignments *)
Lemma align_of_pow2 tg t : target_ok tg = true -> pow2 (align_of tg t) /\ (align_of tg t | size_of tg t).
Proof.
  intros Htg. destruct (target_aligns tg Htg) as [H4 H8].
  assert (P : forall p, pow2 (palign tg p) /\ (palign tg p | psize p)).
  { assert (D : forall a, a = 1 \/ a = 2 \/ a = 4 -> pow2 a /\ (a | 4)).
    { intros a [->|[->| ->]]; (split; [(now exists 0) || (now exists 1) || (now exists 2)|(now exists 4) || (now exists 2) || (now exists 1)]). }
    assert (D8 : forall a, a = 1 \/ a = 2 \/ a = 4 \/ a = 8 -> pow2 a /\ (a | 8)).
    { intros a [->|[->|[->| ->]]]; (split; [(now exists 0) || (now exists 1) || (now exists 2) || (now exists 3)|(now exists 8) || (now exists 4) || (now exists 2) || (now exists 1)]). }
    intros p. destruct p; cbn [palign psize]; auto. split; [now exists 0|apply N.divide_1_l]. }
  induction t as [p|p n|l n al fs IH|t IH] using sty_ind'; [| | |exact IH].
  - apply P.
  - unfold align_of, size_of. cbn [layout_of fst snd]. split; [apply P|]. apply N.divide_mul_r, P.
  - assert (A : pow2 (align_of tg (TStruct l n al fs))).
    { destruct (align_of_struct_cases tg l n al fs) as [->|[f [u [Hin ->]]]]; [now exists 0|].
      rewrite Forall_forall in IH. apply (IH _ Hin). }
    split; [assumption|]. pose proof (pow2_pos _ A) as Hp. unfold size_of. cbn [layout_of fst]. unfold repr_c_size.
    rewrite <- (align_of_struct tg l n al fs).
    rewrite padding_needed_align_offset by assumption.
    destruct (align_offset_divide (repr_c_end 0 (map (fun nf => layout_of tg (snd nf)) fs)) (align_of tg (TStruct l n al fs))); [assumption|lia].
Qed.

Lemma hand_written_lgood tg l t : target_ok tg = true -> hand_written tg l t -> lgood tg l t.
Proof.
  intros Htg [[k [Ha [Hu D]]] _ Hp]. destruct (align_of_pow2 tg t Htg) as [P1 P2].
  exists (2 ^ k). split; [assumption|]. split; [now apply pod_nopad|]. split; [assumption|]. split; [assumption|].
  assert (2 ^ k <> 0) by (apply N.pow_nonzero; discriminate).
  split; [lia|]. intros _. split; [now exists k|]. split; assumption.
Qed.

Theorem layout_type_lgood tg l t : target_ok tg = true -> layout_type tg l t -> lgood tg l t.
Proof.
  intros Htg. induction 1 as [t H|h t H|t El _ IH|name fields t _ IH H].
  - now apply hand_written_lgood.
  - apply good_lgood; [assumption|]. eapply out_ty_good; eassumption.
  - subst l. now apply lgood_dyn.
  - apply (derive_output_iff tg l name fields t Htg) in H. destruct H as [_ [_ [-> _]]].
    apply lderived_props; [assumption|]. apply Forall_forall. intros [f u] Hin. eapply IH; eassumption.
Qed.
