(** * The exact bytes of a block written member by member *)

From Coq Require Import NArith String Bool List Lia ZArith PeanoNat.
From Coq Require Import ZifyBool ZifyN ZifyNat.
From Coq Require Import Strings.Byte.
From Verif Require Import Rust Internal Prims Derive Host Rows Buffer SpecGlsl SpecHost SpecTypes SpecBuf SpecBlock SpecUse SpecGpu SpecBytes SpecValues
  Arith RustFacts DeriveFacts TypeFacts HostFacts GlslFacts PadFacts BufferFacts WriterFacts Proofs_Types Proofs_Use Proofs_Slices GpuFacts Proofs_Gpu Proofs_Bytes Proofs_Values Samples.
Import ListNotations.
Local Open Scope string_scope.
Local Open Scope N_scope.

(** ** placements inside placements *)

(** every placement of [Q] is inside one of [P], and what [Q] leaves of [P] is zero *)
Definition refined (P Q : list placement) : Prop :=
  (forall o' c', In (o', c') Q -> exists o c, In (o, c) P /\ o <= o' /\ read_at c (o' - o) (len c') = Some c')
  /\ (forall o c j, In (o, c) P -> j < len c -> (forall o' c', In (o', c') Q -> ~ (o' <= o + j < o' + len c')) ->
        byte_at c j = Some x00).

Lemma refined_app P Q P' Q' : refined P Q -> refined P' Q' -> refined (P ++ P')%list (Q ++ Q')%list.
Proof.
  intros [A1 A2] [B1 B2]. split.
  - intros o' c' Hin. apply in_app_or in Hin. destruct Hin as [Hin|Hin].
    + destruct (A1 o' c' Hin) as [o [c [H1 H2]]]. exists o, c. split; [apply in_or_app; now left|assumption].
    + destruct (B1 o' c' Hin) as [o [c [H1 H2]]]. exists o, c. split; [apply in_or_app; now right|assumption].
  - intros o c j Hin Hj Hno. apply in_app_or in Hin. destruct Hin as [Hin|Hin].
    + apply (A2 o c j Hin Hj). intros o' c' Hi. apply Hno, in_or_app. now left.
    + apply (B2 o c j Hin Hj). intros o' c' Hi. apply Hno, in_or_app. now right.
Qed.

Lemma refined_nil : refined [] [].
Proof. split; [intros ? ? []|intros ? ? ? []]. Qed.

Lemma refined_image P Q total bs : image P total bs -> refined P Q -> image Q total bs.
Proof.
  intros [I1 [I2 I3]] [R1 R2]. split; [assumption|]. split.
  - intros o' c' Hin. destruct (R1 o' c' Hin) as [o [c [H1 [H2 H3]]]].
    pose proof (read_at_read_at bs o (len c) c _ _ _ (I2 o c H1) H3) as H. now replace (o + (o' - o)) with o' in H by lia.
  - intros i Hi Hno. destruct (covered_dec P i) as [[o [c [Hin Hc]]]|Hn]; [|now apply I3].
    pose proof (I2 o c Hin) as Hr. apply read_at_bytes in Hr. destruct Hr as [_ Hr].
    specialize (Hr (i - o) ltac:(lia)). replace (o + (i - o)) with i in Hr by lia. rewrite Hr.
    apply (R2 o c); [assumption|lia|]. intros o' c' Hi'. replace (o + (i - o)) with i by lia. now apply Hno.
Qed.

Lemma image_extend P total bs k : image P total bs -> image P (total + N.of_nat k) (bs ++ repeat x00 k)%list.
Proof.
  intros [I1 [I2 I3]]. split; [unfold len in *; rewrite app_length, repeat_length; lia|]. split.
  - intros o c Hin. pose proof (I2 o c Hin) as H. rewrite read_at_app_l; [assumption|].
    unfold read_at in H. destruct (N.leb_spec (o + len c) (len bs)); [assumption|discriminate].
  - intros i Hi Hno. unfold byte_at. destruct (N.lt_ge_cases i total) as [Hl|Hg].
    + rewrite nth_error_app1 by (unfold len in I1; lia). now apply I3.
    + rewrite nth_error_app2 by (unfold len in I1; lia). apply nth_error_repeat. unfold len in I1. lia.
Qed.

(** ** moving a variable moves its components *)

Definition shift (d : N) (p : placement) : placement := (d + fst p, snd p).

Definition shifts (place : gval -> N -> option (list placement)) : Prop :=
  forall x d off, place x (d + off) = match place x off with Some ps => Some (map (shift d) ps) | None => None end.

Lemma strided_shifts place stride : shifts place -> forall xs d off,
  place_strided place xs (d + off) stride
  = match place_strided place xs off stride with Some ps => Some (map (shift d) ps) | None => None end.
Proof.
  intros H. induction xs as [|x xs IH]; intros d off; [reflexivity|]. cbn [place_strided].
  rewrite (H x d off). replace (d + off + stride) with (d + (off + stride)) by lia. rewrite IH.
  destruct (place x off) as [a|]; [|reflexivity]. destruct (place_strided place xs (off + stride) stride) as [b|]; [|reflexivity].
  now rewrite map_app.
Qed.

Lemma scalar_shifts tg s : shifts (place_scalar tg s).
Proof. intros x d off. unfold place_scalar. destruct (scalar_bytes tg s x); reflexivity. Qed.

Lemma vec_shifts tg s n : shifts (place_vec tg s n).
Proof.
  intros x d off. destruct x; try reflexivity. cbn [place_vec]. destruct (Nat.eqb _ _); [|reflexivity].
  apply strided_shifts, scalar_shifts.
Qed.

Lemma gplaces_shifts tg l : forall g, shifts (gplaces tg l g).
Proof.
  fix IH 1. intros [s|s n|s c r|e n|name fs].
  - apply scalar_shifts.
  - apply vec_shifts.
  - intros x d off. destruct x; try reflexivity. cbn [gplaces]. destruct (Nat.eqb _ _); [|reflexivity]. apply strided_shifts, vec_shifts.
  - intros x d off. destruct x; try reflexivity. cbn [gplaces]. destruct (Nat.eqb _ _); [|reflexivity]. apply strided_shifts, IH.
  - intros x d off. destruct x as [| | | | |xs]; try reflexivity. rewrite !gplaces_struct. generalize 0 as cur.
    revert xs. induction fs as [|[f ft] fs IHfs]; intros [|[f' y] xs] cur; try reflexivity.
    cbn [gplaces_fields]. cbv zeta. destruct (String.eqb f f'); [|reflexivity].
    rewrite <- N.add_assoc, (IH ft y d), IHfs.
    destruct (gplaces tg l ft y (off + round_up cur (base_align l ft))) as [a|]; [|reflexivity].
    destruct (gplaces_fields tg l off _ fs xs) as [b|]; [|reflexivity]. now rewrite map_app.
Qed.

(** ** one element *)

Lemma elem_refined tg l h g t v o : target_ok tg = true -> out_ty tg l h = Some t -> gty_of h = Some g -> plain h = true ->
  hval_ok tg h v = true ->
  exists bs x Q, parts tg l (WLeaf h v) = Some [(base_align l g, bs)] /\ len bs = gsize l g
    /\ gval_of tg h v = Some x /\ gplaces tg l g x o = Some Q /\ refined [(o, bs)] Q.
Proof.
  intros Htg Ho Hg Hp Hv. destruct (elem_facts tg l h g t v Htg Ho Hg Hv) as [bs [x [A1 [A2 [A3 _]]]]].
  assert (Hb : as_std_bytes tg l h v = Some bs).
  { cbn [parts] in A1. destruct (out_align tg l h); [|discriminate]. destruct (as_std_bytes tg l h v); [|discriminate].
    injection A1 as _ ->. reflexivity. }
  destruct (bytes_are_image tg l h t g v bs Htg Ho Hg Hp Hv Hb) as [x' [ps [B1 [B2 [[I1 [I2 I3]] _]]]]].
  assert (x' = x) as -> by congruence.
  exists bs, x, (map (shift o) ps). repeat (split; [assumption|]).
  split; [rewrite <- (N.add_0_r o) at 1; now rewrite (gplaces_shifts tg l g x o 0), B2|]. split.
  - intros o' c' Hin. apply in_map_iff in Hin. destruct Hin as [[p c] [E Hin]]. unfold shift in E. cbn [fst snd] in E. injection E as <- <-.
    exists o, bs. split; [now left|]. split; [lia|]. replace (o + p - o) with p by lia. now apply I2.
  - intros o1 c1 j [E|[]] Hj Hno. injection E as <- <-. apply I3; [congruence|].
    intros p c Hin Hc. apply (Hno (o + p) c); [|lia]. apply in_map_iff. exists (p, c). auto.
Qed.

Lemma slice_refined tg l h g t stride : target_ok tg = true -> out_ty tg l h = Some t -> gty_of h = Some g -> plain h = true ->
  forall vs, Forall (fun v => hval_ok tg h v = true) vs -> forall o,
  exists bss xs Q, parts tg l (WSeq (map (WLeaf h) vs)) = Some (map (fun bs => (base_align l g, bs)) bss)
    /\ map_opt (gval_of tg h) vs = Some xs /\ length xs = length vs
    /\ Forall (fun bs => len bs = gsize l g) bss /\ length bss = length vs
    /\ place_strided (gplaces tg l g) xs o stride = Some Q
    /\ refined (combine (map (fun k => o + N.of_nat k * stride) (seq 0 (length bss))) bss) Q.
Proof.
  intros Htg Ho Hg Hp vs. rewrite parts_WSeq. induction 1 as [|v vs Hv _ IH]; intros o.
  - exists [], [], []. cbn. repeat (split; [constructor|]). apply refined_nil.
  - destruct (elem_refined tg l h g t v o Htg Ho Hg Hp Hv) as [bs [x [Q [A1 [A2 [A3 [A4 A5]]]]]]].
    destruct (IH (o + stride)) as [bss [xs [Q' [E1 [E2 [E3 [E4 [E5 [E6 E7]]]]]]]]].
    exists (bs :: bss), (x :: xs), (Q ++ Q')%list. cbn [map parts_list length]. rewrite A1, E1, map_opt_cons, A3, E2.
    split; [reflexivity|]. split; [reflexivity|]. split; [congruence|]. split; [now constructor|]. split; [congruence|].
    cbn [place_strided]. rewrite A4, E6. split; [reflexivity|].
    cbn [seq map combine]. replace (o + N.of_nat 0 * stride) with o by lia.
    apply (refined_app [(o, bs)] Q _ Q' A5).
    rewrite <- seq_shift, map_map. erewrite map_ext; [exact E7|]. intros k. cbn beta. lia.
Qed.

Lemma uniform_placements a n bss : 0 < a -> Forall (fun bs => len bs = n) bss -> forall cur,
  placements cur (map (fun bs => (a, bs)) bss)
  = combine (map (fun k => round_up cur a + N.of_nat k * round_up n a) (seq 0 (length bss))) bss.
Proof.
  intros Ha. induction 1 as [|b bss Hb F IH]; intros cur; [reflexivity|].
  cbn [map placements length seq combine]. rewrite <- round_up_align_offset by assumption.
  f_equal; [f_equal; lia|]. rewrite <- seq_shift, map_map, IH. f_equal. apply map_ext. intros k.
  rewrite Hb, round_up_add by (assumption || now apply round_up_divide). lia.
Qed.

(** ** a block *)

Lemma round_up_twice x a A : 0 < a -> 0 < A -> (a | A) -> round_up (round_up x a) A = round_up x A.
Proof.
  intros Ha HA Hd. pose proof (round_up_ge x a Ha). pose proof (round_up_ge x A HA). pose proof (round_up_divide x A HA) as HD.
  pose proof (round_up_least x a (round_up x A) Ha ltac:(assumption) (N.divide_trans _ _ _ Hd HD)).
  pose proof (round_up_ge (round_up x a) A HA).
  pose proof (round_up_least (round_up x a) A (round_up x A) HA ltac:(assumption) HD).
  pose proof (round_up_least x A (round_up (round_up x a) A) HA ltac:(lia) (round_up_divide _ A HA)). lia.
Qed.

Lemma block_refined tg l : target_ok tg = true -> forall b gs pos cur ps,
  block_ok tg l b -> block_plain b = true -> slices_ok l b -> gaps_ok l b -> block_gty b = Some gs ->
  parts_list tg l (block_wvals b) = Some ps -> pos <= cur -> Proofs_Slices.agree l pos cur gs ->
  exists xs Q, block_gval tg b = Some xs
    /\ gplaces_fields tg l 0 cur gs xs = Some Q /\ refined (placements pos ps) Q
    /\ end_of pos ps <= members_end cur (gmembers l gs)
    /\ (forall A, 0 < A -> Forall (fun nf => (base_align l (snd nf) | A)) gs -> round_up pos A = round_up cur A ->
          round_up (end_of pos ps) A = round_up (members_end cur (gmembers l gs)) A).
Proof.
  intros Htg. induction b as [|[f m] b IH]; intros gs pos cur ps Hok Hpl Hsl Hgap Hg Hp Hle Hag.
  - injection Hg as <-. injection Hp as <-. exists [], []. cbn. repeat (split; [reflexivity|]). split; [apply refined_nil|]. split; [assumption|auto].
  - unfold block_gty in Hg. rewrite map_opt_cons in Hg. cbn [fst snd] in Hg.
    destruct (member_gty m) as [g|] eqn:Egm; [|discriminate].
    fold (block_gty b) in Hg. destruct (block_gty b) as [gs'|] eqn:Egs; [|discriminate]. injection Hg as <-.
    cbn [block_wvals map snd parts_list] in Hp. fold (block_wvals b) in Hp.
    destruct (parts tg l (member_wval m)) as [p|] eqn:Ep; [|discriminate].
    destruct (parts_list tg l (block_wvals b)) as [q|] eqn:Eq; [|discriminate]. injection Hp as <-.
    pose proof (Forall_inv Hok) as Hm. pose proof (Forall_inv_tail Hok) as Hb. cbn [snd] in Hm.
    unfold block_plain in Hpl. cbn [forallb snd] in Hpl. apply andb_true_iff in Hpl. destruct Hpl as [Hpm Hpb].
    assert (Hsl' : slices_ok l b) by (intros f0 h0 vs0 g0 Hin; apply (Hsl f0 h0 vs0 g0); now right).
    assert (Hgap' : gaps_ok l b) by (cbn [gaps_ok] in Hgap; destruct b; [exact I|apply Hgap]).
    cbn [Proofs_Slices.agree] in Hag.
    assert (Hpow : pow2 (base_align l g)).
    { apply (member_align_pow2 tg l m g Htg Hm Egm). intros h vs ge ->. apply (Hsl f h vs). now left. }
    pose proof (pow2_pos _ Hpow) as Hpos.
    set (o := round_up cur (base_align l g)) in *.
    assert (K : exists x Q, member_gval tg m = Some x /\ gplaces tg l g x o = Some Q /\ refined (placements pos p) Q
      /\ end_of pos p <= o + gsize l g
      /\ (forall A, 0 < A -> (base_align l g | A) -> round_up (end_of pos p) A = round_up (o + gsize l g) A)
      /\ Proofs_Slices.agree l (end_of pos p) (o + gsize l g) gs').
    { destruct m as [h v|h vs]; cbn [member_gty member_ok member_wval member_gval] in *.
      - destruct Hm as [[t Ht] Hv]. destruct (elem_refined tg l h g t v o Htg Ht Egm Hpm Hv) as [bs [x [Q [A1 [A2 [A3 [A4 A5]]]]]]].
        rewrite A1 in Ep. injection Ep as <-.
        exists x, Q. cbn [end_of placements].
        rewrite <- round_up_align_offset by assumption. rewrite Hag, A2.
        split; [exact A3|]. split; [exact A4|]. split; [exact A5|]. split; [lia|]. split; [reflexivity|apply agree_eq].
      - destruct Hm as [[t Ht] Hv]. destruct (gty_of h) as [ge|] eqn:Ege; [|discriminate]. injection Egm as <-.
        destruct (slice_refined tg l h ge t (array_stride l ge) Htg Ht Ege Hpm vs Hv o) as [bss [xs [Q [A1 [A2 [A3 [F [A4 [A5 A6]]]]]]]]].
        rewrite A1 in Ep. injection Ep as <-. rewrite A2. exists (GVArr xs), Q.
        assert (Hel : array_elem l ge) by (apply (Hsl f h vs ge); [now left|assumption]).
        destruct (size_align_glsl tg Htg h l t ge Ht Ege) as [_ [_ Hpe]].
        assert (Eal : base_align l (GArr ge (length vs)) = base_align l ge) by (cbn [base_align]; now apply array_elem_align).
        assert (Est : array_stride l ge = round_up (gsize l ge) (base_align l ge)).
        { unfold array_stride. now rewrite array_elem_align. }
        rewrite Eal in *.
        split; [reflexivity|]. split; [|split; [|split; [|split]]].
        + cbn [gplaces]. now rewrite A3, Nat.eqb_refl.
        + rewrite (uniform_placements _ (gsize l ge)) by assumption. rewrite Hag, <- Est. exact A6.
        + cbn [gsize]. fold (array_stride l ge). rewrite Est.
          destruct (stride_gap (gsize l ge) (base_align l ge) Hpos) as [G1 G2].
          destruct bss as [|bs bss].
          * cbn [map end_of]. pose proof (round_up_ge pos (base_align l ge) Hpos) as Hge. rewrite Hag in Hge. lia.
          * rewrite (uniform_end _ (gsize l ge)) by (assumption || discriminate). rewrite Hag.
            rewrite len_cons, <- A4. cbn [length]. unfold len. nia.
        + intros A HA Hd. replace (o + gsize l (GArr ge (length vs))) with (round_up (end_of pos (map (fun bs => (base_align l ge, bs)) bss)) (base_align l ge)); [now rewrite round_up_twice|].
          cbn [gsize]. fold (array_stride l ge). rewrite Est, <- A4. destruct bss as [|bs bss].
          * cbn [map end_of length]. rewrite Hag. lia.
          * rewrite (uniform_end _ (gsize l ge)) by (assumption || discriminate). rewrite Hag, round_up_add.
            -- rewrite len_cons. cbn [length]. unfold len. nia.
            -- assumption.
            -- apply N.divide_add_r; [rewrite <- Hag; now apply round_up_divide|]. apply N.divide_mul_r. now apply round_up_divide.
        + destruct b as [|[f' m'] b'].
          { injection Egs as <-. exact I. }
          unfold block_gty in Egs. rewrite map_opt_cons in Egs. cbn [fst snd] in Egs.
          destruct (member_gty m') as [g'|] eqn:Eg'; [|discriminate].
          destruct (map_opt _ b') as [gs''|]; [|discriminate]. injection Egs as <-. cbn [Proofs_Slices.agree].
          cbn [gaps_ok snd] in Hgap. destruct Hgap as [Hgap _].
          destruct (Hgap h vs ge g' eq_refl Ege Eg') as [Hne Hlt].
          assert (Hpow' : pow2 (base_align l g')).
          { apply (member_align_pow2 tg l m' g' Htg (Forall_inv Hb) Eg').
            intros h0 vs0 g0 ->. apply (Hsl' f' h0 vs0). now left. }
          assert (Hne' : bss <> []) by (destruct bss; [destruct vs; [congruence|discriminate]|discriminate]).
          rewrite (uniform_end _ (gsize l ge)) by assumption. rewrite Hag.
          cbn [gsize]. fold (array_stride l ge). rewrite Est in *.
          destruct (stride_gap (gsize l ge) (base_align l ge) Hpos) as [G1 G2].
          assert (Hlen : 1 <= len bss) by (destruct bss; [congruence|rewrite len_cons; lia]).
          replace (N.of_nat (length vs)) with (len bss) by (unfold len; now rewrite A4).
          assert (EE : o + len bss * round_up (gsize l ge) (base_align l ge)
                       = o + (len bss - 1) * round_up (gsize l ge) (base_align l ge) + round_up (gsize l ge) (base_align l ge)) by nia.
          apply (round_up_gap _ _ (base_align l ge)); [assumption|assumption| | | |].
          * apply N.divide_add_r; [rewrite <- Hag; now apply round_up_divide|]. apply N.divide_mul_r. now apply round_up_divide.
          * lia.
          * lia.
          * lia. }
    destruct K as [x [Q [K1 [K2 [K3 [K5 [K7 K6]]]]]]].
    destruct (IH gs' (end_of pos p) (o + gsize l g) q Hb Hpb Hsl' Hgap' eq_refl eq_refl K5 K6) as [xs [Q' [X1 [X2 [X3 [X4 X5]]]]]].
    exists ((f, x) :: xs), (Q ++ Q')%list. split; [|split; [|split; [|split]]].
    + unfold block_gval. rewrite map_opt_cons. cbn [fst snd]. rewrite K1. fold (block_gval tg b). now rewrite X1.
    + cbn [gplaces_fields]. cbv zeta. fold o. rewrite String.eqb_refl, N.add_0_l, K2, X2. reflexivity.
    + rewrite placements_app. now apply refined_app.
    + rewrite end_of_app. cbn [gmembers map members_end snd]. fold o. exact X4.
    + intros A HA Hd _. rewrite end_of_app. cbn [gmembers map members_end snd]. fold o.
      pose proof (Forall_inv Hd) as D1. cbn [snd] in D1. apply X5; [assumption|exact (Forall_inv_tail Hd)|now apply K7].
Qed.

(** C73.  A block written member by member through a fresh [Writer] (single values and
    slices, under the conditions of C39): the bytes delivered are exactly the GLSL image of
    the whole block, except that zero bytes at its end may be missing: those that pad its
    size to a multiple of its base alignment, and no others. *)
Lemma C73_block_bytes_proof : forall W tg l (wi : write_impl W) delivered inner b gs w os,
  target_ok tg = true -> lawful wi delivered ->
  block_ok tg l b -> block_plain b = true -> slices_ok l b -> gaps_ok l b -> block_gty b = Some gs ->
  write_vals tg l wi (block_wvals b) (writer_new inner) = (w, (os, None)) ->
  (t_checks tg = true \/ members_end 0 (gmembers l gs) < umod tg) ->
  exists img xs k, delivered (w_inner w) = (delivered inner ++ img)%list
    /\ block_gval tg b = Some xs
    /\ glsl_image tg l (GStruct "" gs) (GVStruct xs) (img ++ repeat x00 k)%list
    /\ gsize l (GStruct "" gs) = round_up (len img) (base_align l (GStruct "" gs)).
Proof.
  intros W tg l wi delivered inner b gs w os Htg Hlaw Hok Hpl Hsl Hgap Hg Hw Hno.
  assert (Hwok : Forall (wval_ok tg l) (block_wvals b) /\ Forall flat_val (block_wvals b)).
  { unfold block_wvals. split; apply Forall_forall; intros x Hx; apply in_map_iff in Hx; destruct Hx as [m [<- Hm]];
      unfold block_ok in Hok; rewrite Forall_forall in Hok; now apply (member_ok_wval tg l), Hok. }
  destruct Hwok as [Hwok Hfl].
  destruct (parts_total tg l Htg (WSeq (block_wvals b)) (proj2 (wval_ok_WSeq tg l _) Hwok)) as [ps Hp].
  rewrite parts_WSeq in Hp.
  destruct (render_image ps [] 0 eq_refl) as [I1 [I2 I3]]. cbn [app] in I1, I2, I3.
  destruct (block_refined tg l Htg b gs 0 0 ps Hok Hpl Hsl Hgap Hg Hp (N.le_refl 0) (agree_eq l 0 gs))
    as [xs [Q [X1 [X2 [X3 [X4 X5]]]]]].
  destruct (write_vals_starts tg l wi delivered Htg Hlaw _ (writer_new inner) w os 0 ps Hwok Hfl Hp (at_pos_0 tg))
    as [D [_ ->]].
  { destruct Hno as [C|Hlt]; [now left|right; lia]. }
  { exact Hw. }
  assert (Him : image Q (end_of 0 ps) (render 0 ps)).
  { eapply refined_image; [|exact X3]. split; [assumption|]. split; [assumption|]. intros i Hi. apply I3. lia. }
  assert (Hge : members_end 0 (gmembers l gs) <= gsize l (GStruct "" gs)).
  { rewrite gsize_struct. destruct b as [|[f m] b].
    - injection Hg as <-. apply N.le_0_l.
    - apply round_up_ge. unfold block_gty in Hg. rewrite map_opt_cons in Hg. cbn [fst snd] in Hg.
      destruct (member_gty m) as [g|] eqn:Egm; [|discriminate]. destruct (map_opt _ b) as [gs'|]; [|discriminate]. injection Hg as <-.
      assert (Hpow : pow2 (base_align l g)).
      { apply (member_align_pow2 tg l m g Htg (Forall_inv Hok) Egm). intros h vs ge ->. apply (Hsl f h vs). now left. }
      pose proof (pow2_pos _ Hpow). cbn [base_align map snd fold_right].
      assert (0 < vec4_round l (N.max (base_align l g) (fold_right N.max 0 (map (fun nf => base_align l (snd nf)) gs')))) by (apply vec4_round_pos; lia).
      lia. }
  assert (Hpadded : gsize l (GStruct "" gs) = round_up (end_of 0 ps) (base_align l (GStruct "" gs))).
  { rewrite gsize_struct. symmetry.
    assert (HP : Forall (fun nf => pow2 (base_align l (snd nf))) gs).
    { clear - Htg Hok Hsl Hg. revert gs Hg. induction b as [|[f m] b IH]; intros gs Hg.
      - injection Hg as <-. constructor.
      - unfold block_gty in Hg. rewrite map_opt_cons in Hg. cbn [fst snd] in Hg.
        destruct (member_gty m) as [g|] eqn:Egm; [|discriminate]. destruct (map_opt _ b) as [gs'|] eqn:Eb; [|discriminate]. injection Hg as <-.
        constructor.
        + apply (member_align_pow2 tg l m g Htg (Forall_inv Hok) Egm). intros h vs ge ->. apply (Hsl f h vs). now left.
        + apply IH; [exact (Forall_inv_tail Hok)| |exact Eb]. intros f0 h0 vs0 g0 Hin. apply (Hsl f0 h0 vs0 g0). now right. }
    destruct gs as [|[f0 g0] gs0].
    { destruct b as [|[f m] b]; [|exfalso; unfold block_gty in Hg; rewrite map_opt_cons in Hg; destruct (member_gty (snd (f, m))); [|discriminate]; destruct (map_opt _ b); discriminate].
      injection Hp as <-. reflexivity. }
    cbn [base_align map snd]. set (M := fold_right N.max 0 (base_align l g0 :: map (fun nf => base_align l (snd nf)) gs0)).
    assert (HM : pow2 M /\ Forall (fun nf => base_align l (snd nf) <= M) ((f0, g0) :: gs0)).
    { clear - HP. unfold M. change (base_align l g0 :: map (fun nf => base_align l (snd nf)) gs0) with (map (fun nf => base_align l (snd nf)) ((f0, g0) :: gs0)).
      generalize dependent g0. revert f0. induction gs0 as [|[f1 g1] gs0 IH]; intros f0 g0 HP.
      - cbn [map fold_right snd]. rewrite N.max_0_r. split; [exact (Forall_inv HP)|]. constructor; [cbn; lia|constructor].
      - destruct (IH f1 g1 (Forall_inv_tail HP)) as [J1 J2]. cbn [map fold_right snd] in *.
        split; [apply pow2_max; [exact (Forall_inv HP)|exact J1]|]. constructor; [cbn [snd]; lia|].
        eapply Forall_impl; [|exact J2]. cbn beta. intros nf Hnf. lia. }
    destruct HM as [HM1 HM2].
    assert (HA : pow2 (vec4_round l M) /\ M <= vec4_round l M).
    { destruct l; cbn [vec4_round]; [|split; [assumption|lia]]. rewrite round_up_pow2_16 by assumption.
      split; [apply pow2_max; [exists 4; reflexivity|assumption]|lia]. }
    destruct HA as [HA1 HA2]. apply X5; [now apply pow2_pos| |reflexivity].
    rewrite Forall_forall in HP, HM2 |- *. intros nf Hin. apply pow2_divide; [now apply HP|assumption|]. specialize (HM2 nf Hin). cbn beta in HM2. lia. }
  exists (render 0 ps), xs, (N.to_nat (gsize l (GStruct "" gs) - end_of 0 ps)).
  split; [exact D|]. split; [exact X1|]. split; [|rewrite I1; exact Hpadded]. exists Q. rewrite gplaces_struct. split; [exact X2|].
  remember (N.to_nat (gsize l (GStruct "" gs) - end_of 0 ps)) as k eqn:Ek.
  replace (gsize l (GStruct "" gs)) with (end_of 0 ps + N.of_nat k) by lia.
  now apply image_extend.
Qed.

(** ** Examples *)

(** the README's count followed by a slice of lights (nothing missing at the end), and a
    block ending in a slice of [vec3] (four zero bytes missing) *)
Definition tail_block : block := [("a", MVal (HPrim PF32) (bits 5)); ("b", MSlice vec3f [v3 1 2 3; v3 4 5 6])].
Lemma C73_ex_proof :
  (block_plain lights_block = true /\ block_ok x86_64 L140 lights_block /\ slices_ok L140 lights_block /\ gaps_ok L140 lights_block
   /\ exists gs w, block_gty lights_block = Some gs
      /\ write_vals x86_64 L140 vec_sink (block_wvals lights_block) (writer_new []) = (w, ([0; 16], None))
      /\ len (w_inner w) = 80 /\ gsize L140 (GStruct "" gs) = 80)
  /\ (block_plain tail_block = true /\ block_ok x86_64 L430 tail_block /\ slices_ok L430 tail_block /\ gaps_ok L430 tail_block
   /\ exists gs w, block_gty tail_block = Some gs
      /\ write_vals x86_64 L430 vec_sink (block_wvals tail_block) (writer_new []) = (w, ([0; 16], None))
      /\ len (w_inner w) = 44 /\ gsize L430 (GStruct "" gs) = 48).
Proof.
  destruct C38_ex_proof as [_ [A [B _]]]. split.
  - split; [reflexivity|]. split; [exact A|]. split; [exact B|]. split.
    + cbn [gaps_ok lights_block]. split; [|exact I]. intros h vs g g' E. discriminate.
    + do 2 eexists. conjs; vm_compute; reflexivity.
  - split; [reflexivity|]. split; [|split; [|split]].
    + repeat (apply Forall_cons; [split; [eexists; vm_compute; reflexivity|repeat constructor]|]). apply Forall_nil.
    + intros f h vs g _ _. now left.
    + cbn [gaps_ok tail_block]. split; [|exact I]. intros h vs g g' E. discriminate.
    + do 2 eexists. conjs; vm_compute; reflexivity.
Qed.
