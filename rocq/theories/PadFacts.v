(** * Padding bytes, comparison of the two layouts *)

From Coq Require Import NArith String Bool List Lia ZArith.
From Coq Require Import ZifyBool ZifyN ZifyNat.
From Coq Require Import Strings.Byte.
From Verif Require Import Rust Internal Prims Derive Host SpecGlsl SpecHost Arith RustFacts DeriveFacts TypeFacts HostFacts GlslFacts.
Import ListNotations.
Local Open Scope string_scope.
Local Open Scope N_scope.

(** ** Zero padding *)

Lemma field_pos_ge tg decl f : forall cur o, field_pos tg cur decl f = Some o -> cur <= o.
Proof.
  induction decl as [|[g t] decl IH]; intros cur o H; [discriminate|]. cbn [field_pos] in H.
  destruct (String.eqb f g); [injection H as <-; lia|]. apply IH in H. lia.
Qed.

Lemma field_pos_shift tg decl f : forall cur d, field_pos tg (cur + d) decl f
  = match field_pos tg cur decl f with Some o => Some (o + d) | None => None end.
Proof.
  induction decl as [|[g t] decl IH]; intros cur d; [reflexivity|]. cbn [field_pos].
  destruct (String.eqb f g); [reflexivity|].
  replace (cur + d + size_of tg t) with (cur + size_of tg t + d) by lia. apply IH.
Qed.

Lemma flat_fields_byte tg decl : forall ss i,
  all_nopad tg decl -> fields_ok decl ss = true -> NoDup (map fst decl) -> i < sizes tg decl ->
  exists f ft sf o, In (f, ft) decl /\ assoc f ss = Some sf /\ has_sty ft sf = true
  /\ field_pos tg 0 decl f = Some o /\ o <= i /\ i < o + size_of tg ft
  /\ nth_error (flat_fields tg decl ss) (N.to_nat i) = nth_error (flat tg ft sf) (N.to_nat (i - o)).
Proof.
  induction decl as [|[f ft] decl IH]; intros [|[f' s] ss] i Hn Hok Hnd Hi; try discriminate Hok; [cbn in Hi; lia|].
  cbn [fields_ok] in Hok. rewrite !andb_true_iff in Hok. destruct Hok as [[H1 H2] H3].
  apply String.eqb_eq in H1. subst f'. inversion Hn as [|? ? Hn1 Hn2]; subst. cbn [snd] in Hn1.
  cbn [map fst] in Hnd. inversion Hnd as [|? ? N1 N2]; subst.
  cbn [sizes] in Hi. cbn [flat_fields].
  assert (L : len (flat tg ft s) = size_of tg ft) by (now apply len_flat).
  destruct (N.lt_ge_cases i (size_of tg ft)) as [Hlt|Hge].
  - exists f, ft, s, 0. rewrite assoc_cons, String.eqb_refl. cbn [field_pos]. rewrite String.eqb_refl.
    repeat (split; [reflexivity || assumption || lia || (now left)|]).
    rewrite N.sub_0_r. apply nth_error_app1. unfold len in L. lia.
  - destruct (IH ss (i - size_of tg ft) Hn2 H3 N2) as [g [gt [sg [o [A1 [A2 [A3 [A4 [A5 [A6 A7]]]]]]]]]]; [lia|].
    exists g, gt, sg, (o + size_of tg ft).
    assert (Hne : String.eqb g f = false).
    { apply String.eqb_neq. intros ->. apply N1. apply in_map_iff. exists (f, gt). auto. }
    rewrite assoc_cons, Hne. cbn [field_pos]. rewrite Hne.
    split; [now right|]. split; [assumption|]. split; [assumption|]. split.
    { rewrite (field_pos_shift tg decl g 0 (size_of tg ft)), A4. reflexivity. }
    split; [lia|]. split; [lia|].
    rewrite nth_error_app2 by (unfold len in L; lia).
    replace (N.to_nat i - length (flat tg ft s))%nat with (N.to_nat (i - size_of tg ft)) by (unfold len in L; lia).
    rewrite A7. f_equal. lia.
Qed.

Lemma flat_zeroed_byte tg t i : nopad tg t = true -> i < size_of tg t ->
  nth_error (flat tg t (zeroed t)) (N.to_nat i) = Some x00.
Proof.
  intros Hn Hi. rewrite flat_zeroed by assumption.
  assert (H : (N.to_nat i < N.to_nat (size_of tg t))%nat) by lia. revert H.
  generalize (N.to_nat i) as k. generalize (N.to_nat (size_of tg t)) as m.
  induction m as [|m IH]; intros [|k] Hk; try lia; cbn [repeat nth_error]; [reflexivity|].
  apply IH. lia.
Qed.

Lemma updated_assoc_inv decl inits f ft s : NoDup (map fst decl) -> In (f, ft) decl ->
  assoc f (updated decl inits) = Some s ->
  assoc f inits = Some s \/ (assoc f inits = None /\ s = zeroed ft).
Proof.
  intros Hn Hin H.
  assert (E : assoc f (updated decl inits) = Some (match assoc f inits with Some v => v | None => zeroed ft end)).
  { apply assoc_nodup; [now rewrite updated_names|]. unfold updated. apply in_map_iff. exists (f, ft). auto. }
  rewrite H in E. injection E as ->. destruct (assoc f inits); auto.
Qed.

Fixpoint gcovers_fields (l : lay) (i cur : N) (fs : list (string * gty)) : bool :=
  match fs with
  | [] => false
  | (_, ft) :: fs' =>
    let o := round_up cur (base_align l ft) in
    ((o <=? i) && gcovers l ft (i - o)) || gcovers_fields l i (o + gsize l ft) fs'
  end.

Lemma gcovers_struct l n gs i : gcovers l (GStruct n gs) i = gcovers_fields l i 0 gs.
Proof.
  cbn [gcovers]. generalize 0 as cur. induction gs as [|[f g] gs IH]; intros cur; [reflexivity|].
  cbn [gcovers_fields]. rewrite <- IH. reflexivity.
Qed.

Lemma gcovers_fields_false l i gs : forall cur, gcovers_fields l i cur gs = false ->
  Forall2 (fun g o => o <= i -> gcovers l (snd g) (i - o) = false) gs (member_offsets cur (gmembers l gs)).
Proof.
  induction gs as [|[f g] gs IH]; intros cur H; [constructor|].
  cbn [gcovers_fields] in H. apply orb_false_iff in H. destruct H as [H1 H2].
  cbn [gmembers map member_offsets snd]. constructor; [|now apply IH].
  cbn [snd]. intros Hle. apply andb_false_iff in H1. destruct H1 as [H1|H1]; [|exact H1].
  apply N.leb_gt in H1. lia.
Qed.

Definition pad_ok (tg : target) (h : hty) : Prop := forall l t g v s i,
  no_raw h = true -> out_ty tg l h = Some t -> gty_of h = Some g -> hval_ok tg h v = true ->
  as_std tg l h v = Some s -> i < size_of tg t -> gcovers l g i = false ->
  nth_error (flat tg t s) (N.to_nat i) = Some x00.

Lemma strided_covers_false cov stride n i k : strided_covers cov stride n i = false ->
  (k < n)%nat -> N.of_nat k * stride <= i -> cov (i - N.of_nat k * stride) = false.
Proof.
  intros H Hk Hle. destruct (cov (i - N.of_nat k * stride)) eqn:E; [|reflexivity].
  exfalso. assert (strided_covers cov stride n i = true); [|congruence].
  unfold strided_covers. apply existsb_exists. exists k. split; [apply in_seq; lia|].
  rewrite E, andb_true_r. now apply N.leb_le.
Qed.

Lemma conv_assoc tg l fs vs outs ss f s : conv tg l fs vs outs ss -> assoc f ss = Some s ->
  exists h w t, assoc f fs = Some h /\ assoc f vs = Some w /\ assoc f outs = Some t
  /\ out_ty tg l h = Some t /\ hval_ok tg h w = true /\ as_std tg l h w = Some s.
Proof.
  induction 1 as [|f0 h w t s0 fs vs outs ss H1 H2 H3 H4 H5 _ IH]; [discriminate|].
  rewrite !assoc_cons. destruct (String.eqb f f0); [|exact IH].
  intros E. injection E as <-. exists h, w, t. auto 7.
Qed.

Lemma assoc_gfields fs gs f h : gfields_of fs = Some gs -> assoc f fs = Some h ->
  exists g, assoc f gs = Some g /\ gty_of h = Some g.
Proof.
  intros H. apply gfields_Forall2 in H.
  apply (Forall2_assoc (fun h g => gty_of h = Some g)). exact H.
Qed.

Theorem pad_all tg : target_ok tg = true -> forall h, pad_ok tg h.
Proof.
  intros Htg. induction h as [p| |r std fs IH|r m IH|h IH|n fs IH|l' h IH] using hty_ind';
    intros l t g v s i Hraw Ho Hg Hv Hs Hi Hc.
  - exfalso. cbn [out_ty gty_of] in *. destruct (std_align l (TPrim p)); [|discriminate]. injection Ho as <-.
    destruct p; cbn in Hg; try discriminate; injection Hg as <-; cbn in Hc, Hi; apply N.ltb_ge in Hc; unfold size_of in Hi; cbn in Hi; lia.
  - exfalso. cbn [out_ty gty_of] in *. injection Ho as <-. injection Hg as <-.
    cbn in Hc. apply N.ltb_ge in Hc; unfold size_of in Hi; cbn in Hi; lia.
  - destruct v as [| |vs| | |]; try discriminate. rewrite hval_ok_easy in Hv.
    destruct (as_std_easy_detail _ _ _ _ _ _ _ Htg Ho Hv) as [outs [inits [ln [n [al [decl [E1 [Et [E2 [Hn [Hnd [Hd [Hconv E3]]]]]]]]]]]]].
    rewrite E3 in Hs. injection Hs as <-.
    destruct (gty_of_HEasy _ _ _ _ Hg) as [gs [G1 [G2 [G3 G4]]]].
    destruct (table_shape tg l std g t Htg G1 E1) as [n' [al' [decl' [T1 [T2 [T3 [T4 [T5 [_ T6]]]]]]]]].
    rewrite T1 in Et. injection Et as <- <- <- <-. subst al'.
    assert (Hgood : good tg l t) by (eapply table_good; eassumption).
    pose proof (good_nopad _ _ _ Hgood) as Hnp0.
    destruct (conv_total tg Htg _ l t Ho) as [Hc1 _].
    destruct (Hc1 (HVRec vs)) as [s' [Q1 [Q2 _]]]; [now rewrite hval_ok_easy|].
    rewrite E3 in Q1. injection Q1 as <-.
    subst t. rewrite nopad_size_of in Hi by assumption. rewrite has_sty_struct in Q2.
    pose proof (nopad_all _ _ _ _ _ Hnp0) as Hnp.
    rewrite flat_struct.
    destruct (flat_fields_byte tg decl' (updated decl' inits) i Hnp Q2 Hnd Hi) as [f [ft [sf [o [B1 [B2 [B3 [B4 [B5 [B6 B7]]]]]]]]]].
    rewrite B7.
    destruct (updated_assoc_inv decl' inits f ft sf Hnd B1 B2) as [U|[U ->]].
    + destruct (conv_assoc _ _ _ _ _ _ _ _ Hconv U) as [hf [w [ct [C1 [C2 [C3 [C4 [C5 C6]]]]]]]].
      assert (ct = ft).
      { pose proof (Hd f ct (assoc_in _ _ _ C3)) as E. rewrite (assoc_nodup f ft decl' Hnd B1) in E. congruence. }
      subst ct.
      assert (Hin : In f (firstn (ncomps g) comp_names)).
      { apply G4. apply in_map_iff. exists (f, hf). split; [reflexivity|now apply assoc_in]. }
      apply In_nth_error in Hin. destruct Hin as [k Hk].
      rewrite (T6 k f Hk) in B4. injection B4 as <-.
      destruct (assoc_gfields _ _ _ _ G2 C1) as [gc [D1 D2]].
      destruct (G3 f (nth_error_In _ _ Hk)) as [gc' [D3 D4]]. rewrite D1 in D3. injection D3 as <-.
      apply is_comp_eq in D4. destruct D4 as [-> _].
      assert (Hkl : (k < ncomps g)%nat).
      { assert (k < length (firstn (ncomps g) comp_names))%nat by (apply nth_error_Some; congruence).
        rewrite firstn_length in H. lia. }
      rewrite gcovers_comps in Hc by assumption.
      pose proof (strided_covers_false _ _ _ _ k Hc Hkl B5) as Hcf.
      pose proof (proj1 (Forall_forall _ _) IH _ (assoc_in _ _ _ C1)) as IHf. cbn [snd] in IHf.
      apply (IHf l ft (cgty g) w sf); try assumption; [|lia].
      cbn [no_raw] in Hraw. rewrite forallb_forall in Hraw. apply (Hraw _ (assoc_in _ _ _ C1)).
    + apply flat_zeroed_byte; [|lia]. apply (proj1 (Forall_forall _ _) Hnp _ B1).
  - cbn [no_raw out_ty gty_of] in *. destruct v; try discriminate. cbn [hval_ok as_std] in *. eapply IH; eassumption.
  - discriminate.
  - destruct v as [| |vs| | |]; try discriminate. rewrite hval_ok_struct in Hv.
    destruct (as_std_struct_detail _ _ _ _ _ _ Htg Ho Hv) as [outs [inits [E1 [Et [_ [_ [Hconv E3]]]]]]].
    rewrite E3 in Hs. injection Hs as <-.
    destruct (struct_members _ _ _ _ _ _ Htg Ho Hg) as [outs' [gs [E1' [E2 [-> [_ [Hn [Hnd [Hd [HG [Hsz Hpos]]]]]]]]]]].
    rewrite E1 in E1'. injection E1' as <-.
    destruct (conv_total tg Htg _ l t Ho) as [Hc1 _].
    destruct (Hc1 (HVRec vs)) as [s' [Q1 [Q2 _]]]; [now rewrite hval_ok_struct|].
    rewrite E3 in Q1. injection Q1 as <-.
    destruct (derived_props tg l n outs HG) as [Hgood [Hsize _]]. subst t.
    rewrite Hsize in Hi. unfold derived in *. rewrite has_sty_struct in Q2.
    pose proof (nopad_all _ _ _ _ _ (good_nopad _ _ _ Hgood)) as Hnp.
    rewrite flat_struct. set (decl := derived_fields tg l outs) in *.
    destruct (flat_fields_byte tg decl (updated decl inits) i Hnp Q2 Hnd Hi) as [f [ft [sf [o [B1 [B2 [B3 [B4 [B5 [B6 B7]]]]]]]]]].
    rewrite B7.
    destruct (updated_assoc_inv decl inits f ft sf Hnd B1 B2) as [U|[U ->]].
    + destruct (conv_assoc _ _ _ _ _ _ _ _ Hconv U) as [hf [w [ct [C1 [C2 [C3 [C4 [C5 C6]]]]]]]].
      assert (ct = ft).
      { pose proof (Hd f ct (assoc_in _ _ _ C3)) as E. fold decl in E. rewrite (assoc_nodup f ft decl Hnd B1) in E. congruence. }
      subst ct.
      destruct (assoc_gfields _ _ _ _ E2 C1) as [gf [D1 D2]].
      rewrite gcovers_struct in Hc. apply gcovers_fields_false in Hc. fold (goffsets l gs) in Hc.
      assert (Hcf : gcovers l gf (i - o) = false).
      { clear -Hc Hpos D1 B4 B5. revert Hc Hpos. generalize (goffsets l gs) as os.
        induction gs as [|[f' g'] gs IHg]; intros os Hc Hpos; [discriminate|].
        inversion Hc as [|? o1 ? os' A1 A2]; subst. inversion Hpos as [|? ? ? ? P1 P2]; subst.
        rewrite assoc_cons in D1. destruct (String.eqb_spec f f') as [->|].
        - injection D1 as ->. cbn [fst snd] in *. rewrite B4 in P1. injection P1 as <-. now apply A1.
        - eauto. }
      pose proof (proj1 (Forall_forall _ _) IH _ (assoc_in _ _ _ C1)) as IHf. cbn [snd] in IHf.
      apply (IHf l ft gf w sf); try assumption; [|lia].
      cbn [no_raw] in Hraw. rewrite forallb_forall in Hraw. apply (Hraw _ (assoc_in _ _ _ C1)).
    + apply flat_zeroed_byte; [|lia]. apply (proj1 (Forall_forall _ _) Hnp _ B1).
  - discriminate.
Qed.

(** ** std430 never exceeds std140 *)

Lemma bump_mono x y a b : x <= y -> a = 0 \/ (a | b) /\ b <> 0 ->
  x + align_offset x a <= y + align_offset y b.
Proof.
  intros Hle [->|[D Hb]]; [rewrite align_offset_0; lia|].
  destruct (N.eq_dec a 0) as [->|Ha]; [rewrite align_offset_0; lia|].
  destruct (align_offset_divide y b) as [D2|]; [|contradiction].
  apply align_offset_least; [lia|lia|]. now transitivity b.
Qed.

Definition le_al (a b : N) : Prop := a = 0 \/ (a | b) /\ b <> 0.

Lemma le_al_le a b : le_al a b -> a <= b.
Proof. intros [->|[D H]]; [lia|]. apply N.divide_pos_le; [lia|assumption]. Qed.

Definition le_fields (tg : target) (o1 o2 : list (string * sty)) : Prop :=
  Forall2 (fun a b => fst a = fst b /\ le_al (alN L430 (snd b)) (alN L140 (snd a))
                      /\ size_of tg (snd b) <= size_of tg (snd a)) o1 o2.

Lemma gen_le tg fin1 fin2 o1 o2 : le_al fin2 fin1 -> le_fields tg o1 o2 -> forall idx c1 c2, c2 <= c1 ->
  c2 + sizes tg (gen_fields tg L430 fin2 idx c2 o2) <= c1 + sizes tg (gen_fields tg L140 fin1 idx c1 o1)
  /\ forall f p1 p2, field_pos tg c1 (gen_fields tg L140 fin1 idx c1 o1) f = Some p1 ->
       field_pos tg c2 (gen_fields tg L430 fin2 idx c2 o2) f = Some p2 -> p2 <= p1.
Proof.
  intros Hfin H. induction H as [|[f1 t1] [f2 t2] o1 o2 [E1 [E2 E3]] H IH]; intros idx c1 c2 Hc.
  - cbn [gen_fields sizes field_pos]. split; [lia|]. discriminate.
  - cbn [fst snd] in *. subst f2. cbn [gen_fields sizes field_pos]. rewrite !size_pad.
    set (e1 := c1 + size_of tg t1). set (e2 := c2 + size_of tg t2).
    set (a1 := match o1 with [] => fin1 | (_, u) :: _ => alN L140 u end).
    set (a2 := match o2 with [] => fin2 | (_, u) :: _ => alN L430 u end).
    assert (Ha : le_al a2 a1).
    { unfold a1, a2. destruct H as [|[g1 u1] [g2 u2] o1 o2 [_ [F _]] H]; [exact Hfin|exact F]. }
    assert (Hb : e2 + align_offset e2 a2 <= e1 + align_offset e1 a1).
    { apply bump_mono; [unfold e1, e2; lia|exact Ha]. }
    destruct (IH (S idx) _ _ Hb) as [I1 I2]. split.
    + unfold e1, e2 in *. lia.
    + intros f p1 p2. destruct (String.eqb f f1); [intros P1 P2; injection P1 as <-; injection P2 as <-; exact Hc|].
      destruct (String.eqb f (pad_field_name idx)).
      * intros P1 P2; injection P1 as <-; injection P2 as <-. unfold e1, e2 in *. lia.
      * replace (e1 + align_offset e1 a1) with (e1 + align_offset e1 a1) by reflexivity. apply I2.
Qed.

Definition layout_le_b (tg : target) (nm : string) : bool :=
  match find_std L140 nm, find_std L430 nm with
  | Some t1, Some t2 =>
    (size_of tg t2 <=? size_of tg t1) && (alN L430 t2 <=? alN L140 t1)
  | _, _ => false
  end.

Lemma le_al_pow2 a b : pow2_0 a -> pow2_0 b -> a <= b -> le_al a b.
Proof.
  intros [->|Pa] Pb H; [now left|]. right. pose proof (pow2_pos _ Pa).
  destruct Pb as [->|Pb]; [lia|]. split; [now apply pow2_divide|]. pose proof (pow2_pos _ Pb). lia.
Qed.

Theorem layout_le tg : target_ok tg = true -> forall h t1 t2,
  out_ty tg L140 h = Some t1 -> out_ty tg L430 h = Some t2 ->
  le_al (alN L430 t2) (alN L140 t1) /\ size_of tg t2 <= size_of tg t1.
Proof.
  intros Htg. induction h as [p| |r std fs IH|r m IH|h IH|n fs IH|l' h IH] using hty_ind'; intros t1 t2 H1 H2.
  - cbn [out_ty] in *. destruct p; try discriminate; injection H1 as <-; injection H2 as <-;
      (split; [right; split; [apply N.divide_refl|discriminate]|lia]).
  - cbn [out_ty] in *. injection H1 as <-; injection H2 as <-.
    split; [right; split; [apply N.divide_refl|discriminate]|lia].
  - pose proof (out_ty_good tg Htg _ _ _ H1) as G1. pose proof (out_ty_good tg Htg _ _ _ H2) as G2.
    destruct (easy_facts _ _ _ _ _ _ H1) as [? [? [? [? [? [E1 _]]]]]].
    destruct (easy_facts _ _ _ _ _ _ H2) as [? [? [? [? [? [E2 _]]]]]].
    assert (Hall : forallb (layout_le_b tg) table_names = true).
    { clear -Htg. all_targets tg Htg; vm_compute; reflexivity. }
    rewrite forallb_forall in Hall. specialize (Hall _ (find_std_names _ _ _ E1)).
    unfold layout_le_b in Hall. rewrite E1, E2 in Hall. apply andb_true_iff in Hall. destruct Hall as [A B].
    apply N.leb_le in A, B. split; [|exact A].
    apply le_al_pow2; [eapply good_alN_pow2; eassumption|eapply good_alN_pow2; eassumption|exact B].
  - cbn [out_ty] in *. eauto.
  - cbn [out_ty] in H2. discriminate.
  - pose proof (out_ty_good tg Htg _ _ _ H1) as G1. pose proof (out_ty_good tg Htg _ _ _ H2) as G2.
    destruct (struct_facts _ _ _ _ _ Htg H1) as [o1 [E1 [_ [_ [_ [HG1 ->]]]]]].
    destruct (struct_facts _ _ _ _ _ Htg H2) as [o2 [E2 [_ [_ [_ [HG2 ->]]]]]].
    assert (HL : le_fields tg o1 o2).
    { apply out_fields_Forall2 in E1, E2. clear -IH E1 E2. revert o2 E2.
      induction E1 as [|[f h] [f' t] fs o1 [A1 A2] _ IHE]; intros o2 E2; inversion E2 as [|? [g u] ? o2' [B1 B2] E2']; subst; constructor.
      - cbn [fst snd] in *. inversion IH as [|? ? I1 I2]; subst. cbn [snd] in I1.
        split; [congruence|]. now apply I1.
      - apply IHE; [now inversion IH|assumption]. }
    assert (Hfin : struct_al L430 o2 <= struct_al L140 o1).
    { unfold struct_al. cbn [fold_right min_struct_alignment]. 
      assert (fold_right N.max 0 (map (fun f => alN L430 (snd f)) o2) <= fold_right N.max 0 (map (fun f => alN L140 (snd f)) o1)).
      { clear -HL. induction HL as [|a b o1 o2 [_ [A _]] _ IH]; cbn [map fold_right]; [lia|]. apply le_al_le in A. lia. }
      lia. }
    assert (Hfin' : le_al (struct_al L430 o2) (struct_al L140 o1)).
    { apply le_al_pow2; [now apply (struct_al_pow2 tg)|now apply (struct_al_pow2 tg)|exact Hfin]. }
    split.
    + unfold alN, derived. cbn [std_align lay_eqb]. exact Hfin'.
    + destruct (derived_props tg L140 n o1 HG1) as [_ [S1 _]]. destruct (derived_props tg L430 n o2 HG2) as [_ [S2 _]].
      rewrite S1, S2. destruct (gen_le tg _ _ o1 o2 Hfin' HL 0 0 0) as [I1 _]; [lia|].
      unfold derived_fields. lia.
  - destruct (out_ty_HOut _ _ _ _ _ H1) as [A1 _]. destruct (out_ty_HOut _ _ _ _ _ H2) as [A2 _]. eauto.
Qed.

Theorem offsets_le tg name fs t1 t2 f p1 p2 : target_ok tg = true ->
  out_ty tg L140 (HStruct name fs) = Some t1 -> out_ty tg L430 (HStruct name fs) = Some t2 ->
  assoc f (field_offsets tg t1) = Some p1 -> assoc f (field_offsets tg t2) = Some p2 -> p2 <= p1.
Proof.
  intros Htg H1 H2 P1 P2.
  pose proof (out_ty_good tg Htg _ _ _ H1) as G1. pose proof (out_ty_good tg Htg _ _ _ H2) as G2.
  destruct (struct_facts _ _ _ _ _ Htg H1) as [o1 [E1 [_ [_ [_ [HG1 ->]]]]]].
  destruct (struct_facts _ _ _ _ _ Htg H2) as [o2 [E2 [_ [_ [_ [HG2 ->]]]]]].
  unfold derived in *. rewrite field_offsets_pos in P1, P2 by (eapply good_nopad; eassumption).
  assert (HL : le_fields tg o1 o2).
  { apply out_fields_Forall2 in E1, E2. clear -Htg E1 E2. revert o2 E2.
    induction E1 as [|[g h] [f' t] fs o1 [A1 A2] _ IHE]; intros o2 E2; inversion E2 as [|? [g2 u] ? o2' [B1 B2] E2']; subst; constructor.
    - cbn [fst snd] in *. split; [congruence|]. eapply layout_le; eassumption.
    - now apply IHE. }
  assert (Hfin : le_al (struct_al L430 o2) (struct_al L140 o1)).
  { destruct (layout_le tg Htg (HStruct name fs) _ _ H1 H2) as [A _].
    unfold alN, derived in A. cbn [std_align lay_eqb] in A. exact A. }
  destruct (gen_le tg _ _ o1 o2 Hfin HL 0 0 0) as [_ I2]; [lia|]. eapply I2; eassumption.
Qed.

(** ** Types with the same bytes in both layouts *)

Fixpoint erase (t : sty) : sty :=
  match t with
  | TPrim p => TPrim p
  | TArray p n => TArray p n
  | TStruct _ n _ fs => TStruct L140 n 0 (map (fun nf => (fst nf, erase (snd nf))) fs)
  | TDyn t' => TDyn (erase t')
  end.

Lemma flat_erase tg t : forall s, flat tg (erase t) s = flat tg t s.
Proof.
  induction t as [p|p n|l n al fs IH|t IH] using sty_ind'; intros s; try reflexivity.
  - destruct s as [| |ss|]; try reflexivity. cbn [erase]. rewrite !flat_struct. revert ss.
    induction IH as [|[f t] fs Ht _ IHfs]; intros [|[g s] ss]; try reflexivity.
    cbn [map flat_fields fst snd]. rewrite IHfs. cbn [snd] in Ht. now rewrite Ht.
  - destruct s; try reflexivity. cbn [erase flat]. apply IH.
Qed.

Lemma zeroed_erase t : zeroed (erase t) = zeroed t.
Proof.
  induction t as [p|p n|l n al fs IH|t IH] using sty_ind'; try reflexivity.
  - cbn [erase zeroed]. f_equal. rewrite map_map. cbn [fst snd].
    induction IH as [|[f t] fs Ht _ IHfs]; [reflexivity|]. cbn [map fst snd]. cbn [snd] in Ht. now rewrite Ht, IHfs.
  - cbn [erase zeroed]. now rewrite IH.
Qed.

Lemma struct_update_erase t inits : struct_update (erase t) inits = struct_update t inits.
Proof.
  pose proof (zeroed_erase t) as E.
  destruct t as [p|p n|l n al fs|t]; try reflexivity.
  cbn [erase] in *. unfold struct_update. rewrite E. rewrite map_map. cbn [fst]. reflexivity.
Qed.

Definition is_mat2 (g : gty) : bool :=
  match g with GMat GFloat 2 2 => true | _ => false end.

Definition simple_gty (g : gty) : bool :=
  match g with
  | GScalar _ | GVec _ _ => true
  | GMat _ _ _ => negb (is_mat2 g)
  | _ => false
  end.

Lemma table_erase name g : assoc name std_names = Some g -> simple_gty g = true ->
  option_map erase (find_std L140 name) = option_map erase (find_std L430 name).
Proof.
  intros H Hs. apply assoc_in in H.
  assert (Hall : forallb (fun e => implb (simple_gty (snd e))
    (match find_std L140 (fst e), find_std L430 (fst e) with
     | Some a, Some b => sty_eqb (erase a) (erase b) | _, _ => false end)) std_names = true) by (vm_compute; reflexivity).
  rewrite forallb_forall in Hall. specialize (Hall _ H). cbn [fst snd] in Hall. rewrite Hs in Hall. cbn [implb] in Hall.
  destruct (find_std L140 name) as [a|]; [|discriminate]. destruct (find_std L430 name) as [b|]; [|discriminate].
  apply sty_eqb_eq in Hall. cbn [option_map]. now rewrite Hall.
Qed.

Theorem same_layout tg : target_ok tg = true -> forall h g t1 t2 v,
  gty_of h = Some g -> simple_gty g = true ->
  out_ty tg L140 h = Some t1 -> out_ty tg L430 h = Some t2 -> hval_ok tg h v = true ->
  erase t1 = erase t2 /\ as_std tg L140 h v = as_std tg L430 h v.
Proof.
  intros Htg. induction h as [p| |r std fs IH|r m IH|h IH|n fs IH|l' h IH] using hty_ind';
    intros g t1 t2 v Hg Hs H1 H2 Hv.
  - cbn [out_ty] in *. destruct p; try discriminate; injection H1 as <-; injection H2 as <-; split; reflexivity.
  - cbn [out_ty] in *. injection H1 as <-; injection H2 as <-; split; reflexivity.
  - destruct (easy_facts _ _ _ _ _ _ H1) as [o1 [? [? [? [? [E1 [F1 [_ [Hn _]]]]]]]]].
    destruct (easy_facts _ _ _ _ _ _ H2) as [o2 [? [? [? [? [E2 [F2 _]]]]]]].
    destruct (gty_of_HEasy _ _ _ _ Hg) as [gs [G1 [G2 [G3 G4]]]].
    pose proof (table_erase _ _ G1 Hs) as Te. rewrite E1, E2 in Te. cbn [option_map] in Te. injection Te as Te.
    split; [exact Te|]. rewrite !as_std_HEasy, E1, E2.
    destruct v as [| |vs| | |]; try discriminate. rewrite hval_ok_easy in Hv.
    assert (Ei : as_inits tg L140 fs (HVRec vs) = as_inits tg L430 fs (HVRec vs)).
    { unfold as_inits. apply map_opt_ext. intros [f hf] Hin. cbn [fst snd].
      change (hfield f (HVRec vs)) with (assoc f vs).
      assert (Hf : assoc f fs = Some hf) by (now apply assoc_nodup).
      assert (exists w, assoc f vs = Some w /\ hval_ok tg hf w = true) as [w [W1 W2]].
      { clear -Hv Hf. revert vs Hv. induction fs as [|[f0 h0] fs IHf]; intros [|[g0 w0] vs] Hv; try discriminate.
        cbn [hfields_ok] in Hv. rewrite !andb_true_iff in Hv. destruct Hv as [[A1 A2] A3]. apply String.eqb_eq in A1. subst g0.
        rewrite (@assoc_cons hty) in Hf. rewrite (@assoc_cons hval). destruct (String.eqb f f0); [injection Hf as ->; eauto|auto]. }
      rewrite W1.
      assert (exists u1, out_ty tg L140 hf = Some u1) as [u1 U1].
      { apply out_fields_Forall2 in F1. destruct (Forall2_assoc (fun h t => out_ty tg L140 h = Some t) fs o1 f hf F1 Hf) as [u [_ U]]. eauto. }
      assert (exists u2, out_ty tg L430 hf = Some u2) as [u2 U2].
      { apply out_fields_Forall2 in F2. destruct (Forall2_assoc (fun h t => out_ty tg L430 h = Some t) fs o2 f hf F2 Hf) as [u [_ U]]. eauto. }
      destruct (assoc_gfields _ _ _ _ G2 Hf) as [gc [D1 D2]].
      assert (Hc : In f (firstn (ncomps g) comp_names)) by (apply G4; apply in_map_iff; exists (f, hf); auto).
      destruct (G3 f Hc) as [gc' [D3 D4]]. rewrite D1 in D3. injection D3 as <-. apply is_comp_eq in D4. destruct D4 as [-> Dv].
      pose proof (proj1 (Forall_forall _ _) IH _ Hin) as IHf. cbn [snd] in IHf.
      destruct (IHf (cgty g) u1 u2 w D2) as [_ E]; try assumption.
      - destruct g; try discriminate; reflexivity.
      - now rewrite E. }
    rewrite Ei. destruct (as_inits tg L430 fs (HVRec vs)); [|reflexivity].
    rewrite <- (struct_update_erase t1), Te, struct_update_erase. reflexivity.
  - cbn [out_ty gty_of] in *. destruct v; try discriminate. cbn [hval_ok as_std] in *. eauto.
  - discriminate.
  - destruct (gty_of_HStruct _ _ _ Hg) as [gs [_ [_ ->]]]. discriminate.
  - cbn [gty_of] in Hg. destruct (out_ty_HOut _ _ _ _ _ H1) as [A1 [A2 A3]]. destruct (out_ty_HOut _ _ _ _ _ H2) as [B1 [B2 B3]].
    rewrite A2 in B2. injection B2 as <-. split; reflexivity.
Qed.
