(** * Proofs: shaders that write buffers, partial updates (C58-C60) *)

From Coq Require Import NArith String Bool List Lia ZArith.
From Coq Require Import ZifyBool ZifyN ZifyNat.
From Coq Require Import Strings.Byte.
From Verif Require Import Rust Internal Prims Derive Host Rows Buffer SpecGlsl SpecHost SpecTypes SpecBuf SpecUse SpecGpu
  Arith RustFacts DeriveFacts TypeFacts HostFacts GlslFacts Proofs_Types Proofs_Use GpuFacts Samples.
Import ListNotations.
Local Open Scope string_scope.
Local Open Scope N_scope.

Lemma hfields_assoc tg f : forall fs vs hf z, hfields_ok tg fs vs = true -> assoc f fs = Some hf -> assoc f vs = Some z ->
  hval_ok tg hf z = true.
Proof.
  induction fs as [|[g h] fs IH]; intros [|[g' w] vs] hf z Hok Hf Hz; try discriminate.
  cbn [hfields_ok] in Hok. rewrite !andb_true_iff in Hok. destruct Hok as [[H1 H2] H3].
  apply String.eqb_eq in H1. subst g'. rewrite assoc_cons in Hz. rewrite (@assoc_cons hty) in Hf.
  destruct (String.eqb f g); [|eauto]. injection Hf as <-. injection Hz as <-. exact H2.
Qed.

Lemma hfields_put tg f z' : forall fs vs hf, hfields_ok tg fs vs = true -> assoc f fs = Some hf -> hval_ok tg hf z' = true ->
  hfields_ok tg fs (put f z' vs) = true.
Proof.
  induction fs as [|[g h] fs IH]; intros [|[g' w] vs] hf Hok Hf Hz; try discriminate.
  cbn [hfields_ok] in Hok. rewrite !andb_true_iff in Hok. destruct Hok as [[H1 H2] H3].
  apply String.eqb_eq in H1. subst g'. rewrite (@assoc_cons hty) in Hf. cbn [put].
  destruct (String.eqb f g); cbn [hfields_ok]; rewrite String.eqb_refl; cbn [andb].
  - injection Hf as ->. now rewrite Hz, H3.
  - rewrite H2. cbn [andb]. eauto.
Qed.

Lemma assigned_ok tg v path w v' : assigned v path w v' -> forall h h', type_at h path h' ->
  hval_ok tg h v = true -> hval_ok tg h' w = true -> hval_ok tg h v' = true.
Proof.
  induction 1 as [v w|vs f r w z z' Hz Ha IH|v f r w v' Ha IH]; intros h h' Ht Hv Hw.
  - inversion Ht; subst; assumption.
  - inversion Ht; subst; try discriminate Hv.
    + rewrite hval_ok_struct in Hv |- *. eapply hfields_put; [exact Hv|eassumption|].
      eapply IH; [eassumption| |exact Hw]. eapply hfields_assoc; eassumption.
    + rewrite hval_ok_easy in Hv |- *. eapply hfields_put; [exact Hv|eassumption|].
      eapply IH; [eassumption| |exact Hw]. eapply hfields_assoc; eassumption.
  - inversion Ht; subst; try discriminate Hv. cbn [hval_ok] in *. eapply IH; eassumption.
Qed.

Lemma gval_fields_put tg f z' y' : forall fs vs xs hf, hfields_ok tg fs vs = true -> assoc f fs = Some hf ->
  gval_of tg hf z' = Some y' -> gval_fields tg fs vs = Some xs ->
  gval_fields tg fs (put f z' vs) = Some (put f y' xs)
  /\ forall z, assoc f vs = Some z -> exists y, gval_of tg hf z = Some y /\ assoc f xs = Some y.
Proof.
  induction fs as [|[g h] fs IH]; intros [|[g' w] vs] xs hf Hok Hf Hy Hxs; try discriminate.
  cbn [hfields_ok] in Hok. rewrite !andb_true_iff in Hok. destruct Hok as [[H1 H2] H3].
  apply String.eqb_eq in H1. subst g'. rewrite (@assoc_cons hty) in Hf. cbn [put]. rewrite assoc_cons.
  cbn [gval_fields] in Hxs. destruct (gval_of tg h w) as [y|] eqn:E1; [|discriminate].
  destruct (gval_fields tg fs vs) as [ys|] eqn:E2; [|discriminate]. injection Hxs as <-.
  rewrite assoc_cons. cbn [put]. destruct (String.eqb f g); cbn [gval_fields].
  - injection Hf as ->. rewrite Hy, E2. split; [reflexivity|]. intros z Hz. injection Hz as <-. eauto.
  - destruct (IH vs ys hf H3 Hf Hy E2) as [A B]. rewrite E1, A. auto.
Qed.

(** the fields of a math type, found by name *)
Definition gval_named (tg : target) (vs : list (string * hval)) (fs : list (string * hty)) : option (list (string * gval)) :=
  map_opt (fun nf => match assoc (fst nf) vs with
                     | Some w => match gval_of tg (snd nf) w with Some x => Some (fst nf, x) | None => None end
                     | None => None end) fs.

Lemma gval_easy tg r std fs vs g : assoc std std_names = Some g -> is_vecmat g = true ->
  gval_of tg (HEasy r std fs) (HVRec vs)
  = match gval_named tg vs fs with
    | Some xs => match map_opt (fun c => assoc c xs) (firstn (ncomps g) comp_names) with
                 | Some comps => Some (gwrap g comps) | None => None end
    | None => None end.
Proof. intros E Hv. cbn [gval_of]. rewrite E. unfold gval_named. destruct g; try discriminate; reflexivity. Qed.

Lemma gval_named_put tg f z' y' vs : forall fs hf, NoDup (map fst fs) -> assoc f fs = Some hf ->
  assoc f vs <> None -> gval_of tg hf z' = Some y' -> forall xs, gval_named tg vs fs = Some xs ->
  gval_named tg (put f z' vs) fs = Some (put f y' xs).
Proof.
  intros fs hf Hnd Hf Hvf Hy. assert (Hother : forall fs, ~ In f (map fst fs) -> gval_named tg (put f z' vs) fs = gval_named tg vs fs).
  { intros gs Hn. apply map_opt_ext. intros [g h] Hin. cbn [fst snd]. rewrite assoc_put.
    destruct (String.eqb_spec g f) as [->|]; [|reflexivity]. exfalso. apply Hn, in_map_iff. now exists (f, h). }
  induction fs as [|[g h] fs IH]; intros xs Hxs; [discriminate|].
  cbn [map fst] in Hnd. inversion Hnd as [|? ? Hn1 Hn2]; subst. rewrite (@assoc_cons hty) in Hf.
  unfold gval_named in *. rewrite map_opt_cons in Hxs |- *. cbn [fst snd] in *. rewrite assoc_put.
  destruct (String.eqb_spec f g) as [->|Hne].
  - injection Hf as ->. rewrite String.eqb_refl. destruct (assoc g vs) as [z|]; [|congruence].
    rewrite Hy. rewrite Hother by assumption.
    destruct (gval_of tg hf z); [|discriminate]. destruct (map_opt _ fs); [|discriminate].
    injection Hxs as <-. cbn [put]. now rewrite String.eqb_refl.
  - destruct (String.eqb_spec g f); [congruence|]. destruct (assoc g vs) as [z|]; [|discriminate].
    destruct (gval_of tg h z); [|discriminate]. destruct (map_opt _ fs) as [ys|] eqn:E; [|discriminate].
    injection Hxs as <-. rewrite (IH Hn2 Hf ys eq_refl). cbn [put]. apply String.eqb_neq in Hne. now rewrite Hne.
Qed.

Lemma gval_named_assoc tg vs f : forall fs xs hf z, gval_named tg vs fs = Some xs -> assoc f fs = Some hf -> assoc f vs = Some z ->
  exists y, gval_of tg hf z = Some y /\ assoc f xs = Some y.
Proof.
  induction fs as [|[g h] fs IH]; intros xs hf z Hxs Hf Hz; [discriminate|].
  unfold gval_named in *. rewrite map_opt_cons in Hxs. cbn [fst snd] in Hxs. rewrite (@assoc_cons hty) in Hf.
  destruct (assoc g vs) as [w|] eqn:Eg; [|discriminate]. destruct (gval_of tg h w) as [x|] eqn:Ex; [|discriminate].
  destruct (map_opt _ fs) as [ys|] eqn:E; [|discriminate]. injection Hxs as <-. rewrite assoc_cons.
  destruct (String.eqb_spec f g) as [->|]; [|eauto]. injection Hf as <-. assert (w = z) as -> by congruence. eauto.
Qed.

Lemma index_of_in f names : In f names -> exists k, index_of f names = Some k.
Proof.
  induction names as [|n names IH]; intros H; [contradiction|]. cbn [index_of].
  destruct (String.eqb_spec f n) as [->|Hn]; [eauto|]. destruct H as [->|H]; [congruence|].
  destruct (IH H) as [k ->]. eauto.
Qed.

Lemma comps_put f (y' : gval) xs : forall cs comps k, NoDup cs -> map_opt (fun c => assoc c xs) cs = Some comps ->
  index_of f cs = Some k ->
  map_opt (fun c => assoc c (put f y' xs)) cs = Some (put_nth (N.to_nat k) y' comps)
  /\ nth_error comps (N.to_nat k) = assoc f xs.
Proof.
  intros cs comps k Hnd Hc Hk.
  assert (Hother : forall cs, ~ In f cs -> map_opt (fun c => assoc c (put f y' xs)) cs = map_opt (fun c => assoc c xs) cs).
  { intros ds Hn. apply map_opt_ext. intros c Hin. rewrite assoc_put. destruct (String.eqb_spec c f) as [->|]; [contradiction|reflexivity]. }
  revert comps k Hc Hk. induction cs as [|c cs IH]; intros comps k Hc Hk; [discriminate|].
  inversion Hnd as [|? ? Hn1 Hn2]; subst. rewrite map_opt_cons in Hc |- *. cbn [index_of] in Hk. rewrite assoc_put.
  destruct (assoc c xs) as [x|] eqn:Ex; [|discriminate]. destruct (map_opt _ cs) as [rest|] eqn:E; [|discriminate].
  injection Hc as <-. destruct (String.eqb_spec f c) as [->|Hne].
  - injection Hk as <-. rewrite String.eqb_refl, Ex, Hother, E by assumption. cbn. auto.
  - destruct (String.eqb_spec c f); [congruence|]. destruct (index_of f cs) as [j|]; [|discriminate]. assert (k = 1 + j) by congruence; subst k.
    destruct (IH Hn2 rest j eq_refl eq_refl) as [A B]. rewrite A. rewrite <- B.
    replace (N.to_nat (1 + j)) with (S (N.to_nat j)) by lia. auto.
Qed.

Lemma map_opt_length {A B} (f : A -> option B) xs : forall ys, map_opt f xs = Some ys -> length ys = length xs.
Proof.
  induction xs as [|x xs IH]; intros ys H; [injection H as <-; reflexivity|]. rewrite map_opt_cons in H.
  destruct (f x); [|discriminate]. destruct (map_opt f xs) as [zs|]; [|discriminate]. injection H as <-. cbn. now rewrite (IH zs).
Qed.

(** assigning on the host and assigning in GLSL correspond *)
Lemma gval_gset tg l x' v path w v' : target_ok tg = true -> assigned v path w v' -> forall h h' t g X, type_at h path h' ->
  out_ty tg l h = Some t -> gty_of h = Some g ->
  hval_ok tg h v = true -> gval_of tg h v = Some X -> gval_of tg h' w = Some x' ->
  exists X', gset X path x' = Some X' /\ gval_of tg h v' = Some X'.
Proof.
  intros Htg. induction 1 as [v w|vs f r w z z' Hz Ha IH|v f r w v' Ha IH]; intros h h' t g X Ht Ho Hg Hv HX Hw.
  - inversion Ht; subst. exists x'. auto.
  - inversion Ht as [|n fs f0 hf r0 h0 Hf Hr|ru std fs f0 hf r0 h0 Hf Hr|]; subst; try discriminate Hv.
    + rewrite hval_ok_struct in Hv. rewrite gval_struct in HX |- *.
      destruct (gval_fields tg fs vs) as [xs|] eqn:Exs; [|discriminate]. injection HX as <-.
      destruct (struct_members tg l n fs t g Htg Ho Hg) as [outs [gs [E [Egs _]]]].
      apply out_fields_Forall2 in E. apply gfields_Forall2 in Egs.
      destruct (Forall2_assoc (fun h t => out_ty tg l h = Some t) _ _ _ _ E Hf) as [tf [_ Hof]].
      destruct (Forall2_assoc (fun h g => gty_of h = Some g) _ _ _ _ Egs Hf) as [gf [_ Hgf]].
      assert (exists Y, gval_of tg hf z = Some Y /\ assoc f xs = Some Y) as [Y [HY1 HY2]].
      { clear - Hv Hf Exs Hz. revert vs xs Hv Exs Hz. induction fs as [|[g h] fs IH]; intros [|[g' w] vs] xs Hok Hxs Hz; try discriminate.
        cbn [hfields_ok] in Hok. rewrite !andb_true_iff in Hok. destruct Hok as [[H1 H2] H3].
        apply String.eqb_eq in H1. subst g'. rewrite (@assoc_cons hty) in Hf. rewrite assoc_cons in Hz.
        cbn [gval_fields] in Hxs. destruct (gval_of tg h w) as [y|] eqn:E1; [|discriminate].
        destruct (gval_fields tg fs vs) as [ys|] eqn:E2; [|discriminate]. injection Hxs as <-. rewrite assoc_cons.
        destruct (String.eqb f g); [injection Hf as <-; injection Hz as <-; eauto|]. eapply IH; eauto. }
      destruct (IH hf h' tf gf Y Hr Hof Hgf (hfields_assoc _ _ _ _ _ _ Hv Hf Hz) HY1 Hw) as [Y' [G1 G2]].
      destruct (gval_fields_put tg f z' Y' fs vs xs hf Hv Hf G2 Exs) as [G3 _].
      cbn [gset]. rewrite HY2, G1, G3. eauto.
    + rewrite hval_ok_easy in Hv.
      destruct (easy_facts _ _ _ _ _ _ Ho) as [outs [ln [n [al [decl [E1 [E2 [Et [Hn [Hnd Hd]]]]]]]]]].
      destruct (gty_of_HEasy _ _ _ _ Hg) as [gs [Eg [Egs [_ Hsub]]]].
      destruct (table_shape tg l std g t Htg Eg E1) as [? [? [? [_ [_ [_ [Hvm [H4 _]]]]]]]].
      rewrite (gval_easy tg ru std fs vs g Eg Hvm) in HX. rewrite (gval_easy tg ru std fs (put f z' vs) g Eg Hvm).

      destruct (gval_named tg vs fs) as [xs|] eqn:Exs; [|discriminate].
      destruct (map_opt (fun c => assoc c xs) (firstn (ncomps g) comp_names)) as [comps|] eqn:Ec; [|discriminate]. injection HX as <-.
      destruct (gval_named_assoc tg vs f fs xs hf z Exs Hf Hz) as [Y [HY1 HY2]].
      apply out_fields_Forall2 in E2. apply gfields_Forall2 in Egs.
      destruct (Forall2_assoc (fun h t => out_ty tg l h = Some t) _ _ _ _ E2 Hf) as [tf [_ Hof]].
      destruct (Forall2_assoc (fun h g => gty_of h = Some g) _ _ _ _ Egs Hf) as [gf [_ Hgf]].
      destruct (IH hf h' tf gf Y Hr Hof Hgf (hfields_assoc _ _ _ _ _ _ Hv Hf Hz) HY1 Hw) as [Y' [G1 G2]].
      rewrite (gval_named_put tg f z' Y' vs fs hf Hn Hf ltac:(congruence) G2 xs Exs).
      destruct (index_of_in f (firstn (ncomps g) comp_names)) as [k Hk].
      { apply Hsub. apply in_map_iff. exists (f, hf). split; [reflexivity|]. now apply assoc_in. }
      destruct (comps_put f Y' xs _ comps k (comp_names_NoDup _) Ec Hk) as [C1 C2].
      rewrite C1. rewrite gset_wrap by assumption.
      assert (length comps = ncomps g) as ->.
      { apply map_opt_length in Ec. rewrite firstn_length in Ec. cbn [comp_names length] in Ec. lia. }
      rewrite Hk, C2, HY2, G1. eauto.
  - inversion Ht; subst; try discriminate Hv. cbn [hval_ok gval_of out_ty gty_of] in *. eapply IH; eassumption.
Qed.

(** ** host values are determined by GLSL values *)
Lemma gval_inj tg l : target_ok tg = true -> forall h t g v v' x, out_ty tg l h = Some t -> gty_of h = Some g -> plain h = true ->
  hval_ok tg h v = true -> hval_ok tg h v' = true -> gval_of tg h v = Some x -> gval_of tg h v' = Some x -> v = v'.
Proof.
  intros Htg. induction h as [p| |r s fs IH|r m IH|h IH|n fs IH|l' h IH] using hty_ind'; intros t g v v' x Ho Hg Hp Hv Hv' Hx Hx'.
  - destruct v, v'; try discriminate. destruct p; try discriminate; cbn [gval_of] in *; congruence.
  - destruct v, v'; try discriminate. cbn [gval_of] in *; congruence.
  - destruct v as [| |vs| | |]; try discriminate Hv. destruct v' as [| |vs'| | |]; try discriminate Hv'. rewrite hval_ok_easy in Hv, Hv'.
    destruct (easy_facts _ _ _ _ _ _ Ho) as [outs [ln [n [al [decl [E1 [E2 [Et [Hn [Hnd Hd]]]]]]]]]].
    destruct (gty_of_HEasy _ _ _ _ Hg) as [gs [Eg [Egs [_ Hsub]]]].
    destruct (table_shape tg l s g t Htg Eg E1) as [? [? [? [_ [_ [_ [Hvm [H4 _]]]]]]]].
    rewrite (gval_easy tg r s fs vs g Eg Hvm) in Hx. rewrite (gval_easy tg r s fs vs' g Eg Hvm) in Hx'.
    destruct (gval_named tg vs fs) as [xs|] eqn:Exs; [|discriminate].
    destruct (gval_named tg vs' fs) as [xs'|] eqn:Exs'; [|discriminate].
    destruct (map_opt (fun c => assoc c xs) _) as [cs|] eqn:Ec; [|discriminate].
    destruct (map_opt (fun c => assoc c xs') _) as [cs'|] eqn:Ec'; [|discriminate].
    assert (cs = cs') as <-. { injection Hx as <-. injection Hx' as Hx'. destruct g; try discriminate Hvm; cbn [gwrap] in Hx'; congruence. }
    apply out_fields_Forall2 in E2. apply gfields_Forall2 in Egs.
    (* each field *)
    assert (HF : forall f hf w w', assoc f fs = Some hf -> assoc f vs = Some w -> assoc f vs' = Some w' -> w = w').
    { intros f hf w w' Hf Hw Hw'.
      destruct (gval_named_assoc tg vs f fs xs hf w Exs Hf Hw) as [y [Y1 Y2]].
      destruct (gval_named_assoc tg vs' f fs xs' hf w' Exs' Hf Hw') as [y' [Y1' Y2']].
      assert (Hin : In f (firstn (ncomps g) comp_names)).
      { apply Hsub. apply in_map_iff. exists (f, hf). split; [reflexivity|]. now apply assoc_in. }
      assert (y = y') as <-.
      { clear - Ec Ec' Hin Y2 Y2'. revert cs Ec Ec'. induction (firstn (ncomps g) comp_names) as [|c ns IHn]; intros cs Ec Ec'; [contradiction|].
        rewrite map_opt_cons in Ec, Ec'. destruct (assoc c xs) eqn:A; [|discriminate]. destruct (assoc c xs') eqn:B; [|discriminate].
        destruct (map_opt (fun c => assoc c xs) ns) as [q|]; [|discriminate]. destruct (map_opt (fun c => assoc c xs') ns) as [q'|]; [|discriminate].
        destruct Hin as [->|Hin]; [congruence|]. apply (IHn Hin q); congruence. }
      destruct (Forall2_assoc (fun h t => out_ty tg l h = Some t) _ _ _ _ E2 Hf) as [tf [_ Hof]].
      destruct (Forall2_assoc (fun h g => gty_of h = Some g) _ _ _ _ Egs Hf) as [gf [_ Hgf]].
      pose proof (proj1 (Forall_forall _ _) IH _ (assoc_in _ _ _ Hf)) as IHf. cbn [snd] in IHf.
      cbn [plain] in Hp. eapply (IHf tf gf); try eassumption.
      - exact (forallb_assoc plain _ _ _ Hp Hf).
      - eapply hfields_assoc; [exact Hv| |]; eassumption.
      - eapply hfields_assoc; [exact Hv'| |]; eassumption. }
    f_equal. clear - HF Hv Hv' Hn. revert vs vs' Hv Hv' HF.
    induction fs as [|[f h] fs IHfs]; intros [|[f1 w] vs] [|[f2 w'] vs'] Hv Hv' HF; try discriminate; [reflexivity|].
    cbn [map fst] in Hn. inversion Hn as [|? ? Hn1 Hn2]; subst.
    cbn [hfields_ok] in Hv, Hv'. rewrite !andb_true_iff in Hv, Hv'. destruct Hv as [[A1 A2] A3], Hv' as [[B1 B2] B3].
    apply String.eqb_eq in A1, B1. subst f1 f2.
    f_equal; [f_equal; apply (HF f h); now rewrite assoc_cons, String.eqb_refl|].
    apply (IHfs Hn2 vs vs' A3 B3). intros f' hf q q' Hf Hq Hq'.
    assert (f' <> f). { intros ->. apply Hn1. apply in_map_iff. exists (f, hf). split; [reflexivity|now apply assoc_in]. }
    apply (HF f' hf); rewrite assoc_cons; destruct (String.eqb_spec f' f); congruence.
  - destruct v, v'; try discriminate. cbn [gval_of hval_ok out_ty gty_of plain] in *. f_equal. eapply IH; eassumption.
  - discriminate.
  - destruct v as [| |vs| | |]; try discriminate Hv. destruct v' as [| |vs'| | |]; try discriminate Hv'. rewrite hval_ok_struct in Hv, Hv'.
    rewrite gval_struct in Hx, Hx'.
    destruct (struct_members tg l n fs t g Htg Ho Hg) as [outs [gs [E [Egs _]]]].
    apply out_fields_Forall2 in E. apply gfields_Forall2 in Egs.
    destruct (gval_fields tg fs vs) as [xs|] eqn:Exs; [|discriminate]. destruct (gval_fields tg fs vs') as [xs'|] eqn:Exs'; [|discriminate].
    assert (xs' = xs) by congruence. subst xs'. clear Hx Hx' Ho Hg. cbn [plain] in Hp. f_equal.
    revert outs E gs Egs vs vs' xs Exs Exs' Hv Hv'.
    induction fs as [|[f h] fs IHfs]; intros outs E gs Egs [|[f1 w] vs] [|[f2 w'] vs'] xs Exs Exs' Hv Hv'; try discriminate; [reflexivity|].
    inversion IH; subst. inversion E as [|? [? ?] ? ? [? ?] ?]; subst. inversion Egs as [|? [? ?] ? ? [? ?] ?]; subst. cbn [fst snd] in *.
    cbn [forallb snd] in Hp. apply andb_true_iff in Hp. destruct Hp as [Hp1 Hp2].
    cbn [hfields_ok] in Hv, Hv'. rewrite !andb_true_iff in Hv, Hv'. destruct Hv as [[A1 A2] A3], Hv' as [[B1 B2] B3].
    apply String.eqb_eq in A1, B1. subst f1 f2. cbn [gval_fields] in Exs, Exs'.
    destruct (gval_of tg h w) as [y|] eqn:Ey; [|discriminate]. destruct (gval_of tg h w') as [y'|] eqn:Ey'; [|discriminate].
    destruct (gval_fields tg fs vs) as [ys|] eqn:Eys; [|discriminate]. destruct (gval_fields tg fs vs') as [ys'|] eqn:Eys'; [|discriminate].
    injection Exs as <-. injection Exs' as -> ->.
    f_equal; [f_equal; eapply H1; eassumption|]. eapply IHfs; eassumption.
  - discriminate.
Qed.

(** ** facts about reading on the host *)
Lemma host_reads_facts tg l h t g buf off v : target_ok tg = true -> out_ty tg l h = Some t -> gty_of h = Some g ->
  host_reads tg l h buf off v -> hval_ok tg h v = true /\ off + size_of tg t <= len buf
  /\ exists x, gval_of tg h v = Some x /\ gread tg l g buf off = Some x.
Proof.
  intros Htg Ho Hg [t' [bs [s [Ho' [Hr [Hb Hs]]]]]]. assert (t' = t) as -> by congruence.
  destruct (C24_host_reads_gpu_value_proof tg l h t g buf off bs Htg Ho Hg Hr) as [s' [v' [x [A [B [C [D F]]]]]]].
  assert (s' = s) as -> by congruence. assert (v' = v) as -> by congruence.
  split; [assumption|]. split; [|eauto].
  unfold read_at in Hr. destruct (N.leb_spec (off + size_of tg t) (len buf)); [assumption|discriminate].
Qed.

Lemma host_reads_exists tg l h t buf off : target_ok tg = true -> out_ty tg l h = Some t ->
  off + size_of tg t <= len buf -> exists v, host_reads tg l h buf off v.
Proof.
  intros Htg Ho Hl.
  assert (exists bs, read_at buf off (size_of tg t) = Some bs) as [bs Hr].
  { unfold read_at. destruct (N.leb_spec (off + size_of tg t) (len buf)); [eauto|lia]. }
  pose proof (good_nopad _ _ _ (out_ty_good tg Htg h l t Ho)) as G.
  destruct (from_bytes_total tg t bs G (read_at_len _ _ _ _ Hr)) as [s [A [B C]]].
  destruct (conv_total tg Htg h l t Ho) as [_ Hc]. destruct (Hc s B) as [v [V1 V2]].
  exists v, t, bs, s. auto.
Qed.

Lemma host_reads_of tg l h t g buf off v x : target_ok tg = true -> out_ty tg l h = Some t -> gty_of h = Some g ->
  plain h = true -> off + size_of tg t <= len buf -> hval_ok tg h v = true -> gval_of tg h v = Some x -> gread tg l g buf off = Some x ->
  host_reads tg l h buf off v.
Proof.
  intros Htg Ho Hg Hp Hl Hv Hx Hr. destruct (host_reads_exists tg l h t buf off Htg Ho Hl) as [v' H].
  destruct (host_reads_facts tg l h t g buf off v' Htg Ho Hg H) as [A [_ [x' [B C]]]].
  replace v with v'; [exact H|]. assert (x' = x) as -> by congruence.
  eapply (gval_inj tg l Htg h t g); eassumption.
Qed.

(** C59.  A shader assigns [x] to the part of a block that a path of names denotes
    (["light"; "color"; "z"]); [x] is the GLSL value of the Rust value [w].  Then the host
    reads from the block what it would have read before, with the same Rust assignment
    [v.light.color.z = w] made to it: exactly the assigned part changes. *)
Lemma C59_shader_assignment_proof : forall tg l h t g h' path o g' v w v' x buf buf' off,
  target_ok tg = true -> out_ty tg l h = Some t -> gty_of h = Some g -> plain h = true ->
  type_at h path h' -> gpath_offset l g path = Some (o, g') ->
  host_reads tg l h buf off v ->
  hval_ok tg h' w = true -> gval_of tg h' w = Some x -> assigned v path w v' ->
  stored tg l g' x (off + o) buf buf' ->
  host_reads tg l h buf' off v'.
Proof.
  intros tg l h t g h' path o g' v w v' x buf buf' off Htg Ho Hg Hp Hty Hpath Hread Hw Hx Ha Hst.
  destruct (host_reads_facts tg l h t g buf off v Htg Ho Hg Hread) as [Hv [Hl [X [X1 X2]]]].
  destruct (gread_gset tg l x buf buf' path g off o g' X (gpos_of tg Htg h l t g Ho Hg) Hpath X2 Hst) as [X' [G1 G2]].
  destruct (gval_gset tg l x v path w v' Htg Ha h h' t g X Hty Ho Hg Hv X1 Hx) as [X'' [G3 G4]].
  assert (X'' = X') as -> by congruence.
  apply (host_reads_of tg l h t g buf' off v' X' Htg Ho Hg Hp); try assumption.
  - destruct Hst as [-> _]. exact Hl.
  - eapply assigned_ok; eassumption.
Qed.

(** ** every part of the host type is a part of the GLSL type *)
Lemma type_at_gpath tg l : target_ok tg = true -> forall h path h', type_at h path h' -> forall t g,
  out_ty tg l h = Some t -> gty_of h = Some g ->
  exists o g' t', gpath_offset l g path = Some (o, g') /\ gty_of h' = Some g' /\ out_ty tg l h' = Some t'.
Proof.
  intros Htg. induction 1 as [h|n fs f hf r h' Hf Hr IH|ru std fs f hf r h' Hf Hr IH|ru m f r h' Hr IH]; intros t g Ho Hg.
  - exists 0, g, t. auto.
  - destruct (struct_members tg l n fs t g Htg Ho Hg) as [outs [gs [E [Egs [-> _]]]]].
    apply out_fields_Forall2 in E. apply gfields_Forall2 in Egs.
    destruct (Forall2_assoc (fun h t => out_ty tg l h = Some t) _ _ _ _ E Hf) as [tf [_ Hof]].
    destruct (Forall2_assoc (fun h g => gty_of h = Some g) _ _ _ _ Egs Hf) as [gf [Hgf1 Hgf]].
    destruct (IH tf gf Hof Hgf) as [o [g' [t' [A [B C]]]]]. cbn [gpath_offset].
    assert (exists of, assoc f (combine (map fst gs) (goffsets l gs)) = Some of) as [of ->].
    { clear - Hgf1. unfold goffsets. generalize 0 as cur. revert gf Hgf1. induction gs as [|[f1 g1] gs IH]; intros gf H cur; [discriminate|].
      rewrite gmembers_cons. cbn [map fst member_offsets combine]. cbn zeta. rewrite assoc_cons. rewrite (@assoc_cons gty) in H.
      destruct (String.eqb f f1); eauto. }
    rewrite Hgf1, A. eexists _, _, _. split; [reflexivity|eauto].
  - destruct (easy_facts _ _ _ _ _ _ Ho) as [outs [ln [n [al [decl [E1 [E2 [Et [Hn [Hnd Hd]]]]]]]]]].
    destruct (gty_of_HEasy _ _ _ _ Hg) as [gs [Eg [Egs [Hcomp Hsub]]]].
    destruct (table_shape tg l std g t Htg Eg E1) as [? [? [? [_ [_ [_ [Hvm [H4 _]]]]]]]].
    apply out_fields_Forall2 in E2. apply gfields_Forall2 in Egs.
    destruct (Forall2_assoc (fun h t => out_ty tg l h = Some t) _ _ _ _ E2 Hf) as [tf [_ Hof]].
    destruct (Forall2_assoc (fun h g => gty_of h = Some g) _ _ _ _ Egs Hf) as [gf [Hgf1 Hgf]].
    assert (Hin : In f (firstn (ncomps g) comp_names)).
    { apply Hsub. apply in_map_iff. exists (f, hf). split; [reflexivity|]. now apply assoc_in. }
    destruct (Hcomp f Hin) as [gc [Hc1 Hc2]]. assert (gc = gf) as -> by congruence. apply is_comp_eq in Hc2. destruct Hc2 as [-> _].
    destruct (IH tf (cgty g) Hof Hgf) as [o [g' [t' [A [B C]]]]].
    destruct (index_of_in f _ Hin) as [k Hk].
    exists (k * cstride l g + o), g', t'. split; [|auto].
    destruct g; try discriminate Hvm; cbn [gpath_offset ncomps cgty cstride] in *; rewrite Hk, A; reflexivity.
  - cbn [out_ty gty_of] in *. eauto.
Qed.

(** C60.  The host updates one part of a block in place: it copies
    [w.as_stdN().as_bytes()] to the Rust offset of that part in [Output]
    ([offset_of!(Std140Scene, light.color)]).  Then reading the whole block back gives the
    old value with the corresponding field assigned. *)
Lemma C60_partial_update_proof : forall tg l h t g h' path o u v w v' bs buf buf' off,
  target_ok tg = true -> out_ty tg l h = Some t -> gty_of h = Some g -> plain h = true ->
  type_at h path h' -> path_offset tg t path = Some (o, u) ->
  host_reads tg l h buf off v ->
  hval_ok tg h' w = true -> as_std_bytes tg l h' w = Some bs -> assigned v path w v' ->
  copy_at buf (off + o) bs = Some buf' ->
  host_reads tg l h buf' off v'.
Proof.
  intros tg l h t g h' path o u v w v' bs buf buf' off Htg Ho Hg Hp Hty Hpath Hread Hw Hbs Ha Hcopy.
  destruct (type_at_gpath tg l Htg h path h' Hty t g Ho Hg) as [o' [g' [t' [P1 [P2 P3]]]]].
  destruct (path_all tg Htg h l t g path o' g' Ho Hg P1) as [u' [Q1 _]].
  rewrite Hpath in Q1. injection Q1 as -> ->.
  assert (Hl : off + o' + len bs <= len buf).
  { unfold copy_at in Hcopy. destruct (N.leb_spec (off + o' + len bs) (len buf)); [assumption|discriminate]. }
  destruct (copy_at_spec buf (off + o') bs Hl) as [b2 [Hb2 [Hlen Hbyte]]]. rewrite Hcopy in Hb2. injection Hb2 as <-.
  assert (Hrd : read_at buf' (off + o') (len bs) = Some bs).
  { apply read_at_bytes. split; [now rewrite Hlen|]. intros i Hi. rewrite Hbyte.
    destruct (N.leb_spec (off + o') (off + o' + i)); [|lia]. destruct (N.ltb_spec (off + o' + i) (off + o' + len bs)); [|lia].
    cbn [andb]. f_equal. lia. }
  destruct (C23_gpu_reads_host_value_proof tg l h' t' g' w bs buf' (off + o') Htg P3 P2 Hw Hbs Hrd) as [x [X1 X2]].
  assert (Hsz : len bs = gsize l g').
  { destruct (as_bytes_facts tg l h' t' w Htg P3 Hw) as [s [A1 [A2 [A3 [A4 A5]]]]]. rewrite A4 in Hbs. injection Hbs as <-.
    rewrite A5. now destruct (path_nil tg l h' t' g' Htg P3 P2) as [-> _]. }
  eapply (C59_shader_assignment_proof tg l h t g h' path o' g' v w v' x buf buf' off); try eassumption.
  split; [congruence|]. split; [assumption|]. intros i Hi. rewrite Hbyte.
  destruct (N.leb_spec (off + o') i); [|reflexivity]. destruct (N.ltb_spec i (off + o' + len bs)); [lia|reflexivity].
Qed.

(** C58.  [v.as_stdN()] is uploaded, a shader loads the variable and stores it into
    another buffer ([out_data = in_data;]), the host downloads that buffer and calls
    [from_stdN]: it gets [v] back.  (crevice-tests/src/gpu.rs:105-151 checks this for a few
    values on one GPU.) *)
Lemma C58_gpu_round_trip_proof : forall tg l h t g v bs x inb ioff outb outb' ooff,
  target_ok tg = true -> out_ty tg l h = Some t -> gty_of h = Some g -> plain h = true -> hval_ok tg h v = true ->
  as_std_bytes tg l h v = Some bs -> read_at inb ioff (len bs) = Some bs ->
  gread tg l g inb ioff = Some x -> ooff + size_of tg t <= len outb -> stored tg l g x ooff outb outb' ->
  host_reads tg l h outb' ooff v.
Proof.
  intros tg l h t g v bs x inb ioff outb outb' ooff Htg Ho Hg Hp Hv Hbs Hr Hx Hl Hst.
  destruct (C23_gpu_reads_host_value_proof tg l h t g v bs inb ioff Htg Ho Hg Hv Hbs Hr) as [x' [X1 X2]].
  assert (x' = x) as -> by congruence. destruct Hst as [S1 [S2 _]].
  eapply host_reads_of; try eassumption. now rewrite S1.
Qed.

Lemma gread_member tg l buf off f gf : forall fs xs cur of, gread_fields tg l buf off cur fs = Some xs ->
  assoc f (combine (map fst fs) (member_offsets cur (gmembers l fs))) = Some of -> assoc f fs = Some gf ->
  exists y, assoc f xs = Some y /\ gread tg l gf buf (off + of) = Some y.
Proof.
  induction fs as [|[f1 g1] fs IHfs]; intros xs cur of Er Eo Ef; [discriminate|].
  rewrite gmembers_cons in Eo. cbn [map fst member_offsets combine] in Eo. cbn zeta in Eo. rewrite assoc_cons in Eo. rewrite (@assoc_cons gty) in Ef.
  cbn [gread_fields] in Er. cbn zeta in Er.
  destruct (gread tg l g1 buf _) as [y1|] eqn:E1; [|discriminate]. destruct (gread_fields tg l buf off _ fs) as [ys|] eqn:E2; [|discriminate].
  injection Er as <-. rewrite assoc_cons.
  destruct (String.eqb f f1); [injection Eo as <-; injection Ef as <-; eauto|]. eapply IHfs; eassumption.
Qed.

Lemma gval_fields_assoc tg f : forall fs vs xs hf z, hfields_ok tg fs vs = true -> gval_fields tg fs vs = Some xs ->
  assoc f fs = Some hf -> assoc f vs = Some z -> exists Y, gval_of tg hf z = Some Y /\ assoc f xs = Some Y.
Proof.
  induction fs as [|[g h] fs IH]; intros [|[g' w] vs] xs hf z Hok Hxs Hf Hz; try discriminate.
  cbn [hfields_ok] in Hok. rewrite !andb_true_iff in Hok. destruct Hok as [[H1 H2] H3].
  apply String.eqb_eq in H1. subst g'. rewrite (@assoc_cons hty) in Hf. rewrite assoc_cons in Hz.
  cbn [gval_fields] in Hxs. destruct (gval_of tg h w) as [y|] eqn:E1; [|discriminate].
  destruct (gval_fields tg fs vs) as [ys|] eqn:E2; [|discriminate]. injection Hxs as <-. rewrite assoc_cons.
  destruct (String.eqb f g); [injection Hf as <-; injection Hz as <-; eauto|]. eapply IH; eauto.
Qed.

Lemma assoc_some_in {A} f (xs : list (string * A)) : In f (map fst xs) -> exists a, assoc f xs = Some a.
Proof.
  induction xs as [|[g a] xs IH]; intros H; [contradiction|]. rewrite assoc_cons. destruct (String.eqb_spec f g); [eauto|].
  destruct H as [H|H]; [cbn in H; congruence|auto].
Qed.

Lemma same_assoc {A} : forall (xs ys : list (string * A)), map fst xs = map fst ys -> NoDup (map fst xs) ->
  (forall f, In f (map fst xs) -> assoc f xs = assoc f ys) -> xs = ys.
Proof.
  induction xs as [|[f a] xs IH]; intros [|[g b] ys] Hn Hd H; try discriminate; [reflexivity|].
  cbn [map fst] in *. injection Hn as <- Hn. inversion Hd; subst.
  pose proof (H f (or_introl eq_refl)) as H0. rewrite !assoc_cons, String.eqb_refl in H0. injection H0 as ->. f_equal.
  apply IH; [assumption|assumption|]. intros g Hg. specialize (H g (or_intror Hg)). rewrite !assoc_cons in H.
  destruct (String.eqb_spec g f) as [E|]; [rewrite E in *; contradiction|exact H].
Qed.

(** C58, the shader of crevice-tests/src/gpu.rs:53-66: [out_data.f = in_data.f;] for every
    field [f], in any order, possibly more than once.  Whatever the output buffer contained
    before, the host gets [v] back. *)
Lemma C58_memberwise_copy_proof : forall tg l n fs t g v bs inb ioff outb outb' ooff names,
  target_ok tg = true -> out_ty tg l (HStruct n fs) = Some t -> gty_of (HStruct n fs) = Some g ->
  plain (HStruct n fs) = true -> hval_ok tg (HStruct n fs) v = true ->
  as_std_bytes tg l (HStruct n fs) v = Some bs -> read_at inb ioff (len bs) = Some bs ->
  ooff + size_of tg t <= len outb -> (forall f, In f (map fst fs) -> In f names) ->
  copied_members tg l g inb ioff ooff names outb outb' ->
  host_reads tg l (HStruct n fs) outb' ooff v.
Proof.
  intros tg l n fs t g v bs inb ioff outb outb' ooff names Htg Ho Hg Hp Hv Hbs Hr Hl Hnames Hcopy.
  destruct (C23_gpu_reads_host_value_proof tg l _ t g v bs inb ioff Htg Ho Hg Hv Hbs Hr) as [x [X1 X2]].
  destruct v as [| |vs| | |]; try discriminate Hv. rewrite hval_ok_struct in Hv. rewrite gval_struct in X1.
  destruct (gval_fields tg fs vs) as [xs|] eqn:Exs; [|discriminate]. injection X1 as <-.
  destruct (struct_members tg l n fs t g Htg Ho Hg) as [outs [gs [_ [Egs [Eg [_ [Hnd _]]]]]]]. subst g.
  rewrite gread_struct in X2. destruct (gread_fields tg l inb ioff 0 gs) as [xs'|] eqn:Er; [|discriminate]. injection X2 as ->.
  destruct (host_reads_exists tg l _ t outb ooff Htg Ho Hl) as [v0 H0].
  assert (Hinv : forall b v1, host_reads tg l (HStruct n fs) b ooff v1 -> forall b2, copied_members tg l (GStruct n gs) inb ioff ooff names b b2 ->
    exists ws ws', v1 = HVRec ws /\ host_reads tg l (HStruct n fs) b2 ooff (HVRec ws')
      /\ (forall f, In f names -> In f (map fst fs) -> assoc f ws' = assoc f vs)
      /\ (forall f, ~ In f names -> assoc f ws' = assoc f ws)).
  { clear Hcopy Hnames H0 v0. intros b v1 Hh b2 Hc. revert v1 Hh.
    induction Hc as [b|f names o gf y b b1 b2 Hpath Hload Hst _ IHc]; intros v1 Hh;
      destruct (host_reads_facts tg l _ t _ b ooff v1 Htg Ho Hg Hh) as [Hv1 _]; destruct v1 as [| |ws| | |]; try discriminate Hv1.
    - exists ws, ws. split; [reflexivity|]. split; [exact Hh|]. split; [contradiction|reflexivity].
    - rewrite hval_ok_struct in Hv1.
      destruct (gpath_struct _ _ _ _ _ _ _ Hpath) as [of [gf' [o' [Eo [Ef [E ->]]]]]]. cbn [gpath_offset] in E. injection E as <- <-.
      rewrite N.add_0_r in *.
      apply gfields_Forall2 in Egs. destruct (Forall2_assoc_r (fun h g => gty_of h = Some g) _ _ _ _ Egs Ef) as [hf [Hhf Hghf]].
      assert (Hinf : In f (map fst fs)) by (apply in_map_iff; exists (f, hf); split; [reflexivity|now apply assoc_in]).
      destruct (assoc_some_in f vs) as [w Hw]; [now rewrite (hfields_ok_names _ _ _ Hv)|].
      destruct (assoc_some_in f ws) as [z Hz]; [now rewrite (hfields_ok_names _ _ _ Hv1)|].
      destruct (gval_fields_assoc tg f fs vs xs hf w Hv Exs Hhf Hw) as [Y [Y1 Y2]].
      destruct (gread_member tg l inb ioff f gf' gs xs 0 of Er Eo Ef) as [Y' [Y3 Y4]].
      assert (Y' = y) as -> by congruence. assert (Y = y) as -> by congruence.
      assert (Hh1 : host_reads tg l (HStruct n fs) b1 ooff (HVRec (put f w ws))).
      { eapply (C59_shader_assignment_proof tg l (HStruct n fs) t (GStruct n gs) hf [f] of gf' (HVRec ws) w); try eassumption.
        - econstructor; [exact Hhf|constructor].
        - eapply hfields_assoc; [exact Hv|eassumption|exact Hw].
        - econstructor; [exact Hz|constructor]. }
      destruct (IHc _ Hh1) as [ws1 [ws' [E1 [H1 [H2 H3]]]]]. injection E1 as <-.
      exists ws, ws'. split; [reflexivity|]. split; [exact H1|]. split.
      + intros f' [<-|Hin] Hf'; [|now apply H2]. destruct (in_dec string_dec f names) as [Hi|Hi]; [now apply H2|].
        rewrite H3, assoc_put, String.eqb_refl, Hz by assumption. now symmetry.
      + intros f' Hni. rewrite H3 by (intros Hi; apply Hni; now right). rewrite assoc_put.
        destruct (String.eqb_spec f' f) as [->|]; [exfalso; apply Hni; now left|reflexivity]. }
  destruct (Hinv outb v0 H0 outb' Hcopy) as [ws [ws' [_ [H1 [H2 _]]]]].
  destruct (host_reads_facts tg l _ t _ outb' ooff _ Htg Ho Hg H1) as [Hv1 _]. rewrite hval_ok_struct in Hv1.
  assert (ws' = vs) as <-; [|exact H1]. apply same_assoc.
  - rewrite (hfields_ok_names _ _ _ Hv1). symmetry. now apply hfields_ok_names in Hv.
  - now rewrite (hfields_ok_names _ _ _ Hv1).
  - intros f Hf. rewrite (hfields_ok_names _ _ _ Hv1) in Hf. apply H2; auto.
Qed.

(** copying the right bytes is one way to store *)
Lemma stored_by_copy tg l g x off buf bs buf' : copy_at buf off bs = Some buf' -> len bs = gsize l g ->
  gread tg l g buf' off = Some x -> stored tg l g x off buf buf'.
Proof.
  intros Hc Hl Hr.
  assert (Hle : off + len bs <= len buf).
  { unfold copy_at in Hc. destruct (N.leb_spec (off + len bs) (len buf)); [assumption|discriminate]. }
  destruct (copy_at_spec buf off bs Hle) as [b2 [Hb2 [Hlen Hbyte]]]. rewrite Hc in Hb2. injection Hb2 as <-.
  split; [assumption|]. split; [assumption|]. intros i Hi. rewrite Hbyte.
  destruct (N.leb_spec off i); [|reflexivity]. destruct (N.ltb_spec i (off + len bs)); [lia|reflexivity].
Qed.

Local Definition light_bytes : list byte :=
  match as_std_bytes x86_64 L140 point_light light1 with Some bs => bs | None => [] end.

(** C58: an upload of a [PointLight], copied member by member, in another order and one of
    them twice, into a buffer full of garbage. *)
Lemma C58_ex_proof :
  let tg := x86_64 in let garbage := repeat (byte_of_N 171) 40 in
  exists t g bs outb', out_ty tg L140 point_light = Some t /\ gty_of point_light = Some g /\ plain point_light = true
  /\ as_std_bytes tg L140 point_light light1 = Some bs /\ size_of tg t = 32
  /\ copied_members tg L140 g bs 0 5 ["brightness"; "position"; "color"; "position"] garbage outb'
  /\ host_reads tg L140 point_light outb' 5 light1
  /\ byte_at outb' 17 = Some (byte_of_N 171).
Proof.
  cbv zeta.
  assert (exists t, out_ty x86_64 L140 point_light = Some t) as [t Ht] by (eexists; vm_compute; reflexivity).
  assert (exists g, gty_of point_light = Some g) as [g Hg] by (eexists; vm_compute; reflexivity).
  assert (exists bs, as_std_bytes x86_64 L140 point_light light1 = Some bs) as [bs Hbs] by (eexists; vm_compute; reflexivity).
  exists t, g, bs.
  assert (Hc : exists outb', copied_members x86_64 L140 g bs 0 5 ["brightness"; "position"; "color"; "position"] (repeat (byte_of_N 171) 40) outb'
                 /\ byte_at outb' 17 = Some (byte_of_N 171)).
  { vm_compute in Hg. injection Hg as <-. vm_compute in Hbs. injection Hbs as <-. eexists. split.
    - eapply copied_next; [vm_compute; reflexivity|vm_compute; reflexivity|eapply stored_by_copy with (bs := firstn 4 (skipn 28 light_bytes)); vm_compute; reflexivity|].
      eapply copied_next; [vm_compute; reflexivity|vm_compute; reflexivity|eapply stored_by_copy with (bs := firstn 12 light_bytes); vm_compute; reflexivity|].
      eapply copied_next; [vm_compute; reflexivity|vm_compute; reflexivity|eapply stored_by_copy with (bs := firstn 12 (skipn 16 light_bytes)); vm_compute; reflexivity|].
      eapply copied_next; [vm_compute; reflexivity|vm_compute; reflexivity|eapply stored_by_copy with (bs := firstn 12 light_bytes); vm_compute; reflexivity|].
      apply copied_none.
    - vm_compute. reflexivity. }
  destruct Hc as [outb' [Hc Hb]]. exists outb'.
  repeat (split; [assumption || reflexivity|]). split; [vm_compute in Ht; injection Ht as <-; vm_compute; reflexivity|].
  split; [exact Hc|]. split; [|exact Hb].
  eapply (C58_memberwise_copy_proof x86_64 L140 _ _ t g light1 bs bs 0 (repeat (byte_of_N 171) 40) outb' 5 ["brightness"; "position"; "color"; "position"]);
    try eassumption; try reflexivity.
  - apply read_at_all.
  - vm_compute in Ht. injection Ht as <-. vm_compute. discriminate.
  - intros f Hf. cbn in Hf |- *. tauto.
Qed.

Lemma assigned_field_eq vs f r w z z' v' : assoc f vs = Some z -> assigned z r w z' -> v' = HVRec (put f z' vs) ->
  assigned (HVRec vs) (f :: r) w v'.
Proof. intros H1 H2 ->. now apply (assigned_field vs f r w z z'). Qed.

(** C59: the shader sets [data.y.y = true] in a [ContainsBools] (std430, big-endian target)
    and represents [true] by the word 7. *)
Lemma C59_ex_proof :
  let tg := powerpc64 in
  let v := HVRec [("x", HVBool true); ("y", HVRec [("x", HVBool true); ("y", HVBool false)])] in
  let v' := HVRec [("x", HVBool true); ("y", HVRec [("x", HVBool true); ("y", HVBool true)])] in
  exists t g o g' buf buf', out_ty tg L430 contains_bools = Some t /\ gty_of contains_bools = Some g /\ plain contains_bools = true
  /\ type_at contains_bools ["y"; "y"] HBool /\ gpath_offset L430 g ["y"; "y"] = Some (o, g') /\ o = 12
  /\ host_reads tg L430 contains_bools buf 3 v
  /\ assigned v ["y"; "y"] (HVBool true) v'
  /\ stored tg L430 g' (GVBool true) (3 + o) buf buf' /\ read_at buf' 15 4 = Some [x00; x00; x00; x07]
  /\ host_reads tg L430 contains_bools buf' 3 v'.
Proof.
  cbv zeta.
  set (v := HVRec [("x", HVBool true); ("y", HVRec [("x", HVBool true); ("y", HVBool false)])]).
  set (v' := HVRec [("x", HVBool true); ("y", HVRec [("x", HVBool true); ("y", HVBool true)])]).
  set (buf := ([x01; x02; x03] ++ match as_std_bytes powerpc64 L430 contains_bools v with Some bs => bs | None => [] end ++ [x09])%list).
  set (buf' := match copy_at buf 15 [x00; x00; x00; x07] with Some b => b | None => [] end).
  assert (exists t, out_ty powerpc64 L430 contains_bools = Some t) as [t Ht] by (eexists; vm_compute; reflexivity).
  assert (exists g, gty_of contains_bools = Some g) as [g Hg] by (eexists; vm_compute; reflexivity).
  exists t, g, 12, (GScalar GBool), buf, buf'.
  assert (Hr : host_reads powerpc64 L430 contains_bools buf 3 v).
  { eexists _, _, _. split; [vm_compute; reflexivity|]. split; [vm_compute; reflexivity|]. split; vm_compute; reflexivity. }
  assert (Hty : type_at contains_bools ["y"; "y"] HBool).
  { eapply type_struct; [reflexivity|]. eapply type_math; [reflexivity|]. constructor. }
  assert (Hp : gpath_offset L430 g ["y"; "y"] = Some (12, GScalar GBool)).
  { vm_compute in Hg. injection Hg as <-. vm_compute. reflexivity. }
  assert (Ha : assigned v ["y"; "y"] (HVBool true) v').
  { eapply assigned_field_eq; [reflexivity| |].
    - eapply assigned_field_eq; [reflexivity|constructor|reflexivity].
    - reflexivity. }
  assert (Hst : stored powerpc64 L430 (GScalar GBool) (GVBool true) (3 + 12) buf buf').
  { apply stored_by_copy with (bs := [x00; x00; x00; x07]); vm_compute; reflexivity. }
  repeat (split; [assumption || reflexivity|]).
  eapply (C59_shader_assignment_proof powerpc64 L430 contains_bools t g HBool ["y"; "y"] 12 (GScalar GBool) v (HVBool true) v'); eassumption || reflexivity.
Qed.

(** C60: the host overwrites [light.color] inside a [Scene]. *)
Lemma C60_ex_proof :
  let tg := x86_64 in
  exists t g bs o u buf buf' v', out_ty tg L140 scene = Some t /\ gty_of scene = Some g /\ plain scene = true
  /\ type_at scene ["light"; "color"] vec3f /\ path_offset tg t ["light"; "color"] = Some (o, u) /\ o = 32
  /\ host_reads tg L140 scene buf 2 scene1 /\ as_std_bytes tg L140 vec3f (v3 21 22 23) = Some bs
  /\ copy_at buf (2 + o) bs = Some buf' /\ assigned scene1 ["light"; "color"] (v3 21 22 23) v'
  /\ host_reads tg L140 scene buf' 2 v' /\ v' <> scene1.
Proof.
  cbv zeta.
  set (buf := ([x01; x02] ++ match as_std_bytes x86_64 L140 scene scene1 with Some bs => bs | None => [] end)%list).
  assert (exists t, out_ty x86_64 L140 scene = Some t) as [t Ht] by (eexists; vm_compute; reflexivity).
  assert (exists g, gty_of scene = Some g) as [g Hg] by (eexists; vm_compute; reflexivity).
  assert (exists bs, as_std_bytes x86_64 L140 vec3f (v3 21 22 23) = Some bs) as [bs Hbs] by (eexists; vm_compute; reflexivity).
  assert (exists u, path_offset x86_64 t ["light"; "color"] = Some (32, u)) as [u Hu].
  { vm_compute in Ht. injection Ht as <-. eexists. vm_compute. reflexivity. }
  assert (exists buf', copy_at buf (2 + 32) bs = Some buf') as [buf' Hb'].
  { vm_compute in Hbs. injection Hbs as <-. eexists. vm_compute. reflexivity. }
  assert (Hr : host_reads x86_64 L140 scene buf 2 scene1).
  { eexists _, _, _. split; [vm_compute; reflexivity|]. split; [vm_compute; reflexivity|]. split; vm_compute; reflexivity. }
  assert (Hty : type_at scene ["light"; "color"] vec3f).
  { eapply type_struct; [reflexivity|]. eapply type_struct; [reflexivity|]. constructor. }
  assert (exists v', assigned scene1 ["light"; "color"] (v3 21 22 23) v' /\ v' <> scene1) as [v' [Ha Hne]].
  { eexists. split.
    - eapply assigned_field; [reflexivity|]. eapply assigned_field; [reflexivity|]. constructor.
    - intros H. vm_compute in H. discriminate. }
  exists t, g, bs, 32, u, buf, buf', v'.
  repeat (split; [assumption || reflexivity|]). split; [|exact Hne].
  apply (C60_partial_update_proof x86_64 L140 scene t g vec3f ["light"; "color"] 32 u scene1 (v3 21 22 23) v' bs buf buf' 2); assumption || reflexivity.
Qed.
