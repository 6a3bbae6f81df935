(** * Proofs of the buffer properties (C01-C13, C28, C40) *)

From Coq Require Import NArith String Bool List Lia ZArith.
From Coq Require Import ZifyBool ZifyN ZifyNat.
From Coq Require Import Strings.Byte.
From Verif Require Import Rust Internal Prims Derive Host Rows Buffer SpecBuf SpecGlsl SpecHost
  Arith RustFacts DeriveFacts TypeFacts SpecLayout LayoutFacts HostFacts GlslFacts BufferFacts WriterFacts Samples.
Import ListNotations.
Local Open Scope string_scope.
Local Open Scope N_scope.

(** ** Sizes of types fit in [usize] *)

Lemma umod_big tg : target_ok tg = true -> 65536 <= umod tg /\ t_obj tg < umod tg.
Proof.
  intros Htg. unfold target_ok in Htg. rewrite !andb_true_iff in Htg. destruct Htg as [[_ Hb] Ho].
  apply N.leb_le in Hb, Ho. unfold umod. split.
  - change 65536 with (2 ^ 16). apply N.pow_le_mono_r; lia.
  - apply N.le_lt_trans with (2 ^ (t_bits tg - 1)); [assumption|]. apply N.pow_lt_mono_r; lia.
Qed.

Definition small_b (tg : target) (l : lay) (nm : string) : bool :=
  match find_std l nm with Some t => size_of tg t <? 65536 | None => false end.

Lemma size_lt_umod tg : target_ok tg = true -> forall h l t, out_ty tg l h = Some t -> size_of tg t < umod tg.
Proof.
  intros Htg. destruct (umod_big tg Htg) as [B1 B2].
  induction h as [p| |r s fs IH|r m IH|h IH|n fs IH|l' h IH] using hty_ind'; intros l t H.
  - cbn [out_ty] in H. destruct (std_align l (TPrim p)); [|discriminate]. injection H as <-.
    unfold size_of. cbn. destruct p; cbn; lia.
  - cbn [out_ty] in H. injection H as <-. unfold size_of. cbn. lia.
  - destruct (easy_facts _ _ _ _ _ _ H) as [? [? [? [? [? [E1 _]]]]]].
    assert (Hall : forallb (small_b tg l) table_names = true).
    { clear -Htg. destruct l; all_targets tg Htg; vm_compute; reflexivity. }
    rewrite forallb_forall in Hall. specialize (Hall _ (find_std_names _ _ _ E1)).
    unfold small_b in Hall. rewrite E1 in Hall. apply N.ltb_lt in Hall. lia.
  - cbn [out_ty] in H. eauto.
  - cbn [out_ty] in H. destruct l; [|discriminate]. destruct (out_ty tg L140 h) as [t'|] eqn:E; [|discriminate].
    injection H as <-. change (size_of tg (TDyn t')) with (size_of tg t'). eauto.
  - rewrite out_ty_HStruct in H. destruct (out_fields tg l fs) as [outs|]; [|discriminate].
    apply derive_output_iff in H. destruct H as [_ [_ [_ H]]]. 2: assumption. lia.
  - destruct (out_ty_HOut _ _ _ _ _ H) as [A _]. eauto.
Qed.

Lemma layout_size_lt tg l t : target_ok tg = true -> layout_type tg l t -> size_of tg t < umod tg.
Proof.
  intros Htg. destruct (umod_big tg Htg) as [B1 B2]. destruct (target_umod tg Htg) as [B3 _].
  induction 1 as [t H|h t H|t El _ IH|name fields t _ IH H].
  - destruct H as [_ H _]. lia.
  - eapply size_lt_umod; eassumption.
  - exact IH.
  - apply derive_output_iff in H; [|assumption]. destruct H as [_ [_ [_ [H _]]]]. lia.
Qed.

Lemma out_align_inv tg l h a n : target_ok tg = true -> out_align tg l h = Some a -> std_size_static tg l h = Some n ->
  exists t, out_ty tg l h = Some t /\ std_align l t = Some a /\ size_of tg t = n /\ good tg l t /\ ual tg a.
Proof.
  intros Htg Ha Hn. unfold out_align in Ha. unfold std_size_static in Hn.
  destruct (out_ty tg l h) as [t|] eqn:E; [|discriminate]. injection Hn as <-.
  pose proof (out_ty_good tg Htg _ _ _ E) as G. exists t. repeat (split; [assumption || reflexivity|]).
  rewrite (good_alN _ _ _ G) in Ha. injection Ha as <-.
  apply pow2_umod; [assumption|eapply good_alN_pow2; eassumption|eapply good_alN_le; eassumption].
Qed.

(** ** C01 *)

(** C01.  [Sizer::add::<T>()] returns the least multiple of [T]'s ALIGNMENT that is
    at least [len()], and [len()] becomes that offset plus [T]'s size, unless the
    end does not fit in [usize]. *)
Lemma C01_sizer_add_proof : forall tg l h a n s o,
  target_ok tg = true ->
  out_align tg l h = Some a ->                       (* ALIGNMENT of T::Output *)
  std_size_static tg l h = Some n ->                 (* size of T::Output *)
  least_aligned a (sizer_len s) o ->
  o + n < umod tg ->
  exists s', sizer_add tg l h s = Some (Done (o, s')) /\ sizer_len s' = o + n.
Proof.
  intros tg l h a n s o Htg Ha Hn Ho Hlt.
  destruct (out_align_inv _ _ _ _ _ Htg Ha Hn) as [t [E1 [E2 [E3 _]]]].
  apply least_aligned_spec in Ho. unfold sizer_len in Ho. unfold sizer_add, sizer_add_std, sizer_add_raw. rewrite E1, E2, E3.
  unfold uadd. rewrite <- Ho.
  replace (o <? umod tg) with true by (symmetry; apply N.ltb_lt; lia).
  replace (o + n <? umod tg) with true by (symmetry; apply N.ltb_lt; lia).
  eexists. split; reflexivity.
Qed.

(** ** C12, Sizer *)

(** C12.  With overflow checks, [Sizer::add] returns the correct offset or panics;
    it panics exactly when the correct end offset is not representable. *)
Lemma C12_sizer_overflow_proof : forall tg l h a n s o,
  target_ok tg = true -> t_checks tg = true ->
  out_align tg l h = Some a -> std_size_static tg l h = Some n ->
  sizer_len s < umod tg ->
  least_aligned a (sizer_len s) o ->
  (o + n < umod tg /\ exists s', sizer_add tg l h s = Some (Done (o, s')) /\ sizer_len s' = o + n)
  \/ (umod tg <= o + n /\ sizer_add tg l h s = Some Panicked).
Proof.
  intros tg l h a n s o Htg Hc Ha Hn Hs Ho.
  destruct (N.lt_ge_cases (o + n) (umod tg)) as [Hlt|Hge].
  - left. split; [assumption|]. eapply C01_sizer_add_proof; eassumption.
  - right. split; [assumption|].
    destruct (out_align_inv _ _ _ _ _ Htg Ha Hn) as [t [E1 [E2 [E3 _]]]].
    apply least_aligned_spec in Ho. unfold sizer_len in Ho. unfold sizer_add, sizer_add_std, sizer_add_raw. rewrite E1, E2, E3.
    unfold uadd. rewrite <- Ho, Hc.
    destruct (N.ltb_spec o (umod tg)); [|reflexivity].
    destruct (N.ltb_spec (o + n) (umod tg)); [lia|reflexivity].
Qed.

(** C01.  The first [add] on a new [Sizer] returns 0, whatever the type. *)
Lemma C01_first_add_proof : forall tg l h a n,
  target_ok tg = true -> out_align tg l h = Some a -> std_size_static tg l h = Some n -> n < umod tg ->
  exists s', sizer_add tg l h sizer_new = Some (Done (0, s')) /\ sizer_len s' = n.
Proof.
  intros tg l h a n Htg Ha Hn Hlt. apply (C01_sizer_add_proof tg l h a n sizer_new 0 Htg Ha Hn); [|exact Hlt].
  split; [apply N.le_refl|]. split; [right; exists 0; lia|]. intros. lia.
Qed.

(** ** C02 *)



Lemma write_vals_run1 {W} tg l (wi : write_impl W) : target_ok tg = true -> forall xs w ps,
  typed_all tg l xs -> parts tg l (WSeq (map leaf xs)) = Some ps ->
  write_vals tg l wi (map leaf xs) w = run1 tg wi ps w.
Proof.
  intros Htg xs w ps H Hp. rewrite parts_WSeq in Hp. revert w ps Hp.
  induction H as [|[h v] xs [[t Ht] Hv] _ IH]; intros w ps Hp.
  - injection Hp as <-. reflexivity.
  - cbn [fst snd] in *. cbn [map parts_list leaf fst snd] in Hp.
    change (leaf (h, v)) with (WLeaf h v) in Hp.
    destruct (leaf_parts _ _ _ _ _ Htg Ht Hv) as [s [E1 [E2 [E3 [_ [_ [E6 [E7 G]]]]]]]].
    rewrite E3 in Hp. destruct (parts_list tg l (map leaf xs)) as [q|]; [|discriminate]. injection Hp as <-.
    cbn [map write_vals leaf fst snd]. unfold writer_write. change (leaf (h, v)) with (WLeaf h v).
    cbn [write_val]. unfold write_leaf. rewrite Ht, E1.
    erewrite write_std_write1; [|apply (good_alN tg); exact G|exact E6|symmetry; exact E7].
    cbn [app run1]. destruct (write1 tg wi _ w) as [w1 [o|e| |]]; try reflexivity.
    now rewrite (IH w1 q eq_refl).
Qed.

Lemma typed_all_ok tg l xs : typed_all tg l xs -> wval_ok tg l (WSeq (map leaf xs)).
Proof.
  intros H. apply wval_ok_WSeq. unfold wvals_ok. induction H as [|[h v] xs Hx _ IH]; constructor; assumption.
Qed.

Lemma sizer_run_offs tg l : target_ok tg = true -> forall xs ps s,
  typed_all tg l xs -> parts tg l (WSeq (map leaf xs)) = Some ps ->
  sizer_run tg l (map fst xs) s =
  Some (match offs tg (sz_offset s) (dims ps) with
        | Done (os, off) => Done (os, Sizer off)
        | Panicked => Panicked
        end).
Proof.
  intros Htg xs ps s H Hp. rewrite parts_WSeq in Hp. revert s ps Hp.
  induction H as [|[h v] xs [[t Ht] Hv] _ IH]; intros s ps Hp.
  - injection Hp as <-. cbn. now destruct s.
  - cbn [fst snd] in *. cbn [map parts_list leaf fst snd] in Hp.
    change (leaf (h, v)) with (WLeaf h v) in Hp.
    destruct (leaf_parts _ _ _ _ _ Htg Ht Hv) as [v' [E1 [E2 [E3 [_ [_ [E6 [E7 G]]]]]]]].
    rewrite E3 in Hp. destruct (parts_list tg l (map leaf xs)) as [q|]; [|discriminate]. injection Hp as <-.
    cbn [map sizer_run fst]. unfold sizer_add, sizer_add_std. rewrite Ht, (good_alN _ _ _ G). unfold sizer_add_raw.
    cbn [app dims map offs fst snd]. rewrite E7.
    destruct (uadd tg (sz_offset s) _) as [here|]; [|reflexivity].
    destruct (uadd tg here (size_of tg t)) as [off|]; [|reflexivity].
    rewrite (IH (Sizer off) q eq_refl). cbn [sz_offset]. fold (dims q).
    destruct (offs tg off (dims q)) as [[os e]|]; reflexivity.
Qed.

(** C02.  Writing values with a [Writer] (whose sink does not fail) and adding
    their types to a [Sizer] that has the same [len()] gives the same offsets and
    the same final [len()]; if one panics, so does the other. *)
Lemma C02_sizer_writer_agree_proof : forall W tg l (wi : write_impl W) xs s w,
  target_ok tg = true -> infallible wi -> typed_all tg l xs ->
  sizer_len s = writer_len w ->
  match sizer_run tg l (map fst xs) s with
  | Some (Done (os, s')) =>
      exists w', write_vals tg l wi (map leaf xs) w = (w', (os, None))
                 /\ writer_len w' = sizer_len s'
  | Some Panicked => exists w' os, write_vals tg l wi (map leaf xs) w = (w', (os, Some WPanic))
  | None => False
  end.
Proof.
  intros W tg l wi xs s w Htg Hinf Hty Hs.
  destruct (parts_total tg l Htg _ (typed_all_ok _ _ _ Hty)) as [ps Hp].
  rewrite (sizer_run_offs tg l Htg xs ps s Hty Hp). rewrite (write_vals_run1 tg l wi Htg xs w ps Hty Hp).
  pose proof (run1_offs tg wi Hinf ps w) as R. unfold sizer_len, writer_len in *. rewrite Hs.
  destruct (offs tg (w_offset w) (dims ps)) as [[os off]|]; [|assumption].
  destruct R as [i' R]. eexists. split; [exact R|reflexivity].
Qed.

(** C02.  In particular for a new [Sizer] and a new [Writer], both of which have [len()] 0. *)
Lemma C02_fresh_proof : forall W tg l (wi : write_impl W) inner xs,
  target_ok tg = true -> infallible wi -> typed_all tg l xs ->
  sizer_len sizer_new = 0 /\ writer_len (writer_new inner) = 0
  /\ match sizer_run tg l (map fst xs) sizer_new with
     | Some (Done (os, s')) =>
         exists w', write_vals tg l wi (map leaf xs) (writer_new inner) = (w', (os, None))
                    /\ writer_len w' = sizer_len s'
     | Some Panicked => exists w' os, write_vals tg l wi (map leaf xs) (writer_new inner) = (w', (os, Some WPanic))
     | None => False
     end.
Proof.
  intros W tg l wi inner xs Htg Hinf Hty. split; [reflexivity|]. split; [reflexivity|].
  apply C02_sizer_writer_agree_proof; try assumption. reflexivity.
Qed.

(** ** Histories *)


Lemma ops_parts_total tg l os : target_ok tg = true -> Forall (op_ok tg l) os ->
  exists ps, ops_parts tg l os = Some ps /\ uals tg ps.
Proof.
  intros Htg. induction 1 as [|o os Ho _ [q [Eq Uq]]]; [exists []; split; [reflexivity|constructor]|].
  destruct (op_parts_total tg l o Htg Ho) as [p [Ep Up]].
  cbn [ops_parts]. rewrite Ep, Eq. eexists. split; [reflexivity|]. apply Forall_app. auto.
Qed.

Lemma run_ops_run1 {W} tg l (wi : write_impl W) : target_ok tg = true -> forall os w w' rs ps,
  Forall (op_ok tg l) os -> ops_parts tg l os = Some ps ->
  run_ops tg l wi os w = (w', rs) -> all_ok rs -> exists offs, run1 tg wi ps w = (w', (offs, None)).
Proof.
  intros Htg. induction os as [|o os IH]; intros w w' rs ps Hok Hp Hr Hall.
  - injection Hp as <-. injection Hr as <- <-. exists []. reflexivity.
  - inversion Hok as [|? ? Ho Hos]; subst. cbn [ops_parts] in Hp.
    destruct (op_parts tg l o) as [p|] eqn:Ep; [|discriminate].
    destruct (ops_parts tg l os) as [q|] eqn:Eq; [|discriminate]. injection Hp as <-.
    cbn [run_ops] in Hr. destruct (run_op_run1 tg l wi o w p Htg Ho Ep) as [ret [E _]].
    rewrite E in Hr. rewrite run1_app.
    destruct (run1 tg wi p w) as [w1 [o1 [r1|]]] eqn:R1.
    + exfalso. destruct (run_ops tg l wi os w1) as [w2 rs']. injection Hr as <- <-.
      inversion Hall as [|? ? [oo Hoo] _]; subst. eapply run1_not_ok; [exact R1|reflexivity].
    + destruct (run_ops tg l wi os w1) as [w2 rs'] eqn:R2. injection Hr as <- <-.
      inversion Hall as [|? ? _ Hall']; subst.
      destruct (IH _ _ _ _ Hos eq_refl R2 Hall') as [o2 R3]. rewrite R3. eauto.
Qed.

(** C03.  If every operation of a history on a fresh [Writer] returned [Ok], the
    bytes that reached the sink are exactly the parts of the written values, each
    at the first aligned position after the previous one, and zeros everywhere
    else; [len()] is the total length. *)
Lemma C03_history_image_proof : forall W tg l (wi : write_impl W) delivered inner os w rs ps places total,
  target_ok tg = true -> lawful wi delivered -> Forall (op_ok tg l) os ->
  run_ops tg l wi os (writer_new inner) = (w, rs) -> all_ok rs ->
  ops_parts tg l os = Some ps -> laid_out 0 ps places total ->
  (t_checks tg = true \/ total < umod tg) ->
  (exists img, delivered (w_inner w) = (delivered inner ++ img)%list /\ image places total img)
  /\ increasing 0 places total
  /\ writer_len w = total.
Proof.
  intros W tg l wi delivered inner os w rs ps places total Htg Hlaw Hok Hr Hall Hp Hl Hno.
  apply laid_out_spec in Hl. destruct Hl as [-> ->].
  destruct (run_ops_run1 tg l wi Htg _ _ _ _ _ Hok Hp Hr Hall) as [o R].
  destruct (ops_parts_total tg l os Htg Hok) as [ps' [Ep' Hu]]. rewrite Hp in Ep'. injection Ep' as <-.
  destruct (run1_spec tg wi delivered Hlaw ps (writer_new inner) w o None 0 Hu (at_pos_0 tg) R) as [_ [_ [A D]]].
  cbn [writer_new w_inner] in D. split; [|split].
  - exists (render 0 ps). split; [exact D|]. apply render_is_image.
  - apply increasing_placements.
  - unfold writer_len. destruct Hno as [C|Hlt].
    + now apply (at_pos_checks tg).
    + now apply (at_pos_small tg).
Qed.

(** C03, offsets: the offsets returned by a sequence of successful [write] calls
    are the positions of the values in the image. *)
Lemma C03_returned_offsets_proof : forall W tg l (wi : write_impl W) delivered inner xs w offs ps places total,
  target_ok tg = true -> lawful wi delivered -> typed_all tg l xs ->
  write_vals tg l wi (map leaf xs) (writer_new inner) = (w, (offs, None)) ->
  parts tg l (WSeq (map leaf xs)) = Some ps -> laid_out 0 ps places total ->
  (t_checks tg = true \/ total < umod tg) ->
  offs = map fst places
  /\ map snd places = map snd ps
  /\ Forall2 (fun x p => as_std_bytes tg l (fst x) (snd x) = Some (snd p) /\ out_align tg l (fst x) = Some (fst p)) xs ps
  /\ exists img, delivered (w_inner w) = (delivered inner ++ img)%list /\ image places total img.
Proof.
  intros W tg l wi delivered inner xs w offs ps places total Htg Hlaw Hty Hw Hp Hl Hno.
  apply laid_out_spec in Hl. destruct Hl as [-> ->].
  rewrite (write_vals_run1 tg l wi Htg xs _ ps Hty Hp) in Hw.
  pose proof (parts_uals tg l Htg _ _ (typed_all_ok _ _ _ Hty) Hp) as Hu.
  destruct (run1_spec tg wi delivered Hlaw ps (writer_new inner) w offs None 0 Hu (at_pos_0 tg) Hw) as [F [Hlen [A D]]].
  assert (Hpl : forall ps cur, length (placements cur ps) = length ps).
  { clear. induction ps as [|[al bs] ps IH]; intros cur; [reflexivity|]. cbn [placements length]. now rewrite IH. }
  rewrite Hlen, <- (Hpl ps 0), firstn_all in F.
  assert (Hend : forall o, In o (map fst (placements 0 ps)) -> o <= end_of 0 ps).
  { intros o Hin. apply in_map_iff in Hin. destruct Hin as [[o' c] [E Hin]]. cbn [fst] in E. subst o'.
    pose proof (increasing_in _ _ _ _ _ (increasing_placements ps 0) Hin). lia. }
  split; [|split; [|split]].
  - clear -F Hno Hend. induction F as [|o p os ps' Hop F IH]; [reflexivity|]. f_equal.
    + destruct Hno as [C|Hlt]; [now apply (at_pos_checks tg)|].
      apply (at_pos_small tg); [|assumption]. specialize (Hend p (or_introl eq_refl)). lia.
    + apply IH. intros o' Hin. apply Hend. now right.
  - clear. generalize 0 at 1. induction ps as [|[al bs] ps IH]; intros cur; [reflexivity|].
    cbn [placements map snd]. now rewrite IH.
  - rewrite parts_WSeq in Hp. clear -Htg Hty Hp. revert ps Hp. induction Hty as [|[h v] xs [[t Ht] Hv] _ IH]; intros ps Hp.
    + injection Hp as <-. constructor.
    + cbn [map parts_list] in Hp. change (leaf (h, v)) with (WLeaf h v) in Hp. cbn [fst snd] in *.
      destruct (leaf_parts _ _ _ _ _ Htg Ht Hv) as [s [_ [_ [E [E4 [E5 _]]]]]]. rewrite E in Hp.
      destruct (parts_list tg l (map leaf xs)) as [q|]; [|discriminate]. injection Hp as <-.
      cbn [app]. constructor; [cbn [fst snd]; auto|now apply IH].
  - exists (render 0 ps). split; [exact D|]. apply render_is_image.
Qed.

(** C05.  As long as every operation returned [Ok], [len()] is the number of bytes
    the sink received through this [Writer] (modulo [usize::MAX + 1] when overflow
    checks are off; with overflow checks that number fits in [usize]). *)
Lemma C05_len_counts_bytes_proof : forall W tg l (wi : write_impl W) delivered inner os w rs,
  target_ok tg = true -> lawful wi delivered -> Forall (op_ok tg l) os ->
  run_ops tg l wi os (writer_new inner) = (w, rs) -> all_ok rs ->
  exists img, delivered (w_inner w) = (delivered inner ++ img)%list
    /\ writer_len w = len img mod umod tg
    /\ (t_checks tg = true -> len img < umod tg /\ writer_len w = len img).
Proof.
  intros W tg l wi delivered inner os w rs Htg Hlaw Hok Hr Hall.
  destruct (ops_parts_total tg l os Htg Hok) as [ps [Hp Hu]].
  destruct (run_ops_run1 tg l wi Htg _ _ _ _ _ Hok Hp Hr Hall) as [o R].
  destruct (run1_spec tg wi delivered Hlaw ps (writer_new inner) w o None 0 Hu (at_pos_0 tg) R) as [_ [_ [A D]]].
  exists (render 0 ps). rewrite end_of_render, N.add_0_l in A. split; [exact D|]. split; [apply A|].
  intros C. split; [now apply A|]. now apply (at_pos_checks tg).
Qed.

(** ** C04 *)
Lemma write_std_prefix {W} tg l (wi : write_impl W) delivered : lawful wi delivered -> forall t s w w' r,
  write_std tg l wi t s w = (w', r) -> prefix (delivered (w_inner w)) (delivered (w_inner w')).
Proof.
  intros Hlaw t s w w' r H. unfold write_std in H.
  destruct (std_align l t) as [al|]; [|injection H as <- <-; exists []; now rewrite app_nil_r].
  set (pad := align_offset (w_offset w) al) in *.
  destruct (write_padding wi (N.to_nat pad) (w_inner w)) as [i1 [e1|]] eqn:E1.
  - injection H as <- <-. apply (write_padding_spec wi delivered Hlaw) in E1. destruct E1 as [k [_ E1]]. eexists. exact E1.
  - apply (write_padding_spec wi delivered Hlaw) in E1. destruct (uadd tg (w_offset w) pad) as [here|].
    + destruct (bytes_of tg t s) as [bs|]; [|injection H as <- <-; eexists; exact E1].
      destruct (wi i1 bs) as [i2 [e2|]] eqn:E2.
      * injection H as <- <-. apply Hlaw in E2. destruct E2 as [k [_ E2]]. eexists. cbn [w_inner].
        rewrite E2, E1, <- app_assoc. reflexivity.
      * apply Hlaw in E2. destruct (uadd tg here (size_of tg t)); injection H as <- <-; eexists; cbn [w_inner];
          rewrite E2, E1, <- app_assoc; reflexivity.
    + injection H as <- <-. eexists. exact E1.
Qed.

Lemma prefix_refl {A} (p : list A) : prefix p p.
Proof. exists []. now rewrite app_nil_r. Qed.
Lemma prefix_trans {A} (p q r : list A) : prefix p q -> prefix q r -> prefix p r.
Proof. intros [a ->] [b ->]. exists (a ++ b)%list. now rewrite app_assoc. Qed.

Lemma write_val_prefix {W} tg l (wi : write_impl W) delivered : lawful wi delivered -> forall x w w' r,
  write_val tg l wi x w = (w', r) -> prefix (delivered (w_inner w)) (delivered (w_inner w')).
Proof.
  intros Hlaw. induction x as [h v|t s|items IH] using wval_ind'; intros w w' r H.
  - cbn [write_val] in H. unfold write_leaf in H. destruct (out_ty tg l h) as [t|]; [|injection H as <- <-; apply prefix_refl].
    destruct (as_std tg l h v) as [s|]; [|injection H as <- <-; apply prefix_refl].
    eapply write_std_prefix; eassumption.
  - cbn [write_val] in H. eapply write_std_prefix; eassumption.
  - rewrite write_val_WSeq in H. unfold write_iter in H. destruct items as [|x items]; [injection H as <- <-; apply prefix_refl|].
    inversion IH as [|? ? I1 I2]; subst.
    destruct (write_val tg l wi x w) as [w1 r1] eqn:E1. pose proof (I1 _ _ _ E1) as P1.
    destruct r1 as [o| | |]; try (injection H as <- <-; assumption).
    rewrite write_iter_rest_all in H.
    assert (Hrest : prefix (delivered (w_inner w1)) (delivered (w_inner (fst (write_all_vals tg l wi items w1))))).
    { clear -I2. revert w1. induction I2 as [|x items Hx _ IHi]; intros w1; cbn [write_all_vals]; [apply prefix_refl|].
      destruct (write_val tg l wi x w1) as [w2 r2] eqn:E2. pose proof (Hx _ _ _ E2) as P2.
      destruct r2; try exact P2. eapply prefix_trans; [exact P2|apply IHi]. }
    destruct (write_all_vals tg l wi items w1) as [w2 [e|]]; injection H as <- <-; cbn [fst] in Hrest; eapply prefix_trans; eassumption.
Qed.

(** C04.  Whatever operations are performed on a [Writer], successful, failing or
    panicking, bytes already delivered to the sink are never changed or removed. *)
Lemma C04_append_only_proof : forall W tg l (wi : write_impl W) delivered os w w' rs,
  lawful wi delivered ->
  run_ops tg l wi os w = (w', rs) ->
  prefix (delivered (w_inner w)) (delivered (w_inner w')).
Proof.
  intros W tg l wi delivered os w w' rs Hlaw. revert w w' rs.
  induction os as [|o os IH]; intros w w' rs H; cbn [run_ops] in H.
  - injection H as <- <-. apply prefix_refl.
  - destruct (run_op tg l wi o w) as [w1 r] eqn:E. destruct (run_ops tg l wi os w1) as [w2 rs'] eqn:E2.
    injection H as <- <-. eapply prefix_trans; [|eapply IH; exact E2].
    destruct o as [x|xs|t s]; cbn [run_op] in E.
    + eapply write_val_prefix; eassumption.
    + rewrite <- write_val_WSeq in E. eapply write_val_prefix; eassumption.
    + eapply write_std_prefix; eassumption.
Qed.

(** ** C06 *)

(** C06.  [write_iter(items)], [write(&items[..])], [write_slice] and the loop
    [for x in items { writer.write(x)? }] have the same effect on any sink: same
    sink state, same [len()], same error.  When they succeed, the first two return
    the offset of the first element, or [len()] if there is none. *)
Lemma C06_slice_iter_loop_proof : forall W tg l (wi : write_impl W) (w : writer W) items,
  writer_write tg l wi w (WSeq items) = write_iter tg l wi w items
  /\ (forall h vs, items = map (WLeaf h) vs -> write_slice tg l wi w h vs = write_iter tg l wi w items)
  /\ match write_vals tg l wi items w with
     | (w', (offs, None)) =>
         length offs = length items
         /\ write_iter tg l wi w items
            = (w', WOk (match offs with [] => writer_len w | o :: _ => o end))
     | (w', (offs, Some r)) =>
         (length offs < length items)%nat /\ write_iter tg l wi w items = (w', r)
     end.
Proof.
  intros W tg l wi w items. split; [apply write_val_WSeq|]. split.
  { intros h vs ->. apply write_val_WSeq. }
  assert (Hall : forall items w, match write_vals tg l wi items w with
    | (w', (offs, None)) => length offs = length items /\ write_all_vals tg l wi items w = (w', None)
    | (w', (offs, Some r)) => (length offs < length items)%nat /\ write_all_vals tg l wi items w = (w', Some r) end).
  { clear. induction items as [|x items IH]; intros w; cbn [write_vals write_all_vals]; [split; reflexivity|].
    unfold writer_write. destruct (write_val tg l wi x w) as [w1 [o|e| |]]; try (split; [cbn [length]; lia|reflexivity]).
    specialize (IH w1). destruct (write_vals tg l wi items w1) as [w2 [os [r|]]]; cbn [length]; destruct IH; split; (lia || assumption). }
  unfold write_iter. destruct items as [|x items]; [split; reflexivity|].
  cbn [write_vals]. unfold writer_write. destruct (write_val tg l wi x w) as [w1 [o|e| |]]; try (split; [cbn [length]; lia|reflexivity]).
  specialize (Hall items w1). rewrite write_iter_rest_all.
  destruct (write_vals tg l wi items w1) as [w2 [os [r|]]]; destruct Hall as [Hl ->]; cbn [length]; split; (lia || reflexivity).
Qed.

(** ** Writing on an infallible, lawful sink without overflow *)
Lemma write_val_exact {W} tg l (wi : write_impl W) delivered x ps w :
  target_ok tg = true -> lawful wi delivered -> infallible wi -> wval_ok tg l x ->
  parts tg l x = Some ps -> end_of (w_offset w) ps < umod tg ->
  exists w', write_val tg l wi x w = (w', WOk (ret_of x (w_offset w) (map fst (placements (w_offset w) ps))))
    /\ w_offset w' = end_of (w_offset w) ps
    /\ delivered (w_inner w') = (delivered (w_inner w) ++ render (w_offset w) ps)%list.
Proof.
  intros Htg Hlaw Hinf Hok Hp Hlt.
  pose proof (parts_uals tg l Htg _ _ Hok Hp) as Hu.
  pose proof (end_of_ge ps (w_offset w)) as Hge.
  rewrite (write_val_run1 tg l wi Htg x w ps Hok Hp).
  pose proof (run1_offs tg wi Hinf ps w) as R. rewrite offs_ok in R by (assumption || lia).
  destruct R as [i' R]. rewrite R. eexists. split; [reflexivity|]. cbn [w_offset w_inner]. split; [reflexivity|].
  assert (Hat : at_pos tg (w_offset w) (w_offset w)).
  { split; [symmetry; apply N.mod_small; lia|intros; lia]. }
  destruct (run1_spec tg wi delivered Hlaw ps w _ _ None _ Hu Hat R) as [_ [_ [_ D]]]. exact D.
Qed.

(** ** C07 *)

(** C07.  All ways to ask for the size of an [AsStd140] / [AsStd430] value agree. *)
Lemma C07_sizes_agree_proof : forall tg l h v t,
  target_ok tg = true -> out_ty tg l h = Some t -> hval_ok tg h v = true ->
  exists n bs,
    std_size_static tg l h = Some n                                (* T::std140_size_static() *)
    /\ std_size tg l (WLeaf h v) = Some (Done n)                   (* x.std140_size() *)
    /\ as_std_bytes tg l h v = Some bs /\ len bs = n               (* x.as_std140().as_bytes().len() *)
    /\ (exists s, sizer_add tg l h sizer_new = Some (Done (0, s)) /\ sizer_len s = n)
    /\ (exists w, writer_write tg l vec_sink (writer_new []) (WLeaf h v) = (w, WOk 0)
                  /\ writer_len w = n /\ w_inner w = bs).
Proof.
  intros tg l h v t Htg Ho Hv.
  destruct (leaf_parts _ _ _ _ _ Htg Ho Hv) as [s [E1 [E2 [E3 [E4 [E5 [E6 [E7 G]]]]]]]].
  pose proof (size_lt_umod tg Htg _ _ _ Ho) as Hlt.
  exists (size_of tg t), (flat tg t s).
  split; [unfold std_size_static; now rewrite Ho|]. split; [cbn [std_size]; now rewrite Ho|].
  split; [assumption|]. split; [assumption|]. split.
  - destruct (C01_sizer_add_proof tg l h (alN l t) (size_of tg t) sizer_new 0 Htg E4) as [s' [A B]].
    + unfold std_size_static. now rewrite Ho.
    + apply least_aligned_spec. cbn [sizer_len sizer_new sz_offset]. rewrite align_offset_aligned by (exists 0; reflexivity). reflexivity.
    + lia.
    + exists s'. rewrite A, B. split; [reflexivity|lia].
  - assert (Hok : wval_ok tg l (WLeaf h v)) by (split; [eauto|assumption]).
    destruct (write_val_exact tg l vec_sink (fun v => v) (WLeaf h v) _ (writer_new []) Htg vec_lawful vec_infallible Hok E3) as [w' [A [B C]]].
    + cbn [writer_new w_offset end_of]. rewrite align_offset_aligned by (exists 0; reflexivity). lia.
    + cbn [writer_new w_offset w_inner end_of render placements ret_of map hd fst app] in A, B, C.
      rewrite align_offset_aligned in A, B, C by (exists 0; reflexivity).
      exists w'. unfold writer_write. rewrite A. split; [reflexivity|]. split; [unfold writer_len; lia|].
      rewrite C. cbn. now rewrite app_nil_r.
Qed.

(** ** C08 *)
Lemma end_of_0_leaf al bs : end_of 0 [(al, bs)] = len bs.
Proof. cbn [end_of]. rewrite align_offset_aligned by (exists 0; reflexivity). lia. Qed.

(** C08.  For any value that can be written (slices, composites), [std140_size()]
    is the number of bytes that writing it to a fresh [Writer] produces ... *)
Lemma C08_size_of_dynamic_values_proof : forall tg l x ps places total,
  target_ok tg = true -> wval_ok tg l x ->
  parts tg l x = Some ps -> laid_out 0 ps places total -> total < umod tg ->
  exists w o, writer_write tg l vec_sink (writer_new []) x = (w, WOk o)
    /\ std_size tg l x = Some (Done (len (w_inner w)))
    /\ len (w_inner w) = total.
Proof.
  intros tg l x ps places total Htg Hok Hp Hl Hlt.
  apply laid_out_spec in Hl. destruct Hl as [_ ->].
  destruct (write_val_exact tg l vec_sink (fun v => v) x ps (writer_new []) Htg vec_lawful vec_infallible Hok Hp Hlt) as [w' [A [B C]]].
  cbn [writer_new w_inner w_offset app] in *.
  exists w'. eexists. split; [exact A|].
  assert (Hlen : len (w_inner w') = end_of 0 ps) by (rewrite C, end_of_render; lia).
  rewrite Hlen. split; [|reflexivity].
  destruct x as [h v|t s|items].
  - cbn [std_size]. destruct Hok as [[t Ht] Hv].
    destruct (leaf_parts _ _ _ _ _ Htg Ht Hv) as [s [_ [_ [E3 [_ [_ [_ [E7 _]]]]]]]].
    rewrite E3 in Hp. injection Hp as <-. rewrite Ht, end_of_0_leaf, E7. reflexivity.
  - cbn [std_size]. destruct Hok as [Ht Hs].
    destruct (std_parts _ _ _ _ Htg Ht Hs) as [E3 [E4 [_ [E7 _]]]].
    rewrite E3 in Hp. injection Hp as <-. rewrite E4, end_of_0_leaf, E7. reflexivity.
  - unfold std_size.
    pose proof (parts_uals tg l Htg _ _ Hok Hp) as Hu.
    rewrite (write_val_run1 tg l io_sink Htg _ _ ps Hok Hp).
    pose proof (run1_offs tg io_sink io_sink_infallible ps (writer_new tt)) as R.
    cbn [writer_new w_offset] in R. rewrite offs_ok in R; [|assumption|pose proof (umod_pos tg); lia|assumption].
    destruct R as [i' ->]. reflexivity.
Qed.

(** ... and with overflow checks it panics exactly when that number does not fit in
    [usize] (the [unwrap] never fails). *)
Lemma C08_size_panics_iff_overflow_proof : forall tg l x ps places total,
  target_ok tg = true -> t_checks tg = true -> wval_ok tg l x ->
  parts tg l x = Some ps -> laid_out 0 ps places total ->
  std_size tg l x = Some Panicked <-> umod tg <= total.
Proof.
  intros tg l x ps places total Htg Hc Hok Hp Hl.
  destruct (N.lt_ge_cases total (umod tg)) as [Hlt|Hge].
  - destruct (C08_size_of_dynamic_values_proof _ _ _ _ _ _ Htg Hok Hp Hl Hlt) as [w [o [_ [E _]]]].
    rewrite E. split; [discriminate|lia].
  - split; [auto|intros _]. apply laid_out_spec in Hl. destruct Hl as [_ ->].
    destruct x as [h v|t s|items].
    + exfalso. destruct Hok as [[t Ht] Hv].
      destruct (leaf_parts _ _ _ _ _ Htg Ht Hv) as [s [_ [_ [E3 [_ [_ [_ [E7 _]]]]]]]].
      rewrite E3 in Hp. injection Hp as <-. rewrite end_of_0_leaf, E7 in Hge.
      pose proof (size_lt_umod tg Htg _ _ _ Ht). lia.
    + exfalso. destruct Hok as [Ht Hs].
      destruct (std_parts _ _ _ _ Htg Ht Hs) as [E3 [_ [_ [E7 _]]]].
      rewrite E3 in Hp. injection Hp as <-. rewrite end_of_0_leaf, E7 in Hge.
      pose proof (layout_size_lt tg l t Htg Ht). lia.
    + unfold std_size. pose proof (parts_uals tg l Htg _ _ Hok Hp) as Hu.
      rewrite (write_val_run1 tg l io_sink Htg _ _ ps Hok Hp).
      pose proof (run1_offs tg io_sink io_sink_infallible ps (writer_new tt)) as R.
      pose proof (offs_spec tg ps 0 0 Hu (at_pos_0 tg)) as S. cbn [writer_new w_offset] in R.
      destruct (offs tg 0 (dims ps)) as [[os off']|].
      * destruct S as [_ S]. destruct S as [_ S]. specialize (S Hc). lia.
      * destruct R as [w' [os ->]]. reflexivity.
Qed.

(** ** C09 *)

(** C09.  If the sink fails while values are written, what it received is a prefix
    of the fault-free byte string, the error is the one reported, and [len()] does
    not exceed the number of bytes received. *)
Lemma C09_failure_leaves_prefix_proof : forall W tg l (wi : write_impl W) delivered inner xs w offs e ps places total,
  target_ok tg = true -> lawful wi delivered -> typed_all tg l xs ->
  write_vals tg l wi (map leaf xs) (writer_new inner) = (w, (offs, e)) ->
  parts tg l (WSeq (map leaf xs)) = Some ps -> laid_out 0 ps places total -> total < umod tg ->
  exists w0 full got,
    write_vals tg l vec_sink (map leaf xs) (writer_new []) = (w0, (map fst places, None))
    /\ w_inner w0 = full /\ image places total full
    /\ delivered (w_inner w) = (delivered inner ++ got)%list /\ prefix got full
    /\ offs = map fst (firstn (length offs) places)
    /\ writer_len w <= len got
    /\ match e with
       | None => got = full
       | Some r => (exists err, r = WErr err) /\ (length offs < length xs)%nat
           (* everything before the failing value arrived, nothing after it was tried *)
           /\ (forall o bs, nth_error places (length offs) = Some (o, bs) -> len got <= o + len bs)
           /\ (forall k o bs, (k < length offs)%nat -> nth_error places k = Some (o, bs) -> o + len bs <= len got)
       end.
Proof.
  intros W tg l wi delivered inner xs w offs e ps places total Htg Hlaw Hty Hw Hp Hl Hlt.
  apply laid_out_spec in Hl. destruct Hl as [-> ->].
  rewrite (write_vals_run1 tg l wi Htg xs _ ps Hty Hp) in Hw.
  rewrite (write_vals_run1 tg l vec_sink Htg xs _ ps Hty Hp).
  pose proof (parts_uals tg l Htg _ _ (typed_all_ok _ _ _ Hty) Hp) as Hu.
  pose proof (run1_offs tg vec_sink vec_infallible ps (writer_new [])) as R.
  cbn [writer_new w_offset] in R. rewrite offs_ok in R; [|assumption|pose proof (umod_pos tg); lia|assumption].
  destruct R as [full R].
  destruct (run1_spec tg vec_sink (fun v => v) vec_lawful ps (writer_new []) _ _ None 0 Hu (at_pos_0 tg) R) as [_ [_ [_ D]]].
  cbn [w_inner app] in D. subst full.
  destruct (run1_spec tg wi delivered Hlaw ps (writer_new inner) _ _ e 0 Hu (at_pos_0 tg) Hw) as [F S].
  cbn [writer_new w_inner] in S.
  assert (Hoffs : offs = map fst (firstn (length offs) (placements 0 ps))).
  { assert (Hend : forall o, In o (map fst (firstn (length offs) (placements 0 ps))) -> o < umod tg).
    { intros o Hin. apply in_map_iff in Hin. destruct Hin as [[o' c] [E Hin]]. cbn [fst] in E. subst o'.
      assert (Hin' : In (o, c) (placements 0 ps)).
      { rewrite <- (firstn_skipn (length offs) (placements 0 ps)). apply in_or_app. now left. }
      pose proof (increasing_in _ _ _ _ _ (increasing_placements ps 0) Hin'). lia. }
    revert F Hend. generalize (map fst (firstn (length offs) (placements 0 ps))). clear. intros q F Hend.
    induction F as [|o p os q Hop F IH]; [reflexivity|]. f_equal.
    - apply (at_pos_small tg); [|assumption]. apply Hend. now left.
    - apply IH. intros. apply Hend. now right. }
  assert (Hlps : length ps = length xs).
  { rewrite parts_WSeq in Hp. clear -Htg Hty Hp. revert ps Hp. induction Hty as [|[h v] xs [[t Ht] Hv] _ IH]; intros ps Hp.
    - injection Hp as <-. reflexivity.
    - cbn [map parts_list] in Hp. change (leaf (h, v)) with (WLeaf h v) in Hp. cbn [fst snd] in *.
      destruct (leaf_parts _ _ _ _ _ Htg Ht Hv) as [s [_ [_ [E [E4 [E5 _]]]]]]. rewrite E in Hp.
      destruct (parts_list tg l (map leaf xs)) as [q|]; [|discriminate]. injection Hp as <-.
      cbn [app length]. now rewrite (IH q eq_refl). }
  assert (Hpl : forall n ps cur, firstn n (placements cur ps) = placements cur (firstn n ps)).
  { clear. induction n as [|n IH]; intros [|[al bs] ps] cur; try reflexivity. cbn [placements firstn]. now rewrite IH. }
  assert (Hnth : forall n ps cur o bs, nth_error (placements cur ps) n = Some (o, bs) ->
     exists al rest, skipn n ps = (al, bs) :: rest /\ o = end_of cur (firstn n ps) + align_offset (end_of cur (firstn n ps)) al).
  { clear. induction n as [|n IH]; intros [|[al bs'] ps] cur o bs H; try discriminate.
    - injection H as <- <-. exists al, ps. split; reflexivity.
    - cbn [placements nth_error] in H. apply IH in H. cbn [firstn skipn end_of]. exact H. }
  eexists. exists (render 0 ps).
  destruct e as [[oo|er| |]|]; try contradiction.
  - destruct S as [S1 [[k S2] S3]]. cbn zeta in S3.
    exists (firstn k (render 0 ps)). split; [exact R|]. split; [reflexivity|]. split; [apply render_is_image|].
    split; [assumption|]. split; [exists (skipn k (render 0 ps)); symmetry; apply firstn_skipn|].
    split; [assumption|].
    (* the number of bytes received *)
    set (n := length offs) in *. set (pos1 := end_of 0 (firstn n ps)) in *.
    destruct (skipn n ps) as [|[al bs] rest] eqn:Esk; [contradiction|].
    assert (Hpos1 : pos1 + align_offset pos1 al + len bs <= end_of 0 ps).
    { rewrite <- (firstn_skipn n ps), Esk, end_of_app. fold pos1. cbn [end_of].
      apply (N.le_trans _ (pos1 + align_offset pos1 al + len bs)); [lia|apply end_of_ge]. }
    assert (Hgot : exists m, len (firstn k (render 0 ps)) = pos1 + m /\ m <= align_offset pos1 al + len bs /\ w_offset w <= pos1 + m).
    { destruct S3 as [[k' [Q1 [Q2 Q3]]]|[k' [Q1 [Q2 Q3]]]]; rewrite S2 in Q3; rewrite <- app_assoc in Q3; apply app_inv_head in Q3; rewrite Q3.
      - exists k'. rewrite len_app, len_zeros. rewrite <- (N.add_0_l (len (render 0 (firstn n ps)))), <- end_of_render. fold pos1.
        split; [reflexivity|]. split; [lia|]. apply (at_pos_small tg) in Q2; [lia|]. lia.
      - exists (align_offset pos1 al + N.of_nat k').
        rewrite !len_app, len_zeros. rewrite <- (N.add_0_l (len (render 0 (firstn n ps)))), <- end_of_render. fold pos1.
        assert (len (firstn k' bs) = N.of_nat k') by (unfold len; rewrite firstn_length; lia).
        split; [lia|]. split; [unfold len; lia|]. apply (at_pos_small tg) in Q2; lia. }
    destruct Hgot as [m [G1 [G2 G3]]].
    split; [unfold writer_len; lia|]. split; [eauto|]. split; [lia|]. split.
    + intros o bs' Hn. destruct (Hnth _ _ _ _ _ Hn) as [al' [rest' [E1 E2]]].
      change (length offs) with n in E1. rewrite Esk in E1. injection E1 as <- <- <-.
      change (length offs) with n in E2. fold pos1 in E2. lia.
    + intros j o bs' Hj Hn.
      assert (Hin : In (o, bs') (placements 0 (firstn n ps))).
      { rewrite <- Hpl. assert (Hn' : nth_error (firstn n (placements 0 ps)) j = Some (o, bs')).
        { rewrite <- Hn. rewrite <- (firstn_skipn n (placements 0 ps)) at 2. symmetry. apply nth_error_app1.
          rewrite firstn_length. apply Nat.min_glb_lt; [assumption|]. apply nth_error_Some. congruence. }
        eapply nth_error_In; exact Hn'. }
      pose proof (increasing_in _ _ _ _ _ (increasing_placements (firstn n ps) 0) Hin). fold pos1 in H. lia.
  - destruct S as [_ [_ [_ S]]]. lia.
  - destruct S as [S1 [S2 S3]]. exists (render 0 ps).
    split; [exact R|]. split; [reflexivity|]. split; [apply render_is_image|]. split; [assumption|].
    split; [apply prefix_refl|]. split; [assumption|]. split; [|reflexivity].
    unfold writer_len. apply (at_pos_small tg) in S2; [|assumption]. rewrite S2, end_of_render. lia.
Qed.

(** ** C10 *)

(** C10.  What [len()] is after a failed [write] of one value, for a writer whose
    [len()] was the number of bytes delivered: if the failure happened while padding
    was being written, [len()] is unchanged (although [k] padding bytes may have
    been delivered); if it happened in the value itself, [len()] includes the
    padding but not the [k] bytes of the value that were delivered. *)
Lemma C10_len_after_error_proof : forall W tg l (wi : write_impl W) delivered h v a bs w w' e o,
  target_ok tg = true -> lawful wi delivered ->
  (exists t, out_ty tg l h = Some t) -> hval_ok tg h v = true ->
  out_align tg l h = Some a -> as_std_bytes tg l h v = Some bs ->
  writer_len w = len (delivered (w_inner w)) ->
  least_aligned a (writer_len w) o -> o + len bs < umod tg ->
  writer_write tg l wi w (WLeaf h v) = (w', WErr e) ->
  (exists k, k <= o - writer_len w
     /\ delivered (w_inner w') = (delivered (w_inner w) ++ repeat x00 (N.to_nat k))%list
     /\ writer_len w' = writer_len w
     /\ len (delivered (w_inner w')) = writer_len w' + k)
  \/ (exists k, (k <= length bs)%nat
     /\ delivered (w_inner w') = (delivered (w_inner w) ++ repeat x00 (N.to_nat (o - writer_len w)) ++ firstn k bs)%list
     /\ writer_len w' = o
     /\ len (delivered (w_inner w')) = writer_len w' + N.of_nat k).
Proof.
  intros W tg l wi delivered h v a bs w w' e o Htg Hlaw [t Ht] Hv Ha Hb Hlen Ho Hlt Hw.
  destruct (leaf_parts _ _ _ _ _ Htg Ht Hv) as [s [E1 [E2 [E3 [E4 [E5 [E6 [E7 G]]]]]]]].
  rewrite Ha in E4. injection E4 as ->. rewrite Hb in E5. injection E5 as E5. rewrite <- E5 in E3.
  unfold writer_write in Hw. assert (Hok : wval_ok tg l (WLeaf h v)) by (split; [eauto|assumption]).
  rewrite (write_val_run1 tg l wi Htg _ w _ Hok E3) in Hw.
  pose proof (parts_uals tg l Htg _ _ Hok E3) as Hu. pose proof (Forall_inv Hu) as Hu1. cbn [fst] in Hu1.
  apply least_aligned_spec in Ho. unfold writer_len in *.
  cbn [run1] in Hw. destruct (write1 tg wi (alN l t, bs) w) as [w1 r1] eqn:R.
  assert (Hat : at_pos tg (w_offset w) (w_offset w)).
  { split; [symmetry; apply N.mod_small; lia|intros; lia]. }
  pose proof (write1_spec tg wi delivered Hlaw _ _ _ _ _ _ Hu1 Hat R) as S. cbn zeta in S.
  set (pad := align_offset (w_offset w) (alN l t)) in *.
  destruct r1 as [o1|er| |]; try discriminate. injection Hw as <- <-.
  assert (Epad : o - w_offset w = pad) by lia. rewrite Epad.
  destruct S as [[k [Q1 [Q2 Q3]]]|[k [Q1 [Q2 Q3]]]]; [left|right]; exists k; (split; [assumption|]).
  - split; [exact Q3|]. split; [exact Q2|]. rewrite Q3, len_app. fold (zeros k). rewrite len_zeros. lia.
  - split; [exact Q3|]. apply (at_pos_small tg) in Q2; [|lia]. split; [lia|].
    rewrite Q3, !len_app, len_zeros. replace (len (firstn k bs)) with (N.of_nat k) by (unfold len; rewrite firstn_length; lia). lia.
Qed.

(** ** C11 *)
Lemma slice_write_padding n : forall f r,
  let m := Nat.min n (length r) in
  write_padding slice_sink n (f, r)
  = ((f ++ repeat x00 m, skipn m r)%list, if (n <=? length r)%nat then None else Some WriteZero).
Proof.
  induction n as [|n IH]; intros f r; cbn [write_padding].
  - cbn. now rewrite app_nil_r.
  - unfold slice_sink. destruct r as [|b r].
    + cbn. reflexivity.
    + cbn [length Nat.min firstn skipn Nat.ltb Nat.leb].
      rewrite IH. cbn [repeat]. rewrite <- app_assoc. reflexivity.
Qed.

Lemma skipn_skipn {A} (n m : nat) (l : list A) : skipn n (skipn m l) = skipn (m + n) l.
Proof.
  revert l. induction m as [|m IH]; intros l; [reflexivity|].
  destruct l as [|x l]; [now rewrite !skipn_nil|]. cbn [skipn Nat.add]. apply IH.
Qed.

Lemma run1_slice tg ps : forall f r off, uals tg ps -> end_of off ps < umod tg ->
  exists f' off' os e, run1 tg slice_sink ps (Writer (f, r) off) = (Writer ((f ++ f')%list, skipn (length f') r) off', (os, e))
    /\ (length f' <= length r)%nat
    /\ (e = None <-> len (render off ps) <= len r).
Proof.
  induction ps as [|[al bs] ps IH]; intros f r off Hu Hlt; cbn [run1 render end_of] in *.
  - exists [], off, [], None. rewrite app_nil_r. split; [reflexivity|]. split; [cbn; lia|]. split; [intros _|]; [cbn; lia|reflexivity].
  - inversion Hu as [|? ? Hu1 Hu2]; subst. unfold write1. cbn [w_offset w_inner].
    set (pad := align_offset off al) in *. rewrite slice_write_padding. cbn zeta.
    pose proof (end_of_ge ps (off + pad + len bs)) as Hge.
    destruct (Nat.leb_spec (N.to_nat pad) (length r)) as [Hp|Hp].
    + rewrite Nat.min_l by assumption.
      unfold uadd at 1. replace (off + pad <? umod tg) with true by (symmetry; apply N.ltb_lt; lia).
      unfold slice_sink at 1.
      destruct (Nat.ltb_spec (Nat.min (length bs) (length (skipn (N.to_nat pad) r))) (length bs)) as [Hb|Hb].
      * set (m := Nat.min (length bs) (length (skipn (N.to_nat pad) r))) in *.
        exists (zeros pad ++ firstn m bs)%list. do 3 eexists. split.
        { cbn [length]. f_equal. f_equal. f_equal. rewrite <- app_assoc. reflexivity.
          rewrite skipn_skipn. f_equal. rewrite app_length, firstn_length. unfold zeros. rewrite repeat_length. lia. }
        assert (Hm : m = Nat.min (length bs) (length r - N.to_nat pad)) by (unfold m; now rewrite skipn_length). split; [rewrite app_length, firstn_length; unfold zeros; rewrite repeat_length; lia|].
        split; [discriminate|]. intros H. exfalso. rewrite !len_app, len_zeros in H. unfold len in H. lia.
      * rewrite skipn_length in Hb.
        replace (Nat.min (length bs) (length (skipn (N.to_nat pad) r))) with (length bs) by (rewrite skipn_length; lia).
        rewrite firstn_all. unfold uadd. replace (off + pad + len bs <? umod tg) with true by (symmetry; apply N.ltb_lt; lia).
        destruct (IH ((f ++ repeat x00 (N.to_nat pad)) ++ bs)%list (skipn (length bs) (skipn (N.to_nat pad) r)) (off + pad + len bs) Hu2 Hlt)
          as [f' [off' [os [e [E [L1 L2]]]]]].
        rewrite E. exists (zeros pad ++ bs ++ f')%list. do 3 eexists. split.
        { f_equal. f_equal. f_equal. unfold zeros. now rewrite <- !app_assoc.
          rewrite !skipn_skipn. f_equal. rewrite !app_length. unfold zeros. rewrite repeat_length. lia. }
        rewrite !skipn_length in L1. split; [rewrite !app_length; unfold zeros; rewrite repeat_length; lia|].
        rewrite L2. rewrite !len_app, len_zeros. unfold len in *. rewrite !skipn_length. lia.
    + rewrite Nat.min_r by lia. exists (repeat x00 (length r)). do 3 eexists. split.
      { f_equal. f_equal. f_equal. now rewrite repeat_length. }
      rewrite repeat_length. split; [lia|]. split; [discriminate|].
      intros H. exfalso. rewrite !len_app, len_zeros in H. unfold len in H. lia.
Qed.

(** C11.  Writing values through a [Writer] over a [&mut [u8]]: all writes succeed
    exactly when the buffer is at least as large as the [Sizer] says; what is
    written is a prefix of the fault-free image (all of it on success), the rest
    of the buffer keeps its contents. *)
Lemma C11_fixed_buffer_proof : forall tg l xs buf w offs e ps places total,
  target_ok tg = true -> typed_all tg l xs ->
  write_vals tg l slice_sink (map leaf xs) (writer_new ([], buf)) = (w, (offs, e)) ->
  parts tg l (WSeq (map leaf xs)) = Some ps -> laid_out 0 ps places total -> total < umod tg ->
  exists os s filled rest full,
    sizer_run tg l (map fst xs) sizer_new = Some (Done (os, s))
    /\ (e = None <-> sizer_len s <= len buf)
    /\ w_inner w = (filled, rest)
    /\ rest = skipn (length filled) buf /\ len filled + len rest = len buf
    /\ image places total full /\ prefix filled full
    /\ (e = None -> filled = full /\ offs = os).
Proof.
  intros tg l xs buf w offs e ps places total Htg Hty Hw Hp Hl Hlt.
  pose proof (parts_uals tg l Htg _ _ (typed_all_ok _ _ _ Hty) Hp) as Hu.
  assert (Hw' : run1 tg slice_sink ps (writer_new ([], buf)) = (w, (offs, e))).
  { rewrite <- (write_vals_run1 tg l slice_sink Htg xs _ ps Hty Hp). exact Hw. }
  destruct (C09_failure_leaves_prefix_proof _ tg l slice_sink fst ([], buf) xs w offs e ps places total Htg slice_lawful Hty Hw Hp Hl Hlt)
    as [w0 [full [got [P1 [P2 [P3 [P4 [P5 [P6 [P7 P8]]]]]]]]]]. cbn [fst app] in P4.
  apply laid_out_spec in Hl. destruct Hl as [-> ->].
  rewrite (sizer_run_offs tg l Htg xs ps _ Hty Hp). cbn [sizer_new sz_offset].
  rewrite offs_ok by (assumption || (pose proof (umod_pos tg); lia)).
  destruct (run1_slice tg ps [] buf 0 Hu Hlt) as [f' [off' [os' [e' [R [L1 L2]]]]]].
  unfold writer_new in Hw'. rewrite R in Hw'. injection Hw' as <- <- <-. cbn [w_inner fst app] in *.
  do 2 eexists. exists f', (skipn (length f') buf), full. split; [reflexivity|]. split.
  { rewrite L2. cbn [sizer_len sz_offset]. rewrite end_of_render, N.add_0_l. reflexivity. }
  split; [reflexivity|]. split; [reflexivity|]. split.
  { unfold len. rewrite skipn_length. lia. }
  split; [assumption|]. split; [now rewrite P4|]. intros ->. split; [congruence|].
  rewrite P6. assert (Hn : (length (placements 0 ps) <= length os')%nat).
  { destruct (run1_spec tg slice_sink fst slice_lawful ps (Writer ([], buf) 0) _ _ None 0 Hu (at_pos_0 tg) R) as [_ [Hn _]]. rewrite Hn.
    clear. generalize 0. induction ps as [|[al bs] ps IH]; intros c; [cbn; lia|]. cbn [placements length]. specialize (IH (c + align_offset c al + len bs)). lia. }
  now rewrite firstn_all2.
Qed.

(** ** C12, Writer *)

(** C12, Writer: on a sink that does not fail, writing any value with overflow
    checks enabled either succeeds with the correct [len()], or panics, and it
    panics exactly when the correct end offset is not representable. *)
Lemma C12_writer_overflow_proof : forall W tg l (wi : write_impl W) x w ps places total,
  target_ok tg = true -> t_checks tg = true -> infallible wi -> wval_ok tg l x ->
  writer_len w < umod tg ->
  parts tg l x = Some ps -> laid_out (writer_len w) ps places total ->
  (total < umod tg /\ exists w' o, writer_write tg l wi w x = (w', WOk o) /\ writer_len w' = total
     (* the offset of the value; of the first element of a slice *)
     /\ (forall h v, x = WLeaf h v -> map fst places = [o])
     /\ (forall h v xs, x = WSeq (WLeaf h v :: xs) -> hd_error (map fst places) = Some o)
     /\ (forall t s, x = WStd t s -> map fst places = [o])
     /\ (forall t s xs, x = WSeq (WStd t s :: xs) -> hd_error (map fst places) = Some o)
     /\ (x = WSeq [] -> o = writer_len w))
  \/ (umod tg <= total /\ exists w', writer_write tg l wi w x = (w', WPanic)).
Proof.
  intros W tg l wi x w ps places total Htg Hc Hinf Hok Hw Hp Hl.
  apply laid_out_spec in Hl. destruct Hl as [-> ->]. unfold writer_len, writer_write in *.
  pose proof (parts_uals tg l Htg _ _ Hok Hp) as Hu.
  rewrite (write_val_run1 tg l wi Htg x w ps Hok Hp).
  pose proof (run1_offs tg wi Hinf ps w) as R.
  assert (Hat : at_pos tg (w_offset w) (w_offset w)).
  { split; [symmetry; apply N.mod_small; lia|intros; lia]. }
  pose proof (offs_spec tg ps _ _ Hu Hat) as S.
  destruct (offs tg (w_offset w) (dims ps)) as [[os off']|].
  - left. destruct S as [S0 S]. split; [now apply S|]. destruct R as [i' ->]. do 2 eexists. split; [reflexivity|].
    split; [cbn [w_offset]; now apply (at_pos_checks tg)|].
    assert (Eos : os = map fst (placements (w_offset w) ps)).
    { clear - S0 Hc. induction S0 as [|a b os ps' H _ IH]; [reflexivity|]. f_equal; [now apply (at_pos_checks tg)|assumption]. }
    rewrite Eos. clear - Hp. split; [|split; [|split; [|split]]].
    + intros h v ->. cbn [parts] in Hp. destruct (out_align tg l h); [|discriminate]. destruct (as_std_bytes tg l h v); [|discriminate].
      injection Hp as <-. reflexivity.
    + intros h v xs ->. rewrite parts_WSeq in Hp. cbn [parts_list parts] in Hp. destruct (out_align tg l h); [|discriminate].
      destruct (as_std_bytes tg l h v); [|discriminate]. destruct (parts_list tg l xs); [|discriminate]. injection Hp as <-. reflexivity.
    + intros t s ->. cbn [parts] in Hp. destruct (std_align l t); [|discriminate]. destruct (bytes_of tg t s); [|discriminate].
      injection Hp as <-. reflexivity.
    + intros t s xs ->. rewrite parts_WSeq in Hp. cbn [parts_list parts] in Hp. destruct (std_align l t); [|discriminate].
      destruct (bytes_of tg t s); [|discriminate]. destruct (parts_list tg l xs); [|discriminate]. injection Hp as <-. reflexivity.
    + intros ->. reflexivity.
  - right. destruct S as [_ S]. split; [assumption|]. destruct R as [w' [os ->]]. eauto.
Qed.

(** ** C13 *)

(** C13.  Without overflow checks nothing ever panics, and even when the offset
    wraps around, the byte stream is the correct (unbounded) layout: every value is
    at a correctly aligned stream position; reported offsets and [len()] are the
    true ones modulo [usize::MAX + 1]. *)
Lemma C13_wraparound_proof : forall W tg l (wi : write_impl W) delivered inner xs ps places total,
  target_ok tg = true -> t_checks tg = false -> lawful wi delivered -> infallible wi -> typed_all tg l xs ->
  parts tg l (WSeq (map leaf xs)) = Some ps -> laid_out 0 ps places total ->
  exists w offs img,
    write_vals tg l wi (map leaf xs) (writer_new inner) = (w, (offs, None))
    /\ delivered (w_inner w) = (delivered inner ++ img)%list /\ image places total img
    /\ offs = map (fun p => fst p mod umod tg) places
    /\ writer_len w = total mod umod tg.
Proof.
  intros W tg l wi delivered inner xs ps places total Htg Hc Hlaw Hinf Hty Hp Hl.
  apply laid_out_spec in Hl. destruct Hl as [-> ->].
  pose proof (parts_uals tg l Htg _ _ (typed_all_ok _ _ _ Hty) Hp) as Hu.
  rewrite (write_vals_run1 tg l wi Htg xs _ ps Hty Hp).
  pose proof (run1_offs tg wi Hinf ps (writer_new inner)) as R.
  pose proof (offs_spec tg ps 0 0 Hu (at_pos_0 tg)) as S. cbn [writer_new w_offset] in R.
  destruct (offs tg 0 (dims ps)) as [[os off']|].
  - destruct R as [i' R]. destruct S as [F [S _]].
    destruct (run1_spec tg wi delivered Hlaw ps (writer_new inner) _ _ None 0 Hu (at_pos_0 tg) R) as [_ [_ [_ D]]].
    exists (Writer i' off'), os, (render 0 ps). split; [exact R|]. split; [exact D|]. split; [apply render_is_image|].
    split; [|exact S]. clear -F. rewrite <- map_map with (g := fun o => o mod umod tg).
    induction F as [|o p os q [E _] _ IH]; [reflexivity|]. cbn [map]. now rewrite <- IH, <- E.
  - destruct S as [S _]. congruence.
Qed.

(** ** C28 *)

(** C28.  [DynamicUniform<T>]: ALIGNMENT is the larger of 256 and [T]'s, so every
    value is written at a multiple of 256 and of [T]'s ALIGNMENT; the bytes are
    exactly those of the wrapped value; conversions round-trip. *)
Lemma C28_dynamic_uniform_proof : forall W tg (wi : write_impl W) delivered h v a bs w o,
  target_ok tg = true -> lawful wi delivered -> infallible wi ->
  hval_ok tg h v = true -> out_align tg L140 h = Some a -> as_std_bytes tg L140 h v = Some bs ->
  least_aligned (N.max 256 a) (writer_len w) o -> o + len bs < umod tg ->
  out_align tg L140 (HDyn h) = Some (N.max 256 a)
  /\ std_size_static tg L140 (HDyn h) = std_size_static tg L140 h
  /\ as_std_bytes tg L140 (HDyn h) (HVDyn v) = Some bs
  /\ aligned 256 o /\ aligned a o
  /\ (exists w', writer_write tg L140 wi w (WLeaf (HDyn h) (HVDyn v)) = (w', WOk o)
        /\ delivered (w_inner w') = (delivered (w_inner w) ++ repeat x00 (N.to_nat (o - writer_len w)) ++ bs)%list
        /\ writer_len w' = o + len bs)
  /\ (exists s, as_std tg L140 (HDyn h) (HVDyn v) = Some s /\ from_std tg L140 (HDyn h) s = Some (HVDyn v)).
Proof.
  intros W tg wi delivered h v a bs w o Htg Hlaw Hinf Hv Ha Hb Ho Hlt.
  unfold out_align in Ha. destruct (out_ty tg L140 h) as [t|] eqn:Ht; [|discriminate].
  destruct (leaf_parts _ _ _ _ _ Htg Ht Hv) as [s [E1 [E2 [E3 [E4 [E5 [E6 [E7 G]]]]]]]].
  rewrite Hb in E5. injection E5 as ->. rewrite (good_alN _ _ _ G) in Ha. injection Ha as <-.
  assert (Ht' : out_ty tg L140 (HDyn h) = Some (TDyn t)) by (cbn [out_ty]; now rewrite Ht).
  assert (Ha' : std_align L140 (TDyn t) = Some (N.max 256 (alN L140 t))).
  { cbn [std_align]. rewrite (good_alN _ _ _ G), max_spec. reflexivity. }
  assert (Has : as_std tg L140 (HDyn h) (HVDyn v) = Some (SNew s)) by (cbn [as_std]; now rewrite E1).
  assert (Hbs : as_std_bytes tg L140 (HDyn h) (HVDyn v) = Some (flat tg t s)).
  { unfold as_std_bytes. rewrite Ht', Has. unfold bytes_of. cbn [mem_of]. exact E6. }
  assert (Hal : out_align tg L140 (HDyn h) = Some (N.max 256 (alN L140 t))).
  { unfold out_align. now rewrite Ht'. }
  assert (Hdiv : aligned (N.max 256 (alN L140 t)) o) by apply Ho.
  apply aligned_divide in Hdiv. destruct Hdiv as [Hdiv|Hdiv]; [lia|].
  assert (P256 : pow2 256) by (exists 8; reflexivity).
  split; [assumption|]. split; [unfold std_size_static; now rewrite Ht', Ht|]. split; [assumption|].
  split; [|split; [|split]].
  - apply aligned_divide. right. transitivity (N.max 256 (alN L140 t)); [|assumption].
    destruct (good_alN_pow2 _ _ _ G) as [->|P]; [exists 1; reflexivity|]. now apply pow2_divide_max_l.
  - apply aligned_divide. destruct (good_alN_pow2 _ _ _ G) as [Z|P]; [left; assumption|right].
    transitivity (N.max 256 (alN L140 t)); [|assumption]. rewrite N.max_comm. now apply pow2_divide_max_l.
  - apply least_aligned_spec in Ho. unfold writer_len in *.
    assert (Hok : wval_ok tg L140 (WLeaf (HDyn h) (HVDyn v))).
    { split; [eauto|]. exact Hv. }
    assert (Hp : parts tg L140 (WLeaf (HDyn h) (HVDyn v)) = Some [(N.max 256 (alN L140 t), flat tg t s)]).
    { cbn [parts]. now rewrite Hal, Hbs. }
    destruct (write_val_exact tg L140 wi delivered _ _ w Htg Hlaw Hinf Hok Hp) as [w' [A [B C]]].
    { cbn [end_of]. lia. }
    cbn [ret_of placements map fst hd end_of render] in A, B, C. rewrite <- Ho in A, B.
    exists w'. split; [exact A|]. split; [|exact B]. rewrite C, app_nil_r. unfold zeros. do 3 f_equal. lia.
  - exists (SNew s). split; [assumption|].
    destruct (conv_total tg Htg _ _ _ Ht') as [Hc _]. destruct (Hc (HVDyn v) Hv) as [s' [Q1 [_ Q3]]].
    rewrite Has in Q1. injection Q1 as <-. exact Q3.
Qed.

(** ** C40 *)
Lemma render_shift ps : forall base cur, Forall (fun p => aligned (fst p) base) ps ->
  render (base + cur) ps = render cur ps /\ end_of (base + cur) ps = base + end_of cur ps.
Proof.
  induction ps as [|[al bs] ps IH]; intros base cur H; [split; reflexivity|].
  inversion H as [|? ? H1 H2]; subst. cbn [fst] in H1. cbn [render end_of].
  assert (E : align_offset (base + cur) al = align_offset cur al).
  { apply aligned_divide in H1. destruct H1 as [->|D]; [reflexivity|]. now apply align_offset_add. }
  rewrite E. replace (base + cur + align_offset cur al + len bs) with (base + (cur + align_offset cur al + len bs)) by lia.
  destruct (IH base (cur + align_offset cur al + len bs) H2) as [-> ->]. split; reflexivity.
Qed.

Lemma places_shift ps : forall base cur, Forall (fun p => aligned (fst p) base) ps ->
  map fst (placements (base + cur) ps) = map (N.add base) (map fst (placements cur ps)).
Proof.
  induction ps as [|[al bs] ps IH]; intros base cur H; [reflexivity|].
  inversion H as [|? ? H1 H2]; subst. cbn [fst] in H1. cbn [placements map fst].
  assert (E : align_offset (base + cur) al = align_offset cur al).
  { apply aligned_divide in H1. destruct H1 as [->|D]; [reflexivity|]. now apply align_offset_add. }
  rewrite E. f_equal; [lia|].
  replace (base + cur + align_offset cur al + len bs) with (base + (cur + align_offset cur al + len bs)) by lia.
  now apply IH.
Qed.

Lemma ret_of_shift base : forall x off os, ret_of x (base + off) (map (N.add base) os) = base + ret_of x off os.
Proof.
  fix IH 1. intros [h v|t s|[|x xs]] off os; cbn [ret_of]; [now destruct os|now destruct os|reflexivity|apply IH].
Qed.

(** C40.  At a position that is aligned for every part of a value, writing the value
    appends exactly the bytes that a fresh [Writer] produces for it, and [len()]
    grows by [std140_size()]. *)
Lemma C40_position_independent_proof : forall W tg l (wi : write_impl W) delivered x w ps n,
  target_ok tg = true -> lawful wi delivered -> infallible wi -> wval_ok tg l x ->
  parts tg l x = Some ps -> Forall (fun p => aligned (fst p) (writer_len w)) ps ->
  std_size tg l x = Some (Done n) -> writer_len w + n < umod tg ->
  (t_checks tg = true \/ exists places, laid_out 0 ps places n) ->
  exists w' o w0 o0,
    writer_write tg l vec_sink (writer_new []) x = (w0, WOk o0)
    /\ writer_write tg l wi w x = (w', WOk o)
    /\ delivered (w_inner w') = (delivered (w_inner w) ++ w_inner w0)%list
    /\ writer_len w' = writer_len w + n
    /\ o = writer_len w + o0.
Proof.
  intros W tg l wi delivered x w ps n Htg Hlaw Hinf Hok Hp Hal Hn Hlt Hno.
  assert (Hend : end_of 0 ps = n).
  { destruct Hno as [Hc|[places Hl]]; [|apply laid_out_spec in Hl; now destruct Hl].
    destruct (laid_out_total 0 ps) as [places [total Hl]].
    destruct (N.lt_ge_cases total (umod tg)) as [H|H].
    - destruct (C08_size_of_dynamic_values_proof _ _ _ _ _ _ Htg Hok Hp Hl H) as [w1 [o1 [_ [E1 E2]]]].
      apply laid_out_spec in Hl. destruct Hl as [_ ->]. rewrite Hn in E1. injection E1 as E1. lia.
    - apply (C08_size_panics_iff_overflow_proof _ _ _ _ _ _ Htg Hc Hok Hp Hl) in H. congruence. }
  unfold writer_len in *.
  destruct (render_shift ps (w_offset w) 0 Hal) as [S1 S2]. rewrite N.add_0_r in S1, S2.
  destruct (write_val_exact tg l vec_sink (fun v => v) x ps (writer_new []) Htg vec_lawful vec_infallible Hok Hp) as [w0 [A0 [B0 C0]]].
  { cbn [writer_new w_offset]. lia. }
  destruct (write_val_exact tg l wi delivered x ps w Htg Hlaw Hinf Hok Hp) as [w' [A [B C]]].
  { rewrite S2. lia. }
  exists w'. eexists. exists w0. eexists. split; [exact A0|]. split; [exact A|].
  cbn [writer_new w_inner w_offset app] in C0. split; [now rewrite C, S1, C0|]. split; [rewrite B, S2; lia|].
  pose proof (places_shift ps (w_offset w) 0 Hal) as S3. rewrite N.add_0_r in S3. rewrite S3.
  rewrite <- (N.add_0_r (w_offset w)) at 1. now rewrite ret_of_shift.
Qed.

(** ** Non-vacuity: concrete cases that meet the hypotheses *)

Ltac typed := repeat (constructor; [split; [eexists; vm_compute; reflexivity|vm_compute; reflexivity]|]); constructor.

Lemma sample_typed tg l : In tg [x86_64; x86_64_release; i686; powerpc64; avr_release] -> typed_all tg l sample_xs.
Proof. intros H. cbn [In] in H. decompose [or] H; try contradiction; subst tg; destruct l; typed. Qed.

Lemma C01_ex_proof :
  target_ok x86_64 = true
  /\ out_align x86_64 L140 point_light = Some 16 /\ std_size_static x86_64 L140 point_light = Some 32
  /\ least_aligned 16 (sizer_len (Sizer 4)) 16 /\ 16 + 32 < umod x86_64
  /\ sizer_add x86_64 L140 point_light (Sizer 4) = Some (Done (16, Sizer 48)).
Proof.
  repeat (split; [vm_compute; reflexivity|]). split; [now apply least_aligned_spec|]. split; vm_compute; reflexivity.
Qed.

Lemma C02_ex_proof :
  typed_all x86_64 L140 sample_xs /\ infallible vec_sink
  /\ sizer_run x86_64 L140 (map fst sample_xs) sizer_new = Some (Done ([0; 16; 48; 64; 76; 96], Sizer 256)).
Proof. split; [apply sample_typed; cbn; tauto|]. split; [apply vec_infallible|vm_compute; reflexivity]. Qed.

Lemma sample_ops_ok : Forall (op_ok x86_64 L140) sample_ops.
Proof.
  unfold sample_ops. constructor; [|constructor; [|constructor; [|constructor; [|constructor]]]].
  1-3: cbn [op_ok wval_ok light_slice]; repeat (split || exact I); try (eexists; vm_compute; reflexivity); vm_compute; reflexivity.
  split; [|vm_compute; reflexivity]. apply (lt_crate _ _ (HPrim PF64)). vm_compute. reflexivity.
Qed.

(** a history of successful operations; the sink already contains a byte *)
Lemma C03_ex_proof :
  Forall (op_ok x86_64 L140) sample_ops
  /\ (let '(w, rs) := run_ops x86_64 L140 vec_sink sample_ops (writer_new [xff]) in
      rs = [WOk 0; WOk 16; WOk 80; WOk 88] /\ all_ok rs /\ writer_len w = 96 /\ len (w_inner w) = 97)
  /\ (exists ps, ops_parts x86_64 L140 sample_ops = Some ps /\ length ps = 5%nat).
Proof.
  split; [apply sample_ops_ok|]. split.
  - destruct (run_ops x86_64 L140 vec_sink sample_ops (writer_new [xff])) as [w rs] eqn:E.
    vm_compute in E. injection E as <- <-. split; [reflexivity|]. split; [repeat constructor; eexists; reflexivity|]. split; reflexivity.
  - eexists. split; [vm_compute; reflexivity|reflexivity].
Qed.

(** a scripted sink: accepts 3 bytes, is interrupted, accepts 10, then fails *)
Definition flaky : list resp * list byte := ([RAccept 3; RInterrupted; RAccept 10; RAccept 1; RAccept 1; RAccept 1; RError 5], []).

Lemma C09_ex_proof :
  lawful script_sink snd /\ typed_all x86_64 L140 sample_xs
  /\ (let '(w, (offs, e)) := write_vals x86_64 L140 script_sink (map leaf sample_xs) (writer_new flaky) in
      offs = [0] /\ e = Some (WErr (OtherError 5)) /\ len (snd (w_inner w)) = 7 /\ writer_len w = 4).
Proof.
  split; [apply script_lawful|]. split; [apply sample_typed; cbn; tauto|].
  destruct (write_vals x86_64 L140 script_sink (map leaf sample_xs) (writer_new flaky)) as [w [offs e]] eqn:E.
  vm_compute in E. injection E as <- <- <-. repeat split; reflexivity.
Qed.

(** C10 as documented ("len() returns the amount of data written by this Writer")
    is false after an I/O error: the sink below accepts the first value and three
    padding bytes, then fails; it received 7 bytes, [len()] is 4 ... *)
Lemma C10_len_equals_delivered_refuted_proof :
  exists (wi : write_impl (list resp * list byte)) inner x y w1 o1 w2 e,
    lawful wi snd /\ wval_ok x86_64 L140 x /\ wval_ok x86_64 L140 y
    /\ writer_write x86_64 L140 wi (writer_new inner) x = (w1, WOk o1)
    /\ writer_write x86_64 L140 wi w1 y = (w2, WErr e)
    /\ writer_len w2 = 4 /\ len (snd (w_inner w2)) = 7.
Proof.
  exists script_sink, ([RAccept 4; RAccept 1; RAccept 1; RAccept 1; RError 5], []), (WLeaf (HPrim PU32) (bits 2)), (WLeaf point_light light1).
  do 4 eexists. split; [apply script_lawful|].
  split; [split; [eexists; vm_compute; reflexivity|vm_compute; reflexivity]|].
  split; [split; [eexists; vm_compute; reflexivity|vm_compute; reflexivity]|].
  split; [vm_compute; reflexivity|]. split; [vm_compute; reflexivity|]. split; reflexivity.
Qed.

(** ... and a caller that ignores the error and writes again gets [Ok(offset)] for a
    position at which the value is not. *)
Lemma C10_write_after_error_misplaced_refuted_proof :
  exists (wi : write_impl (list resp * list byte)) inner x y w1 o1 w2 e w3 o3 bs,
    lawful wi snd
    /\ writer_write x86_64 L140 wi (writer_new inner) x = (w1, WOk o1)
    /\ writer_write x86_64 L140 wi w1 y = (w2, WErr e)
    /\ writer_write x86_64 L140 wi w2 y = (w3, WOk o3)
    /\ parts x86_64 L140 y = Some [(16, bs)]
    /\ o3 = 16 /\ read_at (snd (w_inner w3)) o3 (len bs) <> Some bs
    /\ read_at (snd (w_inner w3)) 19 (len bs) = Some bs.
Proof.
  exists script_sink, ([RAccept 4; RAccept 1; RAccept 1; RAccept 1; RError 5], []), (WLeaf (HPrim PU32) (bits 2)), (WLeaf point_light light1).
  do 7 eexists. split; [apply script_lawful|].
  split; [vm_compute; reflexivity|]. split; [vm_compute; reflexivity|]. split; [vm_compute; reflexivity|].
  split; [vm_compute; reflexivity|]. split; [reflexivity|]. split; [vm_compute; discriminate|vm_compute; reflexivity].
Qed.

Lemma C10_ex_proof :
  exists w w' e,
    writer_write x86_64 L140 script_sink (writer_new ([RAccept 4; RAccept 12; RAccept 1; RError 7], [])) (WLeaf (HPrim PU32) (bits 2)) = (w, WOk 0)
    /\ writer_len w = len (snd (w_inner w)) /\ least_aligned 16 (writer_len w) 16
    /\ writer_write x86_64 L140 script_sink w (WLeaf point_light light1) = (w', WErr e)
    /\ writer_len w' = 4.
Proof.
  do 3 eexists. split; [vm_compute; reflexivity|]. split; [reflexivity|]. split; [now apply least_aligned_spec|].
  split; [vm_compute; reflexivity|reflexivity].
Qed.

Lemma C11_ex_proof :
  (exists w offs, write_vals x86_64 L140 slice_sink (map leaf sample_xs) (writer_new ([], repeat xaa 256)) = (w, (offs, None)))
  /\ (exists w offs, write_vals x86_64 L140 slice_sink (map leaf sample_xs) (writer_new ([], repeat xaa 255)) = (w, (offs, Some (WErr WriteZero))))
  /\ (exists w offs, write_vals x86_64 L140 slice_sink (map leaf sample_xs) (writer_new ([], repeat xaa 300)) = (w, (offs, None))
      /\ snd (w_inner w) = repeat xaa 44).
Proof.
  split; [do 2 eexists; vm_compute; reflexivity|]. split; [do 2 eexists; vm_compute; reflexivity|].
  do 2 eexists. split; [vm_compute; reflexivity|reflexivity].
Qed.

Definition near_end : N := 2 ^ 64 - 16.
Lemma C12_ex_proof :
  target_ok x86_64 = true /\ t_checks x86_64 = true
  /\ sizer_len (Sizer near_end) < umod x86_64
  /\ sizer_add x86_64 L140 vec4f (Sizer near_end) = Some Panicked
  /\ sizer_add x86_64 L140 vec3f (Sizer near_end) = Some (Done (near_end, Sizer (2 ^ 64 - 4)))
  /\ (exists w', writer_write x86_64 L140 io_sink (Writer tt near_end) light_slice = (w', WPanic)).
Proof. repeat (split; [vm_compute; reflexivity|]). eexists. vm_compute. reflexivity. Qed.

(** a 16-bit target: 300 values of 256 bytes wrap around *)
Definition many : list (hty * hval) := repeat (HDyn scene, HVDyn scene1) 300.
Lemma C13_ex_proof :
  target_ok avr_release = true /\ t_checks avr_release = false /\ typed_all avr_release L140 many
  /\ umod avr_release = 65536
  /\ (exists w offs, write_vals avr_release L140 io_sink (map leaf many) (writer_new tt) = (w, (offs, None))
        /\ nth_error offs 257 = Some 256 /\ writer_len w = 300 * 256 - 96 - 65536).
Proof.
  split; [vm_compute; reflexivity|]. split; [reflexivity|]. split.
  { unfold many, typed_all. apply Forall_forall. intros x Hx. apply repeat_spec in Hx. subst x.
    split; [eexists; vm_compute; reflexivity|vm_compute; reflexivity]. }
  split; [reflexivity|]. do 2 eexists. split; [vm_compute; reflexivity|]. split; vm_compute; reflexivity.
Qed.

Lemma C28_ex_proof :
  out_align x86_64 L140 (HDyn point_light) = Some 256
  /\ hval_ok x86_64 point_light light1 = true
  /\ (exists w, write_vals x86_64 L140 vec_sink [WLeaf (HDyn point_light) (HVDyn light1); WLeaf (HDyn point_light) (HVDyn light2)] (writer_new [])
                = (w, ([0; 256], None)) /\ writer_len w = 288).
Proof. split; [vm_compute; reflexivity|]. split; [vm_compute; reflexivity|]. eexists. split; [vm_compute; reflexivity|reflexivity]. Qed.

Lemma C40_ex_proof :
  wval_ok x86_64 L140 light_slice
  /\ (exists ps, parts x86_64 L140 light_slice = Some ps /\ Forall (fun p => aligned (fst p) (writer_len (Writer [x01] 160))) ps)
  /\ std_size x86_64 L140 light_slice = Some (Done 64).
Proof.
  split; [split; [|split; [|exact I]]; (split; [eexists; vm_compute; reflexivity|vm_compute; reflexivity])|].
  split; [|vm_compute; reflexivity]. eexists. split; [vm_compute; reflexivity|].
  repeat (apply Forall_cons; [right; exists 10; reflexivity|]); apply Forall_nil.
Qed.

(** a history with a failing operation in the middle; bytes already there survive *)
Lemma C04_ex_proof :
  lawful script_sink snd
  /\ (exists w r1 r2 r3 r4, run_ops x86_64 L140 script_sink sample_ops (writer_new flaky) = (w, [r1; r2; r3; r4])
       /\ (exists e, r2 = WErr e) /\ (exists o, r4 = WOk o)).
Proof.
  split; [exact script_lawful|]. do 5 eexists. split; [vm_compute; reflexivity|]. split; eexists; reflexivity.
Qed.

Lemma C05_ex_proof :
  lawful vec_sink (fun v => v) /\ Forall (op_ok x86_64 L140) sample_ops
  /\ (exists w rs, run_ops x86_64 L140 vec_sink sample_ops (writer_new [x07]) = (w, rs)
        /\ rs = [WOk 0; WOk 16; WOk 80; WOk 88] /\ writer_len w = 96 /\ len (w_inner w) = 97).
Proof.
  split; [exact vec_lawful|]. split.
  - exact sample_ops_ok.
  - do 2 eexists. split; [vm_compute; reflexivity|]. repeat split.
Qed.

Lemma C06_ex_proof :
  (exists w, write_vals x86_64 L140 vec_sink [WLeaf vec3f (v3 1 2 3); WLeaf vec3f (v3 4 5 6)] (Writer [x09] 1) = (w, ([16; 32], None))
     /\ write_iter x86_64 L140 vec_sink (Writer [x09] 1) [WLeaf vec3f (v3 1 2 3); WLeaf vec3f (v3 4 5 6)] = (w, WOk 16)
     /\ writer_len w = 44)
  /\ write_iter x86_64 L140 vec_sink (Writer [x09] 1) [] = (Writer [x09] 1, WOk 1)
  /\ (exists w, write_slice x86_64 L140 slice_sink (Writer ([], repeat x07 20) 0) vec3f [v3 1 2 3; v3 4 5 6] = (w, WErr WriteZero)).
Proof. split; [eexists; repeat split; vm_compute; reflexivity|]. split; [reflexivity|]. eexists. vm_compute. reflexivity. Qed.

Lemma C07_ex_proof :
  (exists t, out_ty x86_64 L430 scene = Some t) /\ hval_ok x86_64 scene scene1 = true
  /\ std_size_static x86_64 L430 scene = Some 128.
Proof. split; [eexists; vm_compute; reflexivity|]. split; vm_compute; reflexivity. Qed.

(** a composite: a count, then a nested slice, then an empty slice *)
Definition composite : wval := WSeq [WLeaf (HPrim PU32) (bits 2); light_slice; WSeq []; WLeaf HBool (HVBool false)].
Lemma C08_ex_proof :
  wval_ok x86_64 L140 composite
  /\ (exists ps places, parts x86_64 L140 composite = Some ps /\ laid_out 0 ps places 84)
  /\ std_size x86_64 L140 composite = Some (Done 84).
Proof.
  split; [|split].
  - split; [split; [eexists; vm_compute; reflexivity|reflexivity]|].
    split; [split; [|split; [|exact I]]; (split; [eexists; vm_compute; reflexivity|reflexivity])|].
    split; [exact I|]. split; [split; [eexists; vm_compute; reflexivity|reflexivity]|exact I].
  - eexists. exists (placements 0 match parts x86_64 L140 composite with Some ps => ps | None => [] end).
    split; [vm_compute; reflexivity|]. apply laid_out_spec. split; vm_compute; reflexivity.
  - vm_compute; reflexivity.
Qed.
