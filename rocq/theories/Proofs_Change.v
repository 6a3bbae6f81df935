(** * Comparing and updating written buffers, order of fields (C64-C66) *)

From Coq Require Import NArith String Bool List Lia ZArith Permutation.
From Coq Require Import ZifyBool ZifyN ZifyNat.
From Coq Require Import Strings.Byte.
From Verif Require Import Rust Internal Prims Derive Host Rows Buffer SpecBuf SpecGlsl SpecHost SpecTypes SpecUse SpecEvolve SpecChange
  Arith RustFacts DeriveFacts TypeFacts SpecLayout LayoutFacts HostFacts GlslFacts PadFacts BufferFacts WriterFacts Samples
  Proofs_Buffer Proofs_Types Proofs_Struct Proofs_Use Proofs_Evolve Proofs_Cast.
Import ListNotations.
Local Open Scope string_scope.
Local Open Scope N_scope.

(** ** C64 *)

Lemma app_eq_len {A} (a b c d : list A) : length a = length c -> (a ++ b = c ++ d)%list -> a = c /\ b = d.
Proof.
  revert c. induction a as [|x a IH]; intros [|y c] L H; cbn [length app] in *; try discriminate; [auto|].
  injection L as L. injection H as -> H. destruct (IH c L H) as [-> ->]. auto.
Qed.

Lemma render_inj ps : forall qs cur, dims ps = dims qs -> render cur ps = render cur qs -> ps = qs.
Proof.
  induction ps as [|[a b] ps IH]; intros [|[a' b'] qs] cur D R; cbn [dims map] in D; try discriminate; [reflexivity|].
  cbn [fst snd] in D. injection D as -> Hl D. cbn [render] in R.
  apply app_inv_head in R. unfold len in Hl. apply app_eq_len in R; [|lia]. destruct R as [-> R].
  f_equal. eapply IH; [exact D|exact R].
Qed.

Lemma dims_app p q : dims (p ++ q)%list = (dims p ++ dims q)%list.
Proof. unfold dims. apply map_app. Qed.

Lemma std_parts_same tg l t s s' ps qs : target_ok tg = true -> op_ok tg l (OpStd t s) -> op_ok tg l (OpStd t s') ->
  op_parts tg l (OpStd t s) = Some ps -> op_parts tg l (OpStd t s') = Some qs ->
  dims ps = dims qs /\ (ps = qs -> OpStd t s = OpStd t s').
Proof.
  intros Htg [Ht Hs] [_ Hs'] Ex Ey. destruct (std_parts _ _ _ _ Htg Ht Hs) as [_ [A [Eb [El G]]]].
  destruct (std_parts _ _ _ _ Htg Ht Hs') as [_ [_ [Eb' [El' _]]]].
  cbn [op_parts] in Ex, Ey. rewrite A, Eb in Ex. rewrite A, Eb' in Ey. injection Ex as <-. injection Ey as <-.
  cbn [dims map fst snd]. rewrite El, El'. split; [reflexivity|]. intros E. injection E as E.
  pose proof (lgood_nopad _ _ _ G) as Hn. f_equal.
  assert (F : Some s = Some s') by (rewrite <- (from_bytes_flat tg t s Hn Hs), <- (from_bytes_flat tg t s' Hn Hs'); now rewrite E).
  congruence.
Qed.

Lemma parts_same tg l : target_ok tg = true -> forall x y ps qs, same_types x y -> wval_ok tg l x -> wval_ok tg l y ->
  parts tg l x = Some ps -> parts tg l y = Some qs -> dims ps = dims qs /\ (ps = qs -> x = y).
Proof.
  intros Htg. induction x as [h v|t s|items IH] using wval_ind'; intros y ps qs HS Hx Hy Ex Ey; inversion HS; subst.
  - destruct Hx as [[t Ht] Hv]. destruct Hy as [_ Hv'].
    destruct (leaf_parts _ _ _ _ _ Htg Ht Hv) as [s [A1 [A2 [A3 [A4 [A5 [A6 [A7 A8]]]]]]]].
    destruct (leaf_parts _ _ _ _ _ Htg Ht Hv') as [s' [B1 [B2 [B3 [B4 [B5 [B6 [B7 B8]]]]]]]].
    rewrite A3 in Ex. rewrite B3 in Ey. injection Ex as <-. injection Ey as <-. cbn [dims map fst snd]. rewrite A7, B7. split; [reflexivity|].
    intros E. injection E as E. f_equal. symmetry.
    destruct (C20_round_trip_bytes_proof tg l h t v _ Htg Ht Hv A5) as [_ U]. apply U; [assumption|congruence].
  - destruct (std_parts_same tg l t s s' ps qs Htg Hx Hy Ex Ey) as [A B]. split; [assumption|]. intros E. specialize (B E). congruence.
  - rename ys into items'. apply wval_ok_WSeq in Hx. apply wval_ok_WSeq in Hy. rewrite parts_WSeq in Ex, Ey.
    match goal with F : Forall2 same_types items items' |- _ => rename F into F2 end. clear HS.
    enough (dims ps = dims qs /\ (ps = qs -> items = items')) as [G1 G2] by (split; [assumption|intros E; f_equal; auto]).
    revert ps qs Ex Ey IH Hx Hy. induction F2 as [|x y xs ys Hxy F2 IHF]; intros ps qs Ex Ey IH Hx Hy.
    + cbn in Ex, Ey. injection Ex as <-. injection Ey as <-. auto.
    + cbn [parts_list] in Ex, Ey. inversion IH as [|? ? I1 I2]; subst. inversion Hx; subst. inversion Hy; subst.
      destruct (parts tg l x) as [p|] eqn:Epx; [|discriminate]. destruct (parts_list tg l xs) as [p'|] eqn:Epxs; [|discriminate]. injection Ex as <-.
      destruct (parts tg l y) as [q|] eqn:Epy; [|discriminate]. destruct (parts_list tg l ys) as [q'|] eqn:Epys; [|discriminate]. injection Ey as <-.
      destruct (I1 y p q) as [D1 U1]; auto. destruct (IHF p' q') as [D2 U2]; auto.
      rewrite !dims_app, D1, D2. split; [reflexivity|]. intros E. apply app_eq_len in E.
      * destruct E as [E1 E2]. f_equal; auto.
      * apply (f_equal (@length _)) in D1. unfold dims in D1. now rewrite !map_length in D1.
Qed.

Lemma op_parts_same tg l : target_ok tg = true -> forall x y ps qs, same_op x y -> op_ok tg l x -> op_ok tg l y ->
  op_parts tg l x = Some ps -> op_parts tg l y = Some qs -> dims ps = dims qs /\ (ps = qs -> x = y).
Proof.
  intros Htg x y ps qs HS Hx Hy Ex Ey. destruct HS as [x y HS|xs ys HS|t s s']; cbn [op_ok op_parts] in *.
  - destruct (parts_same tg l Htg x y ps qs HS Hx Hy Ex Ey) as [A B]. split; [assumption|]. intros E. f_equal. auto.
  - destruct (parts_same tg l Htg (WSeq xs) (WSeq ys) ps qs (same_seq _ _ HS) Hx Hy Ex Ey) as [A B]. split; [assumption|].
    intros E. specialize (B E). congruence.
  - eapply std_parts_same; eassumption.
Qed.

Lemma ops_parts_same tg l : target_ok tg = true -> forall xs ys, Forall2 same_op xs ys -> Forall (op_ok tg l) xs -> Forall (op_ok tg l) ys ->
  forall ps qs, ops_parts tg l xs = Some ps -> ops_parts tg l ys = Some qs -> dims ps = dims qs /\ (ps = qs -> xs = ys).
Proof.
  intros Htg xs ys F2. induction F2 as [|x y xs ys Hxy F2 IH]; intros Hx Hy ps qs Ex Ey.
  - cbn in Ex, Ey. injection Ex as <-. injection Ey as <-. auto.
  - cbn [ops_parts] in Ex, Ey. inversion Hx; subst. inversion Hy; subst.
    destruct (op_parts tg l x) as [p|] eqn:Epx; [|discriminate]. destruct (ops_parts tg l xs) as [p'|] eqn:Epxs; [|discriminate]. injection Ex as <-.
    destruct (op_parts tg l y) as [q|] eqn:Epy; [|discriminate]. destruct (ops_parts tg l ys) as [q'|] eqn:Epys; [|discriminate]. injection Ey as <-.
    destruct (op_parts_same tg l Htg x y p q) as [D1 U1]; auto. destruct (IH ltac:(assumption) ltac:(assumption) p' q') as [D2 U2]; auto.
    rewrite !dims_app, D1, D2. split; [reflexivity|]. intros E. apply app_eq_len in E.
    + destruct E as [E1 E2]. f_equal; auto.
    + apply (f_equal (@length _)) in D1. unfold dims in D1. now rewrite !map_length in D1.
Qed.

(** C64.  Two histories that write values of the same types in the same order, all
    operations succeeding, send the same number of bytes to the sink, and they send the same
    bytes exactly when all values are the same: comparing the bytes of two frames detects
    every change and reports no change that is not there.  (No bound on the total: also when
    [len()] wraps around.) *)
Lemma C64_bytes_detect_changes_proof : forall W tg l (wi : write_impl W) delivered i1 i2 os1 os2 w1 w2 rs1 rs2,
  target_ok tg = true -> lawful wi delivered ->
  Forall (op_ok tg l) os1 -> Forall (op_ok tg l) os2 -> Forall2 same_op os1 os2 ->
  run_ops tg l wi os1 (writer_new i1) = (w1, rs1) -> all_ok rs1 ->
  run_ops tg l wi os2 (writer_new i2) = (w2, rs2) -> all_ok rs2 ->
  exists img1 img2,
    delivered (w_inner w1) = (delivered i1 ++ img1)%list /\ delivered (w_inner w2) = (delivered i2 ++ img2)%list
    /\ len img1 = len img2
    /\ (img1 = img2 <-> os1 = os2).
Proof.
  intros W tg l wi delivered i1 i2 os1 os2 w1 w2 rs1 rs2 Htg Hlaw H1 H2 HS R1 A1 R2 A2.
  destruct (ops_parts_total tg l os1 Htg H1) as [ps [Hp Hu]]. destruct (ops_parts_total tg l os2 Htg H2) as [qs [Hq Hv]].
  destruct (run_ops_run1 tg l wi Htg _ _ _ _ _ H1 Hp R1 A1) as [o1 Q1].
  destruct (run_ops_run1 tg l wi Htg _ _ _ _ _ H2 Hq R2 A2) as [o2 Q2].
  destruct (run1_spec tg wi delivered Hlaw ps (writer_new i1) w1 o1 None 0 Hu (at_pos_0 tg) Q1) as [_ [_ [_ D1]]].
  destruct (run1_spec tg wi delivered Hlaw qs (writer_new i2) w2 o2 None 0 Hv (at_pos_0 tg) Q2) as [_ [_ [_ D2]]].
  destruct (ops_parts_same tg l Htg os1 os2 HS H1 H2 ps qs Hp Hq) as [D U].
  exists (render 0 ps), (render 0 qs). split; [exact D1|]. split; [exact D2|].
  split.
  - pose proof (end_of_render ps 0) as E1. pose proof (end_of_render qs 0) as E2.
    rewrite <- extent_dims in E1, E2. rewrite D in E1. lia.
  - split.
    + intros E. apply U. exact (render_inj ps qs 0 D E).
    + intros ->. congruence.
Qed.

Lemma dims_uniform a n bss : Forall (fun bs => len bs = n) bss ->
  dims (map (fun bs => (a, bs)) bss) = repeat (a, n) (length bss).
Proof. induction 1 as [|b bss E _ IH]; [reflexivity|]. cbn [map dims length repeat fst snd] in *. unfold dims in *. now rewrite IH, E. Qed.

Lemma extent_repeat_lt a n k k' : 0 < n -> (k < k')%nat -> extent 0 (repeat (a, n) k) < extent 0 (repeat (a, n) k').
Proof.
  intros Hn Hk. replace k' with (k + S (k' - k - 1))%nat by lia. rewrite repeat_app, Proofs_Evolve.extent_app.
  cbn [repeat extent]. set (e := extent 0 (repeat (a, n) k)).
  pose proof (Proofs_Evolve.extent_ge (repeat (a, n) (k' - k - 1)) (SpecTypes.next_aligned e a + n)).
  pose proof (Proofs_Evolve.next_aligned_ge e a). lia.
Qed.

(** C64.  For slices of one type (of nonzero size) the lengths need not agree beforehand:
    the bytes are the same exactly when the slices are. *)
Lemma C64_slices_proof : forall W tg l (wi : write_impl W) delivered i1 i2 h t vs1 vs2 w1 w2 o1 o2,
  target_ok tg = true -> lawful wi delivered ->
  out_ty tg l h = Some t -> 0 < size_of tg t ->
  Forall (fun v => hval_ok tg h v = true) vs1 -> Forall (fun v => hval_ok tg h v = true) vs2 ->
  writer_write tg l wi (writer_new i1) (WSeq (map (WLeaf h) vs1)) = (w1, WOk o1) ->
  writer_write tg l wi (writer_new i2) (WSeq (map (WLeaf h) vs2)) = (w2, WOk o2) ->
  exists img1 img2,
    delivered (w_inner w1) = (delivered i1 ++ img1)%list /\ delivered (w_inner w2) = (delivered i2 ++ img2)%list
    /\ (img1 = img2 <-> vs1 = vs2).
Proof.
  intros W tg l wi delivered i1 i2 h t vs1 vs2 w1 w2 o1 o2 Htg Hlaw Ho Hn H1 H2 R1 R2.
  assert (K : forall i vs w o, Forall (fun v => hval_ok tg h v = true) vs ->
    writer_write tg l wi (writer_new i) (WSeq (map (WLeaf h) vs)) = (w, WOk o) ->
    exists ps, parts tg l (WSeq (map (WLeaf h) vs)) = Some ps /\ dims ps = repeat (alN l t, size_of tg t) (length vs)
      /\ wval_ok tg l (WSeq (map (WLeaf h) vs))
      /\ delivered (w_inner w) = (delivered i ++ render 0 ps)%list).
  { intros i vs w o Hv R. destruct (slice_parts tg l h t vs Htg Ho Hv) as [ss [bss [_ [_ [E3 [E4 [E5 _]]]]]]].
    assert (Hok : wval_ok tg l (WSeq (map (WLeaf h) vs))).
    { apply wval_ok_WSeq. apply Forall_forall. intros x Hx. apply in_map_iff in Hx. destruct Hx as [v [<- Hin]].
      rewrite Forall_forall in Hv. cbn [wval_ok]. eauto. }
    eexists. split; [exact E3|]. split; [rewrite (dims_uniform _ (size_of tg t)) by assumption; now rewrite E5|]. split; [exact Hok|].
    unfold writer_write in R. rewrite (write_val_run1 tg l wi Htg _ _ _ Hok E3) in R.
    pose proof (parts_uals tg l Htg _ _ Hok E3) as Hu.
    destruct (run1 tg wi (map (fun bs => (alN l t, bs)) bss) (writer_new i)) as [w' [os [r|]]] eqn:Q.
    { exfalso. apply (run1_not_ok _ _ _ _ _ _ _ Q o). congruence. }
    assert (w' = w) by congruence. subst w'.
    destruct (run1_spec tg wi delivered Hlaw _ (writer_new i) w os None 0 Hu (at_pos_0 tg) Q) as [_ [_ [_ D]]]. exact D. }
  destruct (K _ _ _ _ H1 R1) as [ps [P1 [P2 [P3 P4]]]]. destruct (K _ _ _ _ H2 R2) as [qs [Q1 [Q2 [Q3 Q4]]]].
  exists (render 0 ps), (render 0 qs). split; [exact P4|]. split; [exact Q4|]. split.
  - intros E. assert (L : length vs1 = length vs2).
    { pose proof (end_of_render ps 0) as E1. pose proof (end_of_render qs 0) as E2. rewrite <- extent_dims in E1, E2.
      rewrite E in E1. rewrite P2 in E1. rewrite Q2 in E2.
      destruct (Nat.lt_trichotomy (length vs1) (length vs2)) as [X|[X|X]]; [|assumption|];
        pose proof (extent_repeat_lt (alN l t) (size_of tg t) _ _ Hn X); lia. }
    assert (S : same_types (WSeq (map (WLeaf h) vs1)) (WSeq (map (WLeaf h) vs2))).
    { constructor. clear -L. revert vs2 L. induction vs1 as [|a vs1 IH]; intros [|b vs2] L; try discriminate; constructor; [constructor|apply IH; now injection L]. }
    destruct (parts_same tg l Htg _ _ ps qs S P3 Q3 P1 Q1) as [D U]. specialize (U (render_inj ps qs 0 D E)).
    injection U as U. clear -U. revert vs2 U. induction vs1 as [|a vs1 IH]; intros [|b vs2] U; try discriminate; [reflexivity|].
    cbn [map] in U. injection U as -> U. f_equal. auto.
  - intros ->. congruence.
Qed.

(** C64: a frame and the same frame with one NaN payload changed; the condition on the size is
    needed, slices of empty structs all have no bytes in std430. *)
Lemma C64_ex_proof :
  let os1 := sample_ops in
  let os2 := [OpWrite (WLeaf (HPrim PU32) (bits 2)); OpWrite (WSeq [WLeaf point_light light1; WLeaf point_light (HVRec [("position", v3 7 8 9); ("color", v3 10 11 12); ("brightness", bits 2143289345)])]);
              OpIter [WLeaf HBool (HVBool true)]; OpStd (TPrim PF64) (SBits 5)] in
  Forall2 same_op os1 os2 /\ os1 <> os2
  /\ (exists w1 rs1 w2 rs2, run_ops x86_64 L140 vec_sink os1 (writer_new []) = (w1, rs1) /\ all_ok rs1
        /\ run_ops x86_64 L140 vec_sink os2 (writer_new []) = (w2, rs2) /\ all_ok rs2
        /\ len (w_inner w1) = len (w_inner w2) /\ w_inner w1 <> w_inner w2)
  /\ (let e := HStruct "Empty" [] in
      writer_write x86_64 L430 vec_sink (writer_new []) (WSeq [WLeaf e (HVRec [])])
      = writer_write x86_64 L430 vec_sink (writer_new []) (WSeq [WLeaf e (HVRec []); WLeaf e (HVRec [])])).
Proof.
  cbv zeta. split; [|split; [|split]].
  - repeat constructor.
  - intros E. apply (f_equal (fun os => match nth_error os 1 with Some (OpWrite (WSeq [_; WLeaf _ (HVRec [_; _; (_, HVBits n)])])) => n | _ => 0 end)) in E.
    vm_compute in E. discriminate.
  - do 4 eexists. split; [vm_compute; reflexivity|]. split; [repeat constructor; eexists; reflexivity|].
    split; [vm_compute; reflexivity|]. split; [repeat constructor; eexists; reflexivity|]. split; [vm_compute; reflexivity|].
    vm_compute. discriminate.
  - vm_compute. reflexivity.
Qed.

(** ** C65 *)

Lemma copy_at_mid A b b' C : len b' = len b -> copy_at (A ++ b ++ C)%list (len A) b' = Some (A ++ b' ++ C)%list.
Proof.
  intros L. unfold copy_at. rewrite !len_app. rewrite (proj2 (N.leb_le _ _)) by lia. f_equal.
  rewrite L. unfold len. rewrite Nat2N.id. replace (N.to_nat (N.of_nat (length A) + N.of_nat (length b))) with (length A + length b)%nat by lia.
  rewrite firstn_app, Nat.sub_diag, firstn_all. cbn [firstn]. rewrite app_nil_r. f_equal. f_equal.
  rewrite app_assoc, skipn_app, app_length, skipn_all2 by (rewrite app_length; lia).
  replace (length A + length b - (length A + length b))%nat with 0%nat by lia. reflexivity.
Qed.

(** C65.  Replacing one value after the fact: copying [v'.as_stdN().as_bytes()] over the bytes
    at the offset [write] returned for [v] gives exactly the buffer that writing [v'] in its
    place would have produced; the offsets of all values stay the same. *)
Lemma C65_update_in_place_proof : forall tg l pre h v v' post w offs o bs',
  target_ok tg = true -> typed_all tg l (pre ++ (h, v) :: post)%list -> hval_ok tg h v' = true ->
  write_vals tg l vec_sink (map leaf (pre ++ (h, v) :: post)) (writer_new []) = (w, (offs, None)) ->
  (t_checks tg = true \/ len (w_inner w) < umod tg) ->
  nth_error offs (length pre) = Some o -> as_std_bytes tg l h v' = Some bs' ->
  exists w', write_vals tg l vec_sink (map leaf (pre ++ (h, v') :: post)) (writer_new []) = (w', (offs, None))
    /\ copy_at (w_inner w) o bs' = Some (w_inner w').
Proof.
  intros tg l pre h v v' post w offs o bs' Htg Hty Hv' Hw Hno Ho Hb.
  assert (Hty' : typed_all tg l (pre ++ (h, v') :: post)%list).
  { unfold typed_all in *. rewrite Forall_app in *. destruct Hty as [T1 T2]. split; [assumption|]. inversion T2 as [|? ? [T3 T4] T5]; subst. constructor; [|assumption].
    cbn [fst snd] in *. auto. }
  assert (Hpre : typed_all tg l pre) by (unfold typed_all in *; rewrite Forall_app in Hty; apply Hty).
  assert (Hpost : typed_all tg l post) by (unfold typed_all in *; rewrite Forall_app in Hty; destruct Hty as [_ T]; now inversion T).
  assert (Hx : (exists t, out_ty tg l h = Some t) /\ hval_ok tg h v = true) by (unfold typed_all in *; rewrite Forall_app in Hty; destruct Hty as [_ T]; inversion T; assumption).
  destruct Hx as [[t Ht] Hv].
  destruct (leaf_parts _ _ _ _ _ Htg Ht Hv) as [s [_ [_ [A3 [_ [_ [_ [A7 _]]]]]]]].
  destruct (leaf_parts _ _ _ _ _ Htg Ht Hv') as [s' [_ [_ [B3 [_ [B5 [_ [B7 _]]]]]]]].
  rewrite B5 in Hb. injection Hb as <-.
  destruct (parts_total tg l Htg _ (typed_all_ok _ _ _ Hpre)) as [p Ep]. destruct (parts_total tg l Htg _ (typed_all_ok _ _ _ Hpost)) as [q Eq].
  assert (PL : forall a b p q, parts_list tg l a = Some p -> parts_list tg l b = Some q -> parts_list tg l (a ++ b)%list = Some (p ++ q)%list).
  { clear. induction a as [|x a IH]; intros b p q E1 E2; [injection E1 as <-; exact E2|]. cbn [app parts_list] in *.
    destruct (parts tg l x); [|discriminate]. destruct (parts_list tg l a) eqn:E; [|discriminate]. injection E1 as <-. rewrite (IH b _ _ eq_refl E2). now rewrite app_assoc. }
  assert (PE : forall v b, parts tg l (WLeaf h v) = Some b -> parts tg l (WSeq (map leaf (pre ++ (h, v) :: post))) = Some (p ++ b ++ q)%list).
  { intros u b E. rewrite parts_WSeq in *. rewrite map_app. apply PL; [exact Ep|]. cbn [map parts_list]. change (leaf (h, u)) with (WLeaf h u). now rewrite E, Eq. }
  pose proof (PE v _ A3) as E1. pose proof (PE v' _ B3) as E2.
  assert (Dd : dims (p ++ [(alN l t, flat tg t s)] ++ q)%list = dims (p ++ [(alN l t, flat tg t s')] ++ q)%list).
  { rewrite !dims_app. cbn [dims map fst snd]. now rewrite A7, B7. }
  set (P := (p ++ [(alN l t, flat tg t s)] ++ q)%list) in *. set (Q := (p ++ [(alN l t, flat tg t s')] ++ q)%list) in *.
  rewrite (write_vals_run1 tg l vec_sink Htg _ _ P Hty E1) in Hw.
  rewrite (write_vals_run1 tg l vec_sink Htg _ _ Q Hty' E2).
  pose proof (run1_offs tg vec_sink vec_infallible P (writer_new [])) as R1. pose proof (run1_offs tg vec_sink vec_infallible Q (writer_new [])) as R2.
  rewrite <- Dd in R2.
  pose proof (parts_uals tg l Htg _ _ (typed_all_ok _ _ _ Hty) E1) as Hu. pose proof (parts_uals tg l Htg _ _ (typed_all_ok _ _ _ Hty') E2) as Hu'.
  destruct (run1_spec tg vec_sink (fun v => v) vec_lawful P (writer_new []) w offs None 0 Hu (at_pos_0 tg) Hw) as [F1 [Hl1 [_ D1]]].
  cbn [writer_new w_inner app] in D1.
  destruct (WriterFacts.offs tg (w_offset (writer_new [])) (dims P)) as [[os off]|] eqn:EO.
  2:{ destruct R1 as [? [? R1]]. congruence. }
  destruct R1 as [i1 R1]. destruct R2 as [i2 R2]. rewrite R1 in Hw.
  assert (os = offs) by congruence. subst os. rewrite R2. eexists. split; [reflexivity|].
  destruct (run1_spec tg vec_sink (fun v => v) vec_lawful Q (writer_new []) _ offs None 0 Hu' (at_pos_0 tg) R2) as [_ [_ [_ D2]]].
  cbn [writer_new w_inner app] in D2 |- *. rewrite D1, D2. unfold P, Q. rewrite !render_app. cbn [app render end_of].
  set (pad := align_offset (end_of 0 p) (alN l t)). rewrite A7, B7.
  assert (Hoe : o = end_of 0 p + pad).
  { assert (Hpl : forall ps cur, length (placements cur ps) = length ps).
    { clear. induction ps as [|[al bs] ps IH]; intros cur; [reflexivity|]. cbn [placements length]. now rewrite IH. }
    rewrite Hl1, <- (Hpl P 0), firstn_all in F1.
    assert (HN : nth_error (map fst (placements 0 P)) (length pre) = Some (end_of 0 p + pad)).
    { unfold P. rewrite placements_app, map_app.
      assert (Lp : length pre = length p).
      { clear -Ep Hpre Htg. rewrite parts_WSeq in Ep. revert p Ep. induction Hpre as [|[h v] pre [[t Ht] Hv] _ IH]; intros p Ep.
        - injection Ep as <-. reflexivity.
        - cbn [map parts_list] in Ep. change (leaf (h, v)) with (WLeaf h v) in Ep. cbn [fst snd] in *.
          destruct (leaf_parts _ _ _ _ _ Htg Ht Hv) as [s [_ [_ [E _]]]]. rewrite E in Ep.
          destruct (parts_list tg l (map leaf pre)) as [q|] eqn:Eq; [|discriminate]. injection Ep as <-. cbn [app length]. f_equal. now apply IH. }
      rewrite nth_error_app2 by (rewrite map_length, Hpl; lia). rewrite map_length, Hpl, Lp, Nat.sub_diag. reflexivity. }
    assert (Hat : at_pos tg o (end_of 0 p + pad)).
    { clear -F1 HN Ho. revert HN Ho. generalize (length pre). induction F1 as [|a b xs ys Hab F1 IH]; intros [|n] HN Ho; try discriminate.
      - cbn in HN, Ho. injection HN as <-. injection Ho as <-. exact Hab.
      - eapply IH; eassumption. }
    destruct Hno as [C|Hlt]; [now apply (at_pos_checks tg)|]. apply (at_pos_small tg); [|assumption].
    assert (end_of 0 P = len (w_inner w)) as HE by (rewrite D1, end_of_render; lia).
    unfold P in HE. rewrite end_of_app in HE. cbn [app end_of] in HE. fold pad in HE.
    pose proof (end_of_ge q (end_of 0 p + pad + len (flat tg t s))). lia. }
  rewrite Hoe. set (Cq := render (end_of 0 p + pad + size_of tg t) q). rewrite !(app_assoc (render 0 p)).
  replace (end_of 0 p + pad) with (len (render 0 p ++ zeros pad)%list) by (rewrite len_app, len_zeros, end_of_render; lia).
  rewrite !app_nil_r, <- !(app_assoc (render 0 p ++ zeros pad)). rewrite copy_at_mid by congruence. reflexivity.
Qed.

(** C65: the scene in the middle of a buffer is replaced. *)
Lemma C65_ex_proof :
  let pre := [(HPrim PU32, bits 2); (point_light, light1)] in
  let post := [(HBool, HVBool true)] in
  typed_all x86_64 L140 (pre ++ (vec3f, v3 1 2 3) :: post)%list /\ hval_ok x86_64 vec3f (v3 4 5 6) = true
  /\ exists w bs w', write_vals x86_64 L140 vec_sink (map leaf (pre ++ (vec3f, v3 1 2 3) :: post)) (writer_new []) = (w, ([0; 16; 48; 60], None))
       /\ as_std_bytes x86_64 L140 vec3f (v3 4 5 6) = Some bs
       /\ write_vals x86_64 L140 vec_sink (map leaf (pre ++ (vec3f, v3 4 5 6) :: post)) (writer_new []) = (w', ([0; 16; 48; 60], None))
       /\ copy_at (w_inner w) 48 bs = Some (w_inner w') /\ w_inner w <> w_inner w'.
Proof.
  cbv zeta. split; [repeat (constructor; [split; [eexists; vm_compute; reflexivity|vm_compute; reflexivity]|]); constructor|]. split; [reflexivity|].
  do 3 eexists. split; [vm_compute; reflexivity|]. split; [vm_compute; reflexivity|]. split; [vm_compute; reflexivity|]. split; [vm_compute; reflexivity|].
  vm_compute. discriminate.
Qed.

(** ** C66 *)

Lemma extent_ge_sum ms : forall c, c + sum_sizes ms <= extent c ms.
Proof.
  induction ms as [|[a s] ms IH]; intros c; cbn [extent]; [cbn; lia|].
  change (sum_sizes ((a, s) :: ms)) with (s + sum_sizes ms). pose proof (IH (SpecTypes.next_aligned c a + s)).
  pose proof (Proofs_Evolve.next_aligned_ge c a). lia.
Qed.

Lemma sum_sizes_perm ms ms' : Permutation ms ms' -> sum_sizes ms = sum_sizes ms'.
Proof. unfold sum_sizes. induction 1; cbn [map fold_right]; lia. Qed.

Lemma fold_max_perm b xs ys : Permutation xs ys -> fold_right N.max b xs = fold_right N.max b ys.
Proof. induction 1; cbn [fold_right]; lia. Qed.

Lemma map_opt_perm {A B} (f : A -> option B) xs ys : Permutation xs ys -> forall us vs, map_opt f xs = Some us -> map_opt f ys = Some vs -> Permutation us vs.
Proof.
  induction 1 as [|x xs ys HP IH|x y xs|xs ys zs H1 IH1 H2 IH2]; intros us vs E1 E2.
  - cbn in E1, E2. injection E1 as <-. injection E2 as <-. constructor.
  - cbn [map_opt] in E1, E2. destruct (f x); [|discriminate]. destruct (map_opt f xs); [|discriminate]. destruct (map_opt f ys); [|discriminate].
    injection E1 as <-. injection E2 as <-. constructor. auto.
  - cbn [map_opt] in E1, E2. destruct (f y); [|discriminate]. destruct (f x); [|discriminate]. destruct (map_opt f xs); [|discriminate].
    injection E1 as <-. injection E2 as <-. constructor.
  - destruct (map_opt f ys) as [ws|] eqn:E; [apply (Permutation_trans (IH1 _ _ E1 eq_refl) (IH2 _ _ eq_refl E2))|]. exfalso. clear - H1 E E1.
    assert (G : forall zs, (exists z, In z zs /\ f z = None) <-> map_opt f zs = None).
    { induction zs as [|z zs IH]; cbn [map_opt].
      - split; [intros [? [[] _]]|discriminate].
      - split.
        + intros [u [[->|Hin] Hf]]; [now rewrite Hf|]. destruct (f z); [|reflexivity]. rewrite (proj1 IH) by eauto. reflexivity.
        + destruct (f z) eqn:Ez; [|intros _; exists z; cbn; auto]. destruct (map_opt f zs) eqn:Ezs; [discriminate|]. intros _.
          destruct (proj2 IH eq_refl) as [u [Hu Hf]]. exists u. cbn. auto. }
    apply G in E. destruct E as [z [Hz Hf]]. apply (Permutation_in z (Permutation_sym H1)) in Hz.
    assert (map_opt f xs = None) by (apply G; eauto). congruence.
Qed.

Lemma next_aligned_id x a : a = 0 \/ (a | x) -> SpecTypes.next_aligned x a = x.
Proof.
  intros H. assert (aligned a x) as Ha by now apply aligned_divide.
  pose proof (Proofs_Evolve.next_aligned_ge x a). pose proof (Proofs_Evolve.next_aligned_least x a x ltac:(lia) Ha). lia.
Qed.

Lemma decreasing_tight ms : forall cur, Forall (fun m => pow2_0 (fst m)) ms -> decreasing ms -> full ms ->
  (match ms with [] => True | m :: _ => fst m = 0 \/ (fst m | cur) end) ->
  extent cur ms = cur + sum_sizes ms /\ contiguous cur (map snd ms) (SpecTypes.starts cur ms) (cur + sum_sizes ms).
Proof.
  induction ms as [|[a s] ms IH]; intros cur HP HD HF H0; cbn [extent SpecTypes.starts map contiguous].
  - unfold sum_sizes; cbn. split; lia.
  - cbn [fst snd] in *. rewrite (next_aligned_id cur a H0). change (sum_sizes ((a, s) :: ms)) with (s + sum_sizes ms).
    inversion HP as [|? ? P1 P2]; subst. inversion HF as [|? ? F1 F2]; subst. destruct HD as [D1 D2]. cbn [fst snd] in *.
    destruct (IH (cur + s)) as [A B]; [assumption|assumption|assumption| |].
    { destruct ms as [|[b s'] ms]; [exact I|]. inversion D1; subst. inversion P2; subst. cbn [fst] in *.
      apply aligned_divide in F1. destruct H0 as [->|H0]; [left; lia|]. destruct F1 as [->|F1]; [left; lia|].
      destruct (le_al_pow2 b a) as [->|[Hd Hn]]; try assumption; [now left|right].
      apply (N.divide_trans _ a); [assumption|]. now apply N.divide_add_r. }
    rewrite A. rewrite N.add_assoc. split; [reflexivity|]. split; [reflexivity|exact B].
Qed.

(** C66.  Reordering the fields of a derived struct does not change its ALIGNMENT, and the size
    is never less than the sum of the field sizes.  If the fields are in order of decreasing
    ALIGNMENT and the size of each is a multiple of its ALIGNMENT, there is no padding between
    fields and no other order gives a smaller struct. *)
Lemma C66_field_order_proof : forall tg l name name' fs fs' t t' ms,
  target_ok tg = true -> Permutation fs fs' ->
  out_ty tg l (HStruct name fs) = Some t -> out_ty tg l (HStruct name' fs') = Some t' ->
  field_metrics tg l fs = Some ms ->
  std_align l t' = std_align l t
  /\ sum_sizes ms <= size_of tg t'
  /\ (decreasing ms -> full ms ->
        size_of tg t <= size_of tg t'
        /\ exists offs, map (fun nf => assoc (fst nf) (field_offsets tg t)) fs = map Some offs
             /\ contiguous 0 (map snd ms) offs (sum_sizes ms)).
Proof.
  intros tg l name name' fs fs' t t' ms Htg HP Ho Ho' Hm.
  destruct (C17_size_and_alignment_proof tg l name fs t Htg Ho) as [ms1 [E [S1 [S2 [S3 S4]]]]].
  destruct (C17_size_and_alignment_proof tg l name' fs' t' Htg Ho') as [ms' [E' [S1' [S2' [S3' S4']]]]].
  rewrite Hm in E. injection E as <-.
  assert (PM : Permutation ms ms') by (eapply map_opt_perm; [exact HP|exact Hm|exact E']).
  set (A := fold_right N.max _ (map fst ms)) in *. set (A' := fold_right N.max _ (map fst ms')) in *.
  assert (EA : A' = A) by (unfold A, A'; symmetry; apply fold_max_perm; now apply Permutation_map).
  split; [congruence|].
  pose proof (extent_ge_sum ms' 0) as G. rewrite <- (sum_sizes_perm _ _ PM) in G.
  split; [rewrite S3'; pose proof (Proofs_Evolve.next_aligned_ge (extent 0 ms') A'); lia|].
  intros HD HF.
  assert (HA : Forall (fun m => pow2_0 (fst m)) ms).
  { destruct (struct_facts _ _ _ _ _ Htg Ho) as [outs [Eo [_ [_ [_ [HG _]]]]]].
    rewrite (field_metrics_mems tg l fs outs Htg Eo) in Hm. injection Hm as <-.
    unfold mems. apply Forall_forall. intros m Hin. apply in_map_iff in Hin. destruct Hin as [o [<- Hin]]. cbn [fst].
    rewrite Forall_forall in HG. eapply good_alN_pow2. exact (HG _ Hin). }
  destruct (decreasing_tight ms 0 HA HD HF) as [T1 T2].
  { destruct ms; [exact I|right; apply N.divide_0_r]. }
  rewrite N.add_0_l in T1, T2. split.
  - rewrite S3, S3', EA, T1. apply Proofs_Evolve.next_aligned_least; [|apply Proofs_Evolve.aligned_next].
    pose proof (Proofs_Evolve.next_aligned_ge (extent 0 ms') A). lia.
  - eexists. split; [exact S2|exact T2].
Qed.

(** C66.  The condition on the sizes is needed: with 3-vectors (12 bytes, aligned to 16)
    decreasing ALIGNMENT is not the best order. *)
Lemma C66_decreasing_alignment_refuted_proof : forall l,
  let fs := [("a", vec3f); ("b", vec3f); ("c", HPrim PF32); ("d", HPrim PF32)] in
  let fs' := [("a", vec3f); ("c", HPrim PF32); ("b", vec3f); ("d", HPrim PF32)] in
  Permutation fs fs' /\ (exists ms, field_metrics x86_64 l fs = Some ms /\ decreasing ms)
  /\ std_size_static x86_64 l (HStruct "S" fs) = Some 48 /\ std_size_static x86_64 l (HStruct "S" fs') = Some 32.
Proof.
  intros l. cbv zeta. split; [constructor; apply perm_swap|]. split.
  - exists [(16, 12); (16, 12); (4, 4); (4, 4)]. split; [destruct l; vm_compute; reflexivity|]. cbn [decreasing fst]. repeat split; repeat (apply Forall_cons; [cbn [fst]; lia|]); try apply Forall_nil.
  - destruct l; split; vm_compute; reflexivity.
Qed.

(** C66: a struct with a matrix, a double and a float in the good order and in another one. *)
Lemma C66_ex_proof :
  let fs := [("m", mat3f); ("d", HPrim PF64); ("x", HPrim PF32)] in
  let fs' := [("x", HPrim PF32); ("m", mat3f); ("d", HPrim PF64)] in
  Permutation fs fs'
  /\ (exists ms, field_metrics x86_64 L430 fs = Some ms /\ decreasing ms /\ full ms /\ sum_sizes ms = 60)
  /\ std_size_static x86_64 L430 (HStruct "S" fs) = Some 64 /\ std_size_static x86_64 L430 (HStruct "S" fs') = Some 80.
Proof.
  cbv zeta. split; [apply Permutation_sym; exact (Permutation_cons_append [("m", mat3f); ("d", HPrim PF64)] ("x", HPrim PF32))|].
  split; [|split; vm_compute; reflexivity].
  exists [(16, 48); (8, 8); (4, 4)]. split; [vm_compute; reflexivity|]. split; [cbn [decreasing fst]; repeat split; repeat (apply Forall_cons; [cbn [fst]; lia|]); try apply Forall_nil|]. split; [|reflexivity].
  unfold full. repeat apply Forall_cons; [right; exists 3; reflexivity|right; exists 1; reflexivity|right; exists 1; reflexivity|apply Forall_nil].
Qed.
