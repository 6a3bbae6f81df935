(** * Facts about Sizer and Writer *)

From Coq Require Import NArith String Bool List Lia ZArith.
From Coq Require Import ZifyBool ZifyN ZifyNat.
From Coq Require Import Strings.Byte.
From Verif Require Import Rust Internal Prims Derive Host Buffer SpecBuf SpecGlsl SpecHost
  Arith RustFacts DeriveFacts TypeFacts SpecLayout LayoutFacts HostFacts GlslFacts.
Import ListNotations.
Local Open Scope string_scope.
Local Open Scope N_scope.

(** ** Induction principle for [wval] *)
Lemma wval_ind' (P : wval -> Prop) :
  (forall h v, P (WLeaf h v)) ->
  (forall t s, P (WStd t s)) ->
  (forall items, Forall P items -> P (WSeq items)) ->
  forall x, P x.
Proof.
  intros HL HT HS. fix IH 1. intros [h v|t s|items]; [apply HL|apply HT|apply HS].
  induction items as [|x r IHr]; constructor; [apply IH|exact IHr].
Qed.

(** ** Least aligned positions *)

Lemma aligned_divide al o : aligned al o <-> al = 0 \/ (al | o).
Proof. unfold aligned, N.divide. reflexivity. Qed.

Lemma least_aligned_spec al from o : least_aligned al from o <-> o = from + align_offset from al.
Proof.
  unfold least_aligned. setoid_rewrite aligned_divide. split.
  - intros [H1 [H2 H3]]. destruct (N.eq_dec al 0) as [->|Hal].
    + rewrite align_offset_0. pose proof (H3 from (N.le_refl _) (or_introl eq_refl)). lia.
    + destruct H2 as [|H2]; [contradiction|].
      pose proof (align_offset_least from al o ltac:(lia) H1 H2).
      destruct (align_offset_divide from al) as [D|]; [|contradiction].
      pose proof (H3 (from + align_offset from al) ltac:(lia) (or_intror D)). lia.
  - intros ->. split; [lia|]. split.
    + destruct (align_offset_divide from al); auto.
    + intros p Hp [->|D]; [rewrite align_offset_0; lia|].
      destruct (N.eq_dec al 0) as [->|Hal]; [rewrite align_offset_0; lia|].
      apply align_offset_least; [lia|assumption|assumption].
Qed.

Lemma least_aligned_exists al from : exists o, least_aligned al from o.
Proof. eexists. now apply least_aligned_spec. Qed.

Lemma least_aligned_unique al from o o' : least_aligned al from o -> least_aligned al from o' -> o = o'.
Proof. rewrite !least_aligned_spec. congruence. Qed.

(** ** Computable versions of [laid_out] *)

Definition pad_of (cur al : N) : N := align_offset cur al.

Fixpoint placements (cur : N) (ps : list part) : list placement :=
  match ps with
  | [] => []
  | (al, bs) :: r => let o := cur + align_offset cur al in (o, bs) :: placements (o + len bs) r
  end.

Fixpoint end_of (cur : N) (ps : list part) : N :=
  match ps with
  | [] => cur
  | (al, bs) :: r => end_of (cur + align_offset cur al + len bs) r
  end.

Definition zeros (n : N) : list byte := repeat x00 (N.to_nat n).

Fixpoint render (cur : N) (ps : list part) : list byte :=
  match ps with
  | [] => []
  | (al, bs) :: r =>
    zeros (align_offset cur al) ++ bs ++ render (cur + align_offset cur al + len bs) r
  end%list.

Lemma laid_out_spec cur parts ps total :
  laid_out cur parts ps total <-> ps = placements cur parts /\ total = end_of cur parts.
Proof.
  split.
  - induction 1 as [|cur al bs o r ps total H _ [-> ->]]; [now split|].
    apply least_aligned_spec in H. subst o. now split.
  - revert cur ps total. induction parts as [|[al bs] r IH]; intros cur ps total [-> ->]; [constructor|].
    cbn [placements end_of]. constructor; [now apply least_aligned_spec|]. now apply IH.
Qed.

Lemma laid_out_total cur parts : exists ps total, laid_out cur parts ps total.
Proof. do 2 eexists. now apply laid_out_spec. Qed.

Lemma len_zeros n : len (zeros n) = n.
Proof. unfold zeros. rewrite len_repeat. lia. Qed.

Lemma end_of_render ps : forall cur, end_of cur ps = cur + len (render cur ps).
Proof.
  induction ps as [|[al bs] r IH]; intros cur; cbn [end_of render]; [rewrite len_nil; lia|].
  rewrite IH, !len_app, len_zeros. lia.
Qed.

Lemma end_of_ge ps cur : cur <= end_of cur ps.
Proof. rewrite end_of_render. lia. Qed.

Lemma placements_app p q : forall cur,
  placements cur (p ++ q)%list = (placements cur p ++ placements (end_of cur p) q)%list.
Proof. induction p as [|[al bs] p IH]; intros cur; [reflexivity|]. cbn. now rewrite IH. Qed.

Lemma end_of_app p q : forall cur, end_of cur (p ++ q)%list = end_of (end_of cur p) q.
Proof. induction p as [|[al bs] p IH]; intros cur; [reflexivity|]. cbn. now rewrite IH. Qed.

Lemma render_app p q : forall cur,
  render cur (p ++ q)%list = (render cur p ++ render (end_of cur p) q)%list.
Proof. induction p as [|[al bs] p IH]; intros cur; [reflexivity|]. cbn. now rewrite IH, <- !app_assoc. Qed.

Lemma increasing_placements ps : forall cur, increasing cur (placements cur ps) (end_of cur ps).
Proof.
  induction ps as [|[al bs] r IH]; intros cur; cbn [placements end_of increasing]; [lia|].
  split; [lia|]. apply IH.
Qed.

Lemma increasing_in ps : forall start total o c, increasing start ps total -> In (o, c) ps ->
  start <= o /\ o + len c <= total.
Proof.
  induction ps as [|[o' c'] r IH]; intros start total o c H Hin; [contradiction|].
  cbn [increasing] in H. destruct H as [H1 H2]. destruct Hin as [E|Hin].
  - injection E as -> ->. split; [assumption|].
    clear IH H1. revert H2. generalize (o + len c). induction r as [|[o'' c''] r IH]; intros s H2; cbn [increasing] in H2; [lia|].
    destruct H2 as [A B]. apply IH in B. lia.
  - destruct (IH _ _ _ _ H2 Hin). split; [lia|assumption].
Qed.

Lemma read_at_app_l a b off n : off + n <= len a -> read_at (a ++ b)%list off n = read_at a off n.
Proof.
  intros H. unfold read_at. rewrite len_app.
  replace (off + n <=? len a + len b) with true by (symmetry; apply N.leb_le; lia).
  replace (off + n <=? len a) with true by (symmetry; apply N.leb_le; lia).
  f_equal. rewrite skipn_app. rewrite firstn_app.
  replace (N.to_nat n - length (skipn (N.to_nat off) a))%nat with 0%nat
    by (rewrite skipn_length; unfold len in H; lia).
  cbn [firstn]. now rewrite app_nil_r.
Qed.

Lemma read_at_app_r a b off n : len a <= off -> read_at (a ++ b)%list off n = read_at b (off - len a) n.
Proof.
  intros H. unfold read_at. rewrite len_app.
  replace (off + n <=? len a + len b) with (off - len a + n <=? len b)
    by (apply Bool.eq_true_iff_eq; rewrite !N.leb_le; lia).
  destruct (off - len a + n <=? len b); [|reflexivity].
  f_equal. f_equal. rewrite skipn_app. rewrite skipn_all2 by (unfold len in H; lia). cbn [app].
  f_equal. unfold len. lia.
Qed.

Lemma byte_at_app_l a b i : i < len a -> byte_at (a ++ b)%list i = byte_at a i.
Proof. intros H. unfold byte_at. apply nth_error_app1. unfold len in H. lia. Qed.
Lemma byte_at_app_r a b i : len a <= i -> byte_at (a ++ b)%list i = byte_at b (i - len a).
Proof.
  intros H. unfold byte_at. rewrite nth_error_app2 by (unfold len in H; lia).
  f_equal. unfold len. lia.
Qed.
Lemma byte_at_zeros n i : i < n -> byte_at (zeros n) i = Some x00.
Proof.
  intros H. unfold byte_at, zeros. rewrite (nth_error_repeat x00); [reflexivity|lia].
Qed.

(** the image produced after an existing prefix [pre] of length [cur] *)
Lemma render_image ps : forall pre cur, len pre = cur ->
  len (pre ++ render cur ps)%list = end_of cur ps
  /\ (forall o c, In (o, c) (placements cur ps) -> read_at (pre ++ render cur ps)%list o (len c) = Some c)
  /\ (forall i, cur <= i < end_of cur ps ->
       (forall o c, In (o, c) (placements cur ps) -> ~ (o <= i < o + len c)) ->
       byte_at (pre ++ render cur ps)%list i = Some x00).
Proof.
  induction ps as [|[al bs] r IH]; intros pre cur Hpre.
  - cbn. rewrite app_nil_r. split; [assumption|]. split; [tauto|]. intros i Hi. lia.
  - cbn [render placements end_of].
    set (pad := align_offset cur al).
    assert (E : (pre ++ zeros pad ++ bs ++ render (cur + pad + len bs) r
            = (pre ++ zeros pad ++ bs) ++ render (cur + pad + len bs) r)%list).
    { now rewrite <- !app_assoc. }
    rewrite E. destruct (IH (pre ++ zeros pad ++ bs)%list (cur + pad + len bs)) as [A [B C]].
    { rewrite !len_app, len_zeros. lia. }
    split; [exact A|]. split.
    + intros o c [Eo|Hin]; [|now apply B]. injection Eo as <- <-.
      rewrite read_at_app_l by (rewrite !len_app, len_zeros; lia).
      rewrite read_at_app_r by lia. rewrite read_at_app_r by (rewrite len_zeros; lia).
      rewrite len_zeros. replace (cur + pad - len pre - pad) with 0 by lia. apply read_at_all.
    + intros i Hi Hno. destruct (N.lt_ge_cases i (cur + pad)) as [Hlt|Hge].
      * rewrite byte_at_app_l by (rewrite !len_app, len_zeros; lia).
        rewrite byte_at_app_r by lia. rewrite byte_at_app_l by (rewrite len_zeros; lia).
        apply byte_at_zeros. lia.
      * pose proof (Hno (cur + pad) bs (or_introl eq_refl)).
        apply C; [lia|]. intros o c Hin. apply Hno. now right.
Qed.

Lemma render_is_image ps : image (placements 0 ps) (end_of 0 ps) (render 0 ps).
Proof.
  destruct (render_image ps [] 0 eq_refl) as [A [B C]]. cbn [app] in *.
  split; [assumption|]. split; [assumption|]. intros i Hi. apply C. lia.
Qed.

(** ** One leaf write *)

Section Run.
  Context {W : Type} (tg : target) (wi : write_impl W).

  Definition write1 (p : part) (w : writer W) : writer W * wres :=
    let '(al, bs) := p in
    let padding := align_offset (w_offset w) al in
    match write_padding wi (N.to_nat padding) (w_inner w) with
    | (inner1, Some e) => (Writer inner1 (w_offset w), WErr e)
    | (inner1, None) =>
      match uadd tg (w_offset w) padding with
      | Panicked => (Writer inner1 (w_offset w), WPanic)
      | Done write_here =>
        match wi inner1 bs with
        | (inner2, Some e) => (Writer inner2 write_here, WErr e)
        | (inner2, None) =>
          match uadd tg write_here (len bs) with
          | Panicked => (Writer inner2 write_here, WPanic)
          | Done offset => (Writer inner2 offset, WOk write_here)
          end
        end
      end
    end.

  Fixpoint run1 (ps : list part) (w : writer W) : writer W * (list N * option wres) :=
    match ps with
    | [] => (w, ([], None))
    | p :: r =>
      match write1 p w with
      | (w1, WOk o) => let '(w2, (os, e)) := run1 r w1 in (w2, (o :: os, e))
      | (w1, res) => (w1, ([], Some res))
      end
    end.

  Lemma run1_app p q w :
    run1 (p ++ q)%list w =
    match run1 p w with
    | (w1, (os, None)) => let '(w2, (os', e)) := run1 q w1 in (w2, (os ++ os', e))%list
    | r => r
    end.
  Proof.
    revert w. induction p as [|c p IH]; intros w; cbn [app run1].
    - destruct (run1 q w) as [w2 [os' e]]. reflexivity.
    - destruct (write1 c w) as [w1 [o|e| |]]; try reflexivity.
      rewrite IH. destruct (run1 p w1) as [w2 [os [e|]]]; [reflexivity|].
      destruct (run1 q w2) as [w3 [os' e']]. reflexivity.
  Qed.
End Run.

Lemma write_std_write1 {W} tg l (wi : write_impl W) t s w al bs :
  std_align l t = Some al -> bytes_of tg t s = Some bs -> size_of tg t = len bs ->
  write_std tg l wi t s w = write1 tg wi (al, bs) w.
Proof. intros E1 E2 E3. unfold write_std, write1. rewrite E1, E2, E3. reflexivity. Qed.

(** ** Flattening of values *)

Fixpoint parts_list (tg : target) (l : lay) (items : list wval) : option (list part) :=
  match items with
  | [] => Some []
  | x :: r =>
    match parts tg l x, parts_list tg l r with
    | Some p, Some q => Some (p ++ q)%list
    | _, _ => None
    end
  end.

Lemma parts_WSeq tg l items : parts tg l (WSeq items) = parts_list tg l items.
Proof. cbn [parts]. induction items as [|x r IH]; [reflexivity|]. cbn [parts_list]. now rewrite IH. Qed.

Definition wvals_ok (tg : target) (l : lay) (items : list wval) : Prop := Forall (wval_ok tg l) items.

Lemma wval_ok_WSeq tg l items : wval_ok tg l (WSeq items) <-> wvals_ok tg l items.
Proof.
  unfold wvals_ok. cbn [wval_ok]. induction items as [|x r IH].
  - split; constructor.
  - split.
    + intros [A B]. constructor; [exact A|now apply IH].
    + intros H. inversion H; subst. split; [assumption|now apply IH].
Qed.

Lemma leaf_parts tg l h v t : target_ok tg = true -> out_ty tg l h = Some t -> hval_ok tg h v = true ->
  exists s, as_std tg l h v = Some s /\ has_sty t s = true
    /\ parts tg l (WLeaf h v) = Some [(alN l t, flat tg t s)]
    /\ out_align tg l h = Some (alN l t) /\ as_std_bytes tg l h v = Some (flat tg t s)
    /\ bytes_of tg t s = Some (flat tg t s)
    /\ len (flat tg t s) = size_of tg t /\ good tg l t.
Proof.
  intros Htg Ho Hv. pose proof (out_ty_good tg Htg _ _ _ Ho) as G.
  destruct (conv_total tg Htg h l t Ho) as [Hc _]. destruct (Hc v Hv) as [s [E1 [E2 _]]].
  pose proof (good_nopad _ _ _ G) as Hn.
  assert (Eb : bytes_of tg t s = Some (flat tg t s)) by (now apply bytes_of_flat).
  exists s. split; [assumption|]. split; [assumption|].
  assert (A : out_align tg l h = Some (alN l t)).
  { unfold out_align. rewrite Ho. now apply (good_alN tg). }
  assert (B : as_std_bytes tg l h v = Some (flat tg t s)).
  { unfold as_std_bytes. now rewrite Ho, E1. }
  split; [cbn [parts]; now rewrite A, B|].
  split; [assumption|]. split; [assumption|]. split; [assumption|].
  split; [now apply len_flat|assumption].
Qed.

Lemma std_parts tg l t s : target_ok tg = true -> layout_type tg l t -> has_sty t s = true ->
  parts tg l (WStd t s) = Some [(alN l t, flat tg t s)]
  /\ std_align l t = Some (alN l t)
  /\ bytes_of tg t s = Some (flat tg t s)
  /\ len (flat tg t s) = size_of tg t /\ lgood tg l t.
Proof.
  intros Htg Ho Hv. pose proof (layout_type_lgood tg l t Htg Ho) as G.
  pose proof (lgood_nopad _ _ _ G) as Hn.
  assert (Eb : bytes_of tg t s = Some (flat tg t s)) by (now apply bytes_of_flat).
  pose proof (lgood_alN _ _ _ G) as A.
  split; [cbn [parts]; now rewrite A, Eb|].
  split; [assumption|]. split; [assumption|]. split; [now apply len_flat|assumption].
Qed.

Lemma parts_total tg l : target_ok tg = true -> forall x, wval_ok tg l x -> exists ps, parts tg l x = Some ps.
Proof.
  intros Htg. induction x as [h v|t s|items IH] using wval_ind'; intros H.
  - cbn [wval_ok] in H. destruct H as [[t Ht] Hv].
    destruct (leaf_parts _ _ _ _ _ Htg Ht Hv) as [s [_ [_ [E _]]]]. eauto.
  - cbn [wval_ok] in H. destruct H as [Ht Hs]. destruct (std_parts _ _ _ _ Htg Ht Hs) as [E _]. eauto.
  - apply wval_ok_WSeq in H. rewrite parts_WSeq. induction H as [|x r Hx _ IHr]; [now exists []|].
    inversion IH as [|? ? I1 I2]; subst. destruct (I1 Hx) as [p Ep]. destruct (IHr I2) as [q Eq].
    cbn [parts_list]. rewrite Ep, Eq. eauto.
Qed.

(** value returned for the first item *)
Fixpoint ret_of (x : wval) (off : N) (os : list N) : N :=
  match x with
  | WLeaf _ _ | WStd _ _ => hd off os
  | WSeq [] => off
  | WSeq (x :: _) => ret_of x off os
  end.

Lemma ret_of_app {W} tg l (wi : write_impl W) off x : forall p w w' os,
  parts tg l x = Some p -> run1 tg wi p w = (w', (os, None)) ->
  forall a, ret_of x off (os ++ a)%list = ret_of x off os.
Proof.
  induction x as [h v|t s|items IH] using wval_ind'; intros p1 w w1 os1 E1 R1 a; cbn [ret_of].
  - cbn [parts] in E1. destruct (out_align tg l h); [|discriminate].
    destruct (as_std_bytes tg l h v); [|discriminate]. injection E1 as <-.
    cbn [run1] in R1. destruct (write1 tg wi _ w) as [w2 [o| | |]]; try discriminate.
    injection R1 as <- <-. reflexivity.
  - cbn [parts] in E1. destruct (std_align l t); [|discriminate].
    destruct (bytes_of tg t s); [|discriminate]. injection E1 as <-.
    cbn [run1] in R1. destruct (write1 tg wi _ w) as [w2 [o| | |]]; try discriminate.
    injection R1 as <- <-. reflexivity.
  - rewrite parts_WSeq in E1. destruct items as [|x items]; [reflexivity|].
    cbn [parts_list] in E1. destruct (parts tg l x) as [q1|] eqn:F1; [|discriminate].
    destruct (parts_list tg l items) as [q2|]; [|discriminate]. injection E1 as <-.
    rewrite run1_app in R1. destruct (run1 tg wi q1 w) as [u1 [ps1 [e|]]] eqn:S1; [discriminate|].
    destruct (run1 tg wi q2 u1) as [u2 [ps2 e2]]. injection R1 as <- <- ->.
    inversion IH as [|? ? J1 J2]; subst.
    rewrite <- app_assoc. rewrite (J1 _ _ _ _ F1 S1). symmetry. apply (J1 _ _ _ _ F1 S1).
Qed.

(** loops over items *)
Fixpoint write_all_vals {W} (tg : target) (l : lay) (wi : write_impl W) (xs : list wval) (w : writer W)
  : writer W * option wres :=
  match xs with
  | [] => (w, None)
  | x :: r =>
    match write_val tg l wi x w with
    | (w1, WOk _) => write_all_vals tg l wi r w1
    | (w1, res) => (w1, Some res)
    end
  end.

Lemma write_val_WSeq {W} tg l (wi : write_impl W) items w :
  write_val tg l wi (WSeq items) w = write_iter tg l wi w items.
Proof.
  unfold write_iter. cbn [write_val]. destruct items as [|x items]; [reflexivity|].
  destruct (write_val tg l wi x w) as [w1 [o| | |]]; try reflexivity.
  clear x. revert w1. induction items as [|x items IH]; intros w1; [reflexivity|].
  cbn [write_iter_rest]. destruct (write_val tg l wi x w1) as [w2 [o'| | |]]; try reflexivity. apply IH.
Qed.

Lemma write_iter_rest_all {W} tg l (wi : write_impl W) o items : forall w,
  write_iter_rest tg l wi o items w =
  match write_all_vals tg l wi items w with
  | (w', None) => (w', WOk o)
  | (w', Some r) => (w', r)
  end.
Proof.
  induction items as [|x items IH]; intros w; [reflexivity|].
  cbn [write_iter_rest write_all_vals]. destruct (write_val tg l wi x w) as [w1 [o'| | |]]; try reflexivity. apply IH.
Qed.

Lemma run1_not_ok {W} tg (wi : write_impl W) p1 : forall w w1 os1 r,
  run1 tg wi p1 w = (w1, (os1, Some r)) -> forall o, r <> WOk o.
Proof.
  induction p1 as [|c p1 IH]; intros w w1 os1 r R1; [discriminate|].
  cbn [run1] in R1. destruct (write1 tg wi c w) as [w2 [o|e| |]].
  - destruct (run1 tg wi p1 w2) as [w3 [os e]] eqn:E. injection R1 as <- <- ->. eauto.
  - injection R1 as <- <- <-. discriminate.
  - injection R1 as <- <- <-. discriminate.
  - injection R1 as <- <- <-. discriminate.
Qed.

(** every write is a run over the parts *)
Lemma write_val_run1 {W} tg l (wi : write_impl W) : target_ok tg = true -> forall x w ps,
  wval_ok tg l x -> parts tg l x = Some ps ->
  write_val tg l wi x w =
  match run1 tg wi ps w with
  | (w', (os, None)) => (w', WOk (ret_of x (w_offset w) os))
  | (w', (_, Some r)) => (w', r)
  end.
Proof.
  intros Htg. induction x as [h v|t s|items IH] using wval_ind'; intros w ps Hok Hp.
  - cbn [wval_ok] in Hok. destruct Hok as [[t Ht] Hv].
    destruct (leaf_parts _ _ _ _ _ Htg Ht Hv) as [s [E1 [E2 [E3 [E4 [E5 [E6 [E7 G]]]]]]]].
    rewrite E3 in Hp. injection Hp as <-. cbn [write_val]. unfold write_leaf. rewrite Ht, E1.
    erewrite write_std_write1; [|apply (good_alN tg); exact G|exact E6|symmetry; exact E7].
    cbn [run1]. destruct (write1 tg wi _ w) as [w1 [o|e| |]]; reflexivity.
  - cbn [wval_ok] in Hok. destruct Hok as [Ht Hs].
    destruct (std_parts _ _ _ _ Htg Ht Hs) as [E3 [E4 [E6 [E7 G]]]].
    rewrite E3 in Hp. injection Hp as <-. cbn [write_val].
    erewrite write_std_write1; [|exact E4|exact E6|symmetry; exact E7].
    cbn [run1]. destruct (write1 tg wi _ w) as [w1 [o|e| |]]; reflexivity.
  - apply wval_ok_WSeq in Hok. rewrite parts_WSeq in Hp. rewrite write_val_WSeq. unfold write_iter.
    destruct items as [|x items].
    + injection Hp as <-. reflexivity.
    + inversion IH as [|? ? I1 I2]; subst. inversion Hok as [|? ? H1 H2]; subst.
      cbn [parts_list] in Hp. destruct (parts tg l x) as [p1|] eqn:E1; [|discriminate].
      destruct (parts_list tg l items) as [p2|] eqn:E2; [|discriminate]. injection Hp as <-.
      rewrite (I1 w p1 H1 eq_refl). rewrite run1_app.
      destruct (run1 tg wi p1 w) as [w1 [os1 [r|]]] eqn:R1.
      { pose proof (run1_not_ok _ _ _ _ _ _ _ R1) as Hr. destruct r; try reflexivity. exfalso. eapply Hr; reflexivity. }
      rewrite write_iter_rest_all.
      assert (Hrest : forall w1, write_all_vals tg l wi items w1 =
        match run1 tg wi p2 w1 with (w', (_, e)) => (w', e) end).
      { clear -I2 H2 E2. revert p2 E2. induction items as [|x items IHi]; intros p2 E2 w1.
        - injection E2 as <-. reflexivity.
        - inversion I2 as [|? ? J1 J2]; subst. inversion H2 as [|? ? K1 K2]; subst.
          cbn [parts_list] in E2. destruct (parts tg l x) as [q1|] eqn:F1; [|discriminate].
          destruct (parts_list tg l items) as [q2|] eqn:F2; [|discriminate]. injection E2 as <-.
          cbn [write_all_vals]. rewrite (J1 w1 q1 K1 eq_refl), run1_app.
          destruct (run1 tg wi q1 w1) as [w2 [os [r|]]] eqn:R.
          + pose proof (run1_not_ok _ _ _ _ _ _ _ R) as Hr. destruct r; try reflexivity. exfalso. eapply Hr; reflexivity.
          + rewrite (IHi J2 K2 q2 eq_refl). destruct (run1 tg wi q2 w2) as [w3 [os' e]]. reflexivity. }
      rewrite Hrest. destruct (run1 tg wi p2 w1) as [w2 [os2 [r|]]]; [reflexivity|].
      cbn [ret_of]. now rewrite (ret_of_app tg l wi _ x _ _ _ _ E1 R1).
Qed.
