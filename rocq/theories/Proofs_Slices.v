(** * Slices and blocks against GLSL arrays and blocks *)

From Coq Require Import NArith String Bool List Lia ZArith.
From Coq Require Import ZifyBool ZifyN ZifyNat.
From Coq Require Import Strings.Byte.
From Verif Require Import Rust Internal Prims Derive Host Rows Buffer SpecBuf SpecGlsl SpecHost SpecBlock
  Arith RustFacts DeriveFacts TypeFacts HostFacts GlslFacts BufferFacts WriterFacts Samples Proofs_Buffer.
Import ListNotations.
Local Open Scope string_scope.
Local Open Scope N_scope.

(** ** Strides *)

Lemma array_elem_align l g : pow2 (base_align l g) ->
  array_elem l g -> vec4_round l (base_align l g) = base_align l g.
Proof.
  intros Hp [->|H]; [reflexivity|]. destruct l; [|reflexivity]. cbn [vec4_round].
  rewrite round_up_pow2_16 by assumption. lia.
Qed.

(** every layout type's size is below its stride by less than its alignment *)
Lemma stride_gap x a : 0 < a -> x <= round_up x a /\ round_up x a - x < a.
Proof.
  intros H. rewrite round_up_align_offset by assumption. pose proof (align_offset_lt x a H). lia.
Qed.

(** ** Elements *)

Lemma elem_facts tg l h g t v : target_ok tg = true -> out_ty tg l h = Some t -> gty_of h = Some g ->
  hval_ok tg h v = true ->
  exists bs x, parts tg l (WLeaf h v) = Some [(base_align l g, bs)] /\ len bs = gsize l g
    /\ gval_of tg h v = Some x
    /\ forall buf off, read_at buf off (len bs) = Some bs -> gread tg l g buf off = Some x.
Proof.
  intros Htg Ho Hg Hv.
  destruct (size_align_glsl tg Htg h l t g Ho Hg) as [E1 [E2 _]].
  destruct (leaf_parts _ _ _ _ _ Htg Ho Hv) as [s [A1 [A2 [A3 [_ [_ [_ [A7 _]]]]]]]].
  destruct (conv_total tg Htg h l t Ho) as [Hc _]. destruct (Hc v Hv) as [s' [B1 [_ B3]]].
  rewrite A1 in B1. injection B1 as <-.
  assert (Hx : exists x, gval_of tg h v = Some x).
  { destruct (read_all tg Htg h l t g s v (flat tg t s) 0 Ho Hg A2 B3) as [x [_ X]]; [|eauto].
    rewrite <- A7. apply read_at_all. }
  destruct Hx as [x Hx]. exists (flat tg t s), x.
  rewrite A3, E1. split; [reflexivity|]. split; [congruence|]. split; [exact Hx|].
  intros buf off Hr. rewrite A7 in Hr.
  destruct (read_all tg Htg h l t g s v buf off Ho Hg A2 B3 Hr) as [x' [X1 X2]]. congruence.
Qed.

Lemma slice_facts tg l h g t : target_ok tg = true -> out_ty tg l h = Some t -> gty_of h = Some g ->
  forall vs, Forall (fun v => hval_ok tg h v = true) vs ->
  exists bss xs, parts tg l (WSeq (map (WLeaf h) vs)) = Some (map (fun bs => (base_align l g, bs)) bss)
    /\ map_opt (gval_of tg h) vs = Some xs
    /\ Forall2 (fun bs x => len bs = gsize l g /\
         forall buf off, read_at buf off (len bs) = Some bs -> gread tg l g buf off = Some x) bss xs
    /\ length bss = length vs.
Proof.
  intros Htg Ho Hg vs. rewrite parts_WSeq. induction 1 as [|v vs Hv _ [bss [xs [E1 [E2 [E3 E4]]]]]].
  - exists [], []. repeat split. constructor.
  - destruct (elem_facts tg l h g t v Htg Ho Hg Hv) as [bs [x [A1 [A2 [A3 A4]]]]].
    exists (bs :: bss), (x :: xs). cbn [map parts_list]. rewrite A1, E1, map_opt_cons, A3, E2.
    repeat split; [constructor; auto|cbn; lia].
Qed.

(** ** Positions of the elements of a slice *)
Lemma uniform_nth a n bss : 0 < a -> Forall (fun bs => len bs = n) bss -> forall cur k bs,
  nth_error bss k = Some bs ->
  nth_error (placements cur (map (fun bs => (a, bs)) bss)) k
  = Some (round_up cur a + N.of_nat k * round_up n a, bs).
Proof.
  intros Ha. induction 1 as [|b bss Hb _ IH]; intros cur k bs Hk; [destruct k; discriminate|].
  cbn [map placements]. rewrite <- round_up_align_offset by assumption.
  destruct k as [|k].
  - injection Hk as <-. cbn [nth_error]. f_equal. f_equal. lia.
  - cbn [nth_error] in *. rewrite (IH _ k bs Hk). f_equal. f_equal.
    rewrite Hb, round_up_add by (assumption || now apply round_up_divide). lia.
Qed.

Lemma uniform_end a n bss : 0 < a -> Forall (fun bs => len bs = n) bss -> forall cur, bss <> [] ->
  end_of cur (map (fun bs => (a, bs)) bss)
  = round_up cur a + (len bss - 1) * round_up n a + n.
Proof.
  intros Ha. induction 1 as [|b bss Hb F IH]; intros cur Hne; [congruence|].
  cbn [map end_of]. rewrite <- round_up_align_offset by assumption. rewrite Hb.
  destruct bss as [|b' bss].
  - cbn [map end_of]. unfold len. cbn [length]. lia.
  - rewrite IH by discriminate. rewrite round_up_add by (assumption || now apply round_up_divide).
    rewrite !len_cons. nia.
Qed.

Lemma uniform_offs a n bss : 0 < a -> Forall (fun bs => len bs = n) bss -> forall cur,
  map fst (placements cur (map (fun bs => (a, bs)) bss))
  = map (fun k => round_up cur a + N.of_nat k * round_up n a) (seq 0 (length bss)).
Proof.
  intros Ha. induction 1 as [|b bss Hb F IH]; intros cur; [reflexivity|].
  cbn [map placements length seq fst]. rewrite <- round_up_align_offset by assumption.
  f_equal; [lia|]. rewrite <- seq_shift, map_map, IH. apply map_ext. intros k.
  rewrite Hb, round_up_add by (assumption || now apply round_up_divide). lia.
Qed.

(** ** Members of a block *)

Definition start_of (pos : N) (p : list part) : N :=
  match placements pos p with [] => pos | (o, _) :: _ => o end.

Fixpoint starts (tg : target) (l : lay) (pos : N) (xs : list wval) : list N :=
  match xs with
  | [] => []
  | x :: r =>
    match parts tg l x with
    | Some p => start_of pos p :: starts tg l (end_of pos p) r
    | None => []
    end
  end.

Definition flat_val (x : wval) : Prop :=
  match x with WSeq xs => Forall (fun y => match y with WSeq _ => False | _ => True end) xs | _ => True end.

Lemma ret_of_flat x off os : flat_val x -> match x with WSeq [] => os = [] | _ => True end ->
  ret_of x off os = hd off os.
Proof.
  destruct x as [h v|t s|[|[h v|t s|ys] xs]]; intros H E; try reflexivity.
  - now subst.
  - inversion H; contradiction.
Qed.

Lemma write_vals_starts {W} tg l (wi : write_impl W) delivered : target_ok tg = true -> lawful wi delivered ->
  forall xs w w' os pos ps,
  Forall (wval_ok tg l) xs -> Forall flat_val xs -> parts_list tg l xs = Some ps ->
  at_pos tg (w_offset w) pos -> (t_checks tg = true \/ end_of pos ps < umod tg) ->
  write_vals tg l wi xs w = (w', (os, None)) ->
  delivered (w_inner w') = (delivered (w_inner w) ++ render pos ps)%list
  /\ at_pos tg (w_offset w') (end_of pos ps) /\ os = starts tg l pos xs.
Proof.
  intros Htg Hlaw. induction xs as [|x xs IH]; intros w w' os pos ps Hok Hfl Hp Hat Hno Hw.
  - injection Hp as <-. injection Hw as <- <-. cbn. rewrite app_nil_r. auto.
  - cbn [parts_list] in Hp. destruct (parts tg l x) as [p|] eqn:Ep; [|discriminate].
    destruct (parts_list tg l xs) as [q|] eqn:Eq; [|discriminate]. injection Hp as <-.
    pose proof (Forall_inv Hok) as Hx. pose proof (Forall_inv_tail Hok) as Hxs.
    rewrite end_of_app in Hno. cbn [write_vals] in Hw. unfold writer_write in Hw.
    rewrite (write_val_run1 tg l wi Htg x w p Hx Ep) in Hw.
    destruct (run1 tg wi p w) as [w1 [o1 [r|]]] eqn:R.
    { pose proof (run1_not_ok _ _ _ _ _ _ _ R) as Hn. destruct r; try discriminate. congruence. }
    destruct (write_vals tg l wi xs w1) as [w2 [os' e']] eqn:E2. injection Hw as <- <- ->.
    pose proof (parts_uals tg l Htg _ _ Hx Ep) as Hu.
    destruct (run1_spec tg wi delivered Hlaw p w w1 o1 None pos Hu Hat R) as [F [Hlen [A D]]].
    destruct (IH w1 w2 os' _ q Hxs (Forall_inv_tail Hfl) eq_refl A Hno E2) as [D2 [A2 ->]].
    split; [|split].
    + rewrite D2, D, <- app_assoc, render_app. reflexivity.
    + now rewrite end_of_app.
    + cbn [starts]. rewrite Ep. f_equal.
      assert (Hret : ret_of x (w_offset w) o1 = hd (w_offset w) o1).
      { apply ret_of_flat; [exact (Forall_inv Hfl)|]. destruct x as [| |[|]]; try exact I.
        cbn in Ep. injection Ep as <-. now destruct o1. }
      rewrite Hret. unfold start_of. pose proof (end_of_ge q (end_of pos p)).
      destruct p as [|[al bs] p].
      * destruct o1; [|discriminate]. cbn [hd placements]. destruct Hno as [C|Hlt].
        -- now apply (at_pos_checks tg).
        -- apply (at_pos_small tg); [|assumption]. cbn [end_of] in *. lia.
      * destruct o1 as [|o o1]; [discriminate|]. cbn [hd placements].
        cbn [length firstn placements map fst] in F.
        assert (Ho : at_pos tg o (pos + align_offset pos al)) by (inversion F; assumption).
        destruct Hno as [C|Hlt].
        -- now apply (at_pos_checks tg).
        -- apply (at_pos_small tg); [|assumption]. cbn [end_of] in *.
           pose proof (end_of_ge p (pos + align_offset pos al + len bs)). lia.
Qed.

Lemma member_ok_wval tg l m : member_ok tg l m -> wval_ok tg l (member_wval m) /\ flat_val (member_wval m).
Proof.
  destruct m as [h v|h vs]; intros H; cbn [member_wval].
  - split; [exact H|exact I].
  - destruct H as [Ht H]. split.
    + apply wval_ok_WSeq. unfold wvals_ok. induction H; constructor; [split; assumption|assumption].
    + cbn [flat_val]. apply Forall_forall. intros y Hy. apply in_map_iff in Hy. destruct Hy as [v [<- _]]. exact I.
Qed.

(** the two cursors agree on where the next member goes *)
Definition agree (l : lay) (pos cur : N) (gs : list (string * gty)) : Prop :=
  match gs with [] => True | (_, g) :: _ => round_up pos (base_align l g) = round_up cur (base_align l g) end.

Lemma agree_eq l cur gs : agree l cur cur gs.
Proof. destruct gs as [|[]]; reflexivity. Qed.

(** the cursor after a slice: before or at the GLSL end, and close enough *)
Lemma round_up_gap e E a a' : pow2 a -> pow2 a' -> (a | E) -> e <= E -> E - e < a ->
  (round_up e a' = round_up E a' <-> E - e < a').
Proof.
  intros Ha Ha' D Hle Hlt. pose proof (pow2_pos _ Ha). pose proof (pow2_pos _ Ha').
  pose proof (round_up_ge e a' ltac:(lia)). pose proof (round_up_ge E a' ltac:(lia)).
  destruct (stride_gap e a' ltac:(lia)) as [G1 G2].
  destruct (N.le_gt_cases a a') as [Hc|Hc].
  - assert (HE : round_up e a' = round_up E a'); [|split; [lia|auto]].
    apply N.le_antisymm.
    + apply round_up_least; [lia|lia|now apply round_up_divide].
    + apply round_up_least; [lia| |now apply round_up_divide].
      (* round_up e a' is a multiple of a and at least e > E - a *)
      assert (D1 : (a | round_up e a')).
      { eapply N.divide_trans; [apply (pow2_divide a a'); auto|now apply round_up_divide]. }
      destruct D as [k ->]. destruct D1 as [j Hj]. rewrite Hj in *.
      assert (k <= j); [|nia]. destruct (N.le_gt_cases k j) as [|Hkj]; [assumption|exfalso].
      assert (j * a + a <= k * a) by nia. lia.
  - assert (D' : (a' | E)).
    { eapply N.divide_trans; [apply (pow2_divide a' a); auto; lia|assumption]. }
    rewrite (round_up_aligned E a') by (assumption || lia). split; intros HH.
    + lia.
    + assert (round_up e a' <= E) by (apply round_up_least; [lia|assumption|assumption]).
      pose proof (round_up_divide e a' ltac:(lia)) as [j Hj]. destruct D' as [k Hk]. rewrite Hj in *.
      assert (j <= k) by nia. destruct (N.eq_dec j k) as [->|]; [lia|exfalso].
      assert (j * a' + a' <= k * a') by nia. lia.
Qed.

Lemma member_align_pow2 tg l m g : target_ok tg = true -> member_ok tg l m -> member_gty m = Some g ->
  (forall h vs g, m = MSlice h vs -> gty_of h = Some g -> array_elem l g) -> pow2 (base_align l g).
Proof.
  intros Htg Hok Hg Hs. destruct m as [h v|h vs]; cbn [member_gty member_ok] in *.
  - destruct Hok as [[t Ht] _]. now destruct (size_align_glsl tg Htg h l t g Ht Hg) as [_ [_ ?]].
  - destruct Hok as [[t Ht] _]. destruct (gty_of h) as [ge|] eqn:E; [|discriminate]. injection Hg as <-.
    destruct (size_align_glsl tg Htg h l t ge Ht E) as [_ [_ Hp]]. cbn [base_align].
    rewrite array_elem_align; auto. exact (Hs h vs ge eq_refl E).
Qed.

Lemma In_placements_app pos p q o c :
  In (o, c) (placements pos p) \/ In (o, c) (placements (end_of pos p) q) -> In (o, c) (placements pos (p ++ q)%list).
Proof. intros H. rewrite placements_app. now apply in_or_app. Qed.

Lemma block_reads tg l buf : target_ok tg = true -> forall b gs pos cur ps,
  block_ok tg l b -> slices_ok l b -> gaps_ok l b -> block_gty b = Some gs ->
  parts_list tg l (block_wvals b) = Some ps -> pos <= cur -> agree l pos cur gs ->
  (forall o c, In (o, c) (placements pos ps) -> read_at buf o (len c) = Some c) ->
  exists xs, block_gval tg b = Some xs
    /\ Forall2 (fun go x => fst (fst go) = fst x /\ gread tg l (snd (fst go)) buf (snd go) = Some (snd x))
         (combine gs (member_offsets cur (gmembers l gs))) xs
    /\ (no_empty_slice b -> starts tg l pos (block_wvals b) = member_offsets cur (gmembers l gs))
    /\ end_of pos ps <= members_end cur (gmembers l gs).
Proof.
  intros Htg. induction b as [|[f m] b IH]; intros gs pos cur ps Hok Hsl Hgap Hg Hp Hle Hag Hrd.
  - injection Hg as <-. injection Hp as <-. exists []. cbn. repeat split; [constructor|assumption].
  - unfold block_gty in Hg. rewrite map_opt_cons in Hg. cbn [fst snd] in Hg.
    destruct (member_gty m) as [g|] eqn:Egm; [|discriminate].
    fold (block_gty b) in Hg. destruct (block_gty b) as [gs'|] eqn:Egs; [|discriminate]. injection Hg as <-.
    cbn [block_wvals map snd parts_list] in Hp. fold (block_wvals b) in Hp.
    destruct (parts tg l (member_wval m)) as [p|] eqn:Ep; [|discriminate].
    destruct (parts_list tg l (block_wvals b)) as [q|] eqn:Eq; [|discriminate]. injection Hp as <-.
    pose proof (Forall_inv Hok) as Hm. pose proof (Forall_inv_tail Hok) as Hb. cbn [snd] in Hm.
    assert (Hsl' : slices_ok l b) by (intros f0 h0 vs0 g0 Hin; apply (Hsl f0 h0 vs0 g0); now right).
    assert (Hgap' : gaps_ok l b) by (cbn [gaps_ok] in Hgap; destruct b; [exact I|apply Hgap]).
    assert (Hrd' : forall o c, In (o, c) (placements (end_of pos p) q) -> read_at buf o (len c) = Some c).
    { intros o c Hin. apply Hrd, In_placements_app. now right. }
    cbn [agree] in Hag.
    assert (Hpow : pow2 (base_align l g)).
    { apply (member_align_pow2 tg l m g Htg Hm Egm). intros h vs ge ->. apply (Hsl f h vs). now left. }
    pose proof (pow2_pos _ Hpow) as Hpos.
    set (o := round_up cur (base_align l g)) in *.
    (* facts about this member *)
    assert (K : exists x, member_gval tg m = Some x /\ gread tg l g buf o = Some x
      /\ (p <> [] -> start_of pos p = o)
      /\ (p = [] -> exists h, m = MSlice h [])
      /\ end_of pos p <= o + gsize l g
      /\ agree l (end_of pos p) (o + gsize l g) gs').
    { destruct m as [h v|h vs]; cbn [member_gty member_ok member_wval member_gval] in *.
      - destruct Hm as [[t Ht] Hv]. destruct (elem_facts tg l h g t v Htg Ht Egm Hv) as [bs [x [A1 [A2 [A3 A4]]]]].
        rewrite A1 in Ep. injection Ep as <-.
        exists x. cbn [end_of start_of placements]. unfold start_of. cbn [placements].
        rewrite <- round_up_align_offset by assumption. rewrite Hag, A2.
        split; [exact A3|]. split; [|split; [auto|split; [discriminate|split; [lia|apply agree_eq]]]].
        apply A4. apply Hrd. apply In_placements_app. left. cbn [placements].
        rewrite <- round_up_align_offset by assumption. rewrite Hag. now left.
      - destruct Hm as [[t Ht] Hv]. destruct (gty_of h) as [ge|] eqn:Ege; [|discriminate]. injection Egm as <-.
        destruct (slice_facts tg l h ge t Htg Ht Ege vs Hv) as [bss [xs [A1 [A2 [A3 A4]]]]].
        rewrite A1 in Ep. injection Ep as <-. rewrite A2. exists (GVArr xs).
        assert (Hel : array_elem l ge) by (apply (Hsl f h vs ge); [now left|assumption]).
        destruct (size_align_glsl tg Htg h l t ge Ht Ege) as [_ [_ Hpe]].
        assert (Eal : base_align l (GArr ge (length vs)) = base_align l ge) by (cbn [base_align]; now apply array_elem_align).
        assert (Est : array_stride l ge = round_up (gsize l ge) (base_align l ge)).
        { unfold array_stride. now rewrite array_elem_align. }
        rewrite Eal in *.
        assert (F : Forall (fun bs => len bs = gsize l ge) bss).
        { clear -A3. induction A3 as [|? ? ? ? [? _] _ IH]; constructor; assumption. }
        split; [reflexivity|]. split; [|split; [|split; [|split]]].
        + cbn [gread]. rewrite <- A4.
          assert (El : length bss = length xs) by (clear -A3; induction A3; cbn; congruence). rewrite El.
          rewrite (gread_strided_spec _ _ xs); [reflexivity|].
          intros k x Hk.
          assert (Hb' : exists bs, nth_error bss k = Some bs /\
             forall buf off, read_at buf off (len bs) = Some bs -> gread tg l ge buf off = Some x).
          { clear -A3 Hk. revert k Hk. induction A3 as [|bs x' bss xs [_ Hx] _ IH]; intros [|k] Hk; try discriminate.
            - injection Hk as <-. exists bs. auto.
            - apply (IH k Hk). }
          destruct Hb' as [bs [B1 B2]]. apply B2. apply Hrd, In_placements_app. left.
          rewrite Est, <- Hag. eapply nth_error_In. now apply uniform_nth.
        + intros Hne. destruct bss as [|bs bss]; [now elim Hne|]. unfold start_of. cbn [map placements].
          rewrite <- round_up_align_offset by assumption. exact Hag.
        + intros Hnil. destruct bss as [|bs bss]; [|discriminate]. exists h. destruct vs; [reflexivity|discriminate].
        + cbn [gsize]. fold (array_stride l ge). rewrite Est.
          destruct (stride_gap (gsize l ge) (base_align l ge) Hpos) as [G1 G2].
          destruct bss as [|bs bss].
          * cbn [map end_of]. pose proof (round_up_ge pos (base_align l ge) Hpos) as Hge. rewrite Hag in Hge. lia.
          * rewrite (uniform_end _ (gsize l ge)) by (assumption || discriminate). rewrite Hag.
            rewrite len_cons, <- A4. cbn [length]. unfold len. nia.
        + (* the gap *)
          destruct b as [|[f' m'] b'].
          { injection Egs as <-. exact I. }
          unfold block_gty in Egs. rewrite map_opt_cons in Egs. cbn [fst snd] in Egs.
          destruct (member_gty m') as [g'|] eqn:Eg'; [|discriminate].
          destruct (map_opt _ b') as [gs''|]; [|discriminate]. injection Egs as <-. cbn [agree].
          cbn [gaps_ok snd] in Hgap. destruct Hgap as [Hgap _].
          destruct (Hgap h vs ge g' eq_refl Ege Eg') as [Hne Hlt].
          assert (Hpow' : pow2 (base_align l g')).
          { apply (member_align_pow2 tg l m' g' Htg (Forall_inv Hb) Eg').
            intros h0 vs0 g0 ->. apply (Hsl' f' h0 vs0). now left. }
          assert (Hne' : bss <> []) by (destruct bss; [destruct vs; [congruence|discriminate]|discriminate]).
          rewrite (uniform_end _ (gsize l ge)) by assumption. rewrite Hag.
          cbn [gsize]. fold (array_stride l ge). rewrite Est in *.
          destruct (stride_gap (gsize l ge) (base_align l ge) Hpos) as [G1 G2].
          assert (Hlen : 1 <= len bss) by (destruct bss; [congruence|rewrite len_cons; lia]).
          replace (N.of_nat (length vs)) with (len bss) by (unfold len; now rewrite A4).
          assert (EE : o + len bss * round_up (gsize l ge) (base_align l ge)
                       = o + (len bss - 1) * round_up (gsize l ge) (base_align l ge) + round_up (gsize l ge) (base_align l ge)) by nia.
          apply (round_up_gap _ _ (base_align l ge)); [assumption|assumption| | | |].
          * apply N.divide_add_r; [rewrite <- Hag; now apply round_up_divide|]. apply N.divide_mul_r. now apply round_up_divide.
          * lia.
          * lia.
          * lia. }
    destruct K as [x [K1 [K2 [K3 [K4 [K5 K6]]]]]].
    destruct (IH gs' (end_of pos p) (o + gsize l g) q Hb Hsl' Hgap' eq_refl eq_refl K5 K6 Hrd') as [xs [X1 [X2 [X3 X4]]]].
    exists ((f, x) :: xs). split; [|split; [|split]].
    + unfold block_gval. rewrite map_opt_cons. cbn [fst snd]. rewrite K1. fold (block_gval tg b). now rewrite X1.
    + cbn [gmembers map member_offsets combine snd]. fold o. constructor; [cbn [fst snd]; auto|exact X2].
    + intros Hne. cbn [block_wvals map snd starts]. rewrite Ep. cbn [gmembers map member_offsets snd]. fold o.
      fold (block_wvals b). f_equal.
      * apply K3. intros ->. destruct (K4 eq_refl) as [h ->]. apply (Hne f h []); [now left|reflexivity].
      * apply X3. intros f0 h0 vs0 Hin. apply (Hne f0 h0 vs0). now right.
    + rewrite end_of_app. cbn [gmembers map members_end snd]. fold o. exact X4.
Qed.

(** ** Blocks *)

(** C39.  A buffer block whose members are written one after the other through a
    fresh [Writer]: each member, slices included, is where GLSL puts it, and a
    shader that declares the block reads the values that were written, provided
    slices have array-compatible elements ([slices_ok]) and what follows a slice
    is aligned beyond the padding after its last element ([gaps_ok]). *)
Lemma C39_block_with_slices_proof : forall W tg l (wi : write_impl W) delivered inner b gs w os,
  target_ok tg = true -> lawful wi delivered ->
  block_ok tg l b -> slices_ok l b -> gaps_ok l b -> block_gty b = Some gs ->
  write_vals tg l wi (block_wvals b) (writer_new inner) = (w, (os, None)) ->
  (t_checks tg = true \/ members_end 0 (gmembers l gs) < umod tg) ->
  exists img xs, delivered (w_inner w) = (delivered inner ++ img)%list
    /\ block_gval tg b = Some xs
    /\ gread tg l (GStruct "" gs) img 0 = Some (GVStruct xs)
    /\ (no_empty_slice b -> os = goffsets l gs).
Proof.
  intros W tg l wi delivered inner b gs w os Htg Hlaw Hok Hsl Hgap Hg Hw Hno.
  assert (Hwok : Forall (wval_ok tg l) (block_wvals b) /\ Forall flat_val (block_wvals b)).
  { unfold block_wvals. split; apply Forall_forall; intros x Hx; apply in_map_iff in Hx; destruct Hx as [m [<- Hm]];
      unfold block_ok in Hok; rewrite Forall_forall in Hok; now apply (member_ok_wval tg l), Hok. }
  destruct Hwok as [Hwok Hfl].
  destruct (parts_total tg l Htg (WSeq (block_wvals b)) (proj2 (wval_ok_WSeq tg l _) Hwok)) as [ps Hp].
  rewrite parts_WSeq in Hp.
  destruct (render_image ps [] 0 eq_refl) as [_ [Hrd _]]. cbn [app] in Hrd.
  destruct (block_reads tg l (render 0 ps) Htg b gs 0 0 ps Hok Hsl Hgap Hg Hp (N.le_refl 0) (agree_eq l 0 gs) Hrd)
    as [xs [X1 [X2 [X3 X4]]]].
  destruct (write_vals_starts tg l wi delivered Htg Hlaw _ (writer_new inner) w os 0 ps Hwok Hfl Hp (at_pos_0 tg))
    as [D [_ ->]].
  { destruct Hno as [C|Hlt]; [now left|right; lia]. }
  { exact Hw. }
  exists (render 0 ps), xs. split; [exact D|]. split; [exact X1|]. split; [|exact X3].
  rewrite gread_struct, (gread_fields_spec tg l (render 0 ps) 0 gs 0 xs); [reflexivity|exact X2].
Qed.

(** C38.  Members written one after the other, the last of which may be a slice
    (a runtime-sized array): a shader that declares the block reads the values
    that were written, and each value is at the offset GLSL assigns. *)
Lemma C38_block_proof : forall W tg l (wi : write_impl W) delivered inner b gs w os,
  target_ok tg = true -> lawful wi delivered ->
  block_ok tg l b ->
  (forall f h vs, ~ In (f, MSlice h vs) (removelast b)) ->
  slices_ok l b ->
  block_gty b = Some gs ->
  write_vals tg l wi (block_wvals b) (writer_new inner) = (w, (os, None)) ->
  (t_checks tg = true \/ members_end 0 (gmembers l gs) < umod tg) ->
  exists img xs, delivered (w_inner w) = (delivered inner ++ img)%list
    /\ block_gval tg b = Some xs
    /\ gread tg l (GStruct "" gs) img 0 = Some (GVStruct xs)
    /\ (no_empty_slice b -> os = goffsets l gs).
Proof.
  intros W tg l wi delivered inner b gs w os Htg Hlaw Hok Hlast Hsl.
  apply C39_block_with_slices_proof; try assumption.
  clear -Hlast. induction b as [|[f m] b IH]; [exact I|]. cbn [gaps_ok]. destruct b as [|m' b]; [exact I|].
  split.
  - intros h vs g g' E. cbn [snd] in E. subst m. exfalso. apply (Hlast f h vs). cbn [removelast]. now left.
  - apply IH. intros f0 h0 vs0 Hin. apply (Hlast f0 h0 vs0). cbn [removelast]. now right.
Qed.

(** ** Slices *)

Lemma write_slice_at {W} tg l (wi : write_impl W) delivered start img h g t vs w w' o :
  target_ok tg = true -> lawful wi delivered ->
  out_ty tg l h = Some t -> gty_of h = Some g -> Forall (fun v => hval_ok tg h v = true) vs -> vs <> [] ->
  array_elem l g ->
  delivered (w_inner w) = (start ++ img)%list -> writer_len w = len img -> len img < umod tg ->
  writer_write tg l wi w (WSeq (map (WLeaf h) vs)) = (w', WOk o) ->
  (t_checks tg = true \/ round_up (len img) (base_align l g) + len vs * array_stride l g < umod tg) ->
  exists img' xs, delivered (w_inner w') = (start ++ img')%list
    /\ o = round_up (len img) (base_align l (GArr g (length vs)))
    /\ map_opt (gval_of tg h) vs = Some xs
    /\ gread tg l (GArr g (length vs)) img' o = Some (GVArr xs).
Proof.
  intros Htg Hlaw Ht Hg Hv Hne Hel Hd Hlen Hlt Hw Hno.
  set (b := [("a", MSlice h vs)] : block).
  assert (Hok : block_ok tg l b) by (repeat constructor; eauto).
  assert (Hsl : slices_ok l b).
  { intros f h0 vs0 g0 [E|[]] Hg0. injection E as <- <- <-. congruence. }
  assert (Hbg : block_gty b = Some [("a", GArr g (length vs))]).
  { unfold block_gty, b. rewrite map_opt_cons. cbn [fst snd member_gty]. rewrite Hg. reflexivity. }
  destruct (slice_facts tg l h g t Htg Ht Hg vs Hv) as [bss [xs0 [A1 _]]].
  set (ps := map (fun bs => (base_align l g, bs)) bss) in *.
  assert (Hp : parts_list tg l (block_wvals b) = Some ps).
  { unfold b, block_wvals. cbn [map snd member_wval parts_list]. rewrite A1. now rewrite app_nil_r. }
  destruct (render_image ps img (len img) eq_refl) as [_ [Hrd _]].
  destruct (block_reads tg l (img ++ render (len img) ps)%list Htg b _ (len img) (len img) ps Hok Hsl I Hbg Hp
              (N.le_refl _) (agree_eq l _ _) Hrd) as [xs [X1 [X2 [X3 X4]]]].
  assert (Hn : no_empty_slice b).
  { intros f h0 vs0 [E|[]]. injection E as _ _ <-. assumption. }
  specialize (X3 Hn).
  assert (Hwv : write_vals tg l wi (block_wvals b) w = (w', ([o], None))).
  { unfold b, block_wvals. cbn [map snd member_wval write_vals]. rewrite Hw. reflexivity. }
  destruct (member_ok_wval tg l (MSlice h vs)) as [M1 M2]; [split; eauto|].
  assert (Hat : at_pos tg (w_offset w) (len img)).
  { unfold writer_len in Hlen. split; [rewrite N.mod_small by assumption; exact Hlen|auto]. }
  destruct (size_align_glsl tg Htg h l t g Ht Hg) as [_ [_ Hpw]]. pose proof (pow2_pos _ Hpw) as Hpp.
  destruct (write_vals_starts tg l wi delivered Htg Hlaw (block_wvals b) w w' [o] (len img) ps) as [D [_ Eo]]; try assumption.
  { repeat constructor; assumption. }
  { repeat constructor; assumption. }
  { destruct Hno as [C|Hno]; [now left|right]. cbn [gmembers map members_end snd] in X4.
    cbn [base_align gsize] in X4. fold (array_stride l g) in X4. rewrite array_elem_align in X4 by assumption.
    unfold len in *. lia. }
  rewrite X3 in Eo. cbn [gmembers map member_offsets snd] in Eo. injection Eo as Eo.
  unfold block_gval, b in X1. rewrite map_opt_cons in X1. cbn [fst snd member_gval] in X1.
  destruct (map_opt (gval_of tg h) vs) as [ys|]; [|discriminate]. cbn [map_opt] in X1. injection X1 as <-.
  exists (img ++ render (len img) ps)%list, ys. split; [rewrite D, Hd, app_assoc; reflexivity|].
  split; [exact Eo|]. split; [reflexivity|].
  cbn [gmembers map member_offsets combine snd] in X2. inversion X2 as [|? ? ? ? [_ R] _]; subst.
  cbn [fst snd] in R. exact R.
Qed.

(** C36.  In std140, a slice whose elements have a base alignment of at least 16
    (structs, three- and four-component vectors, matrices, double vectors) is
    written as the GLSL array of that element type: a shader that declares the
    array at the returned offset reads the elements. *)
Lemma C36_std140_slice_is_array_proof : forall W tg (wi : write_impl W) delivered start img h g t vs w w' o,
  target_ok tg = true -> lawful wi delivered ->
  out_ty tg L140 h = Some t -> gty_of h = Some g -> 16 <= base_align L140 g ->
  Forall (fun v => hval_ok tg h v = true) vs -> vs <> [] ->
  delivered (w_inner w) = (start ++ img)%list -> writer_len w = len img -> len img < umod tg ->
  writer_write tg L140 wi w (WSeq (map (WLeaf h) vs)) = (w', WOk o) ->
  (t_checks tg = true \/ round_up (len img) (base_align L140 g) + len vs * array_stride L140 g < umod tg) ->
  exists img' xs, delivered (w_inner w') = (start ++ img')%list
    /\ o = round_up (len img) (base_align L140 (GArr g (length vs)))
    /\ map_opt (gval_of tg h) vs = Some xs
    /\ gread tg L140 (GArr g (length vs)) img' o = Some (GVArr xs).
Proof.
  intros. eapply write_slice_at; try eassumption. now right.
Qed.

(** C37.  In std430, every slice is written as the GLSL array of its element type. *)
Lemma C37_std430_slice_is_array_proof : forall W tg (wi : write_impl W) delivered start img h g t vs w w' o,
  target_ok tg = true -> lawful wi delivered ->
  out_ty tg L430 h = Some t -> gty_of h = Some g ->
  Forall (fun v => hval_ok tg h v = true) vs -> vs <> [] ->
  delivered (w_inner w) = (start ++ img)%list -> writer_len w = len img -> len img < umod tg ->
  writer_write tg L430 wi w (WSeq (map (WLeaf h) vs)) = (w', WOk o) ->
  (t_checks tg = true \/ round_up (len img) (base_align L430 g) + len vs * array_stride L430 g < umod tg) ->
  exists img' xs, delivered (w_inner w') = (start ++ img')%list
    /\ o = round_up (len img) (base_align L430 (GArr g (length vs)))
    /\ map_opt (gval_of tg h) vs = Some xs
    /\ gread tg L430 (GArr g (length vs)) img' o = Some (GVArr xs).
Proof.
  intros. eapply write_slice_at; try eassumption. now left.
Qed.

(** all GLSL types of host types *)
Lemma gty_of_cases h : forall g, gty_of h = Some g ->
  (exists s, g = GScalar s) \/ In g (map snd std_names) \/ (exists n fs, g = GStruct n fs).
Proof.
  induction h as [p| |r s fs IH|r m IH|h IH|n fs IH|l' h IH] using hty_ind'; intros g Hg.
  - cbn in Hg. destruct (prim_gscalar p); [|discriminate]. injection Hg as <-. eauto.
  - injection Hg as <-. eauto.
  - destruct (gty_of_HEasy _ _ _ _ Hg) as [gs [E _]]. right. left. apply in_map_iff. exists (s, g).
    split; [reflexivity|]. now apply assoc_in.
  - apply IH. exact Hg.
  - discriminate.
  - destruct (gty_of_HStruct _ _ _ Hg) as [gs [_ [_ ->]]]. eauto.
  - apply IH. exact Hg.
Qed.

(** the stride [Writer] uses is the GLSL array stride exactly for array-compatible
    element types *)
Lemma stride_iff l h g : gty_of h = Some g -> pow2 (base_align l g) ->
  (round_up (gsize l g) (base_align l g) = array_stride l g <-> array_elem l g).
Proof.
  intros Hg Hp. split.
  - intros E. destruct l; [|now left]. destruct (N.le_gt_cases 16 (base_align L140 g)) as [H|H]; [now right|exfalso].
    destruct (gty_of_cases h g Hg) as [[s ->]|[Hin|[n [fs ->]]]].
    + destruct s; vm_compute in E; discriminate.
    + cbn [map snd std_names In] in Hin.
      repeat (destruct Hin as [<-|Hin]; [first [vm_compute in E; discriminate E | vm_compute in H; discriminate H]|]).
      exact Hin.
    + apply pow2_pos in Hp. cbn [base_align vec4_round] in Hp, H.
      match type of Hp with 0 < round_up ?m 16 => destruct (round_up_divide m 16 ltac:(lia)) as [k Hk] end.
      rewrite Hk in Hp, H. lia.
  - intros H. unfold array_stride. now rewrite array_elem_align.
Qed.

Lemma map_leaf_wvals h vs : map (WLeaf h) vs = map leaf (map (fun v => (h, v)) vs).
Proof. rewrite map_map. reflexivity. Qed.

(** C36, exact: the offsets at which the elements of a slice are written, in both
    layouts. *)
Lemma C36_slice_offsets_proof : forall W tg l (wi : write_impl W) h g t vs w w' os,
  target_ok tg = true -> infallible wi ->
  out_ty tg l h = Some t -> gty_of h = Some g ->
  Forall (fun v => hval_ok tg h v = true) vs ->
  writer_len w < umod tg ->
  round_up (writer_len w) (base_align l g) + len vs * round_up (gsize l g) (base_align l g) < umod tg ->
  write_vals tg l wi (map (WLeaf h) vs) w = (w', (os, None)) ->
  os = map (fun k => round_up (writer_len w) (base_align l g) + N.of_nat k * round_up (gsize l g) (base_align l g))
           (seq 0 (length vs)).
Proof.
  intros W tg l wi h g t vs w w' os Htg Hinf Ht Hg Hv Hlt Hno Hw.
  destruct (slice_facts tg l h g t Htg Ht Hg vs Hv) as [bss [xs [A1 [_ [A3 A4]]]]].
  destruct (size_align_glsl tg Htg h l t g Ht Hg) as [_ [_ Hp]]. apply pow2_pos in Hp.
  assert (F : Forall (fun bs => len bs = gsize l g) bss).
  { clear -A3. induction A3 as [|? ? ? ? [? _] _ IH]; constructor; assumption. }
  assert (Hty : typed_all tg l (map (fun v => (h, v)) vs)).
  { unfold typed_all. clear -Hv Ht. induction Hv; constructor; [cbn [fst snd]; eauto|assumption]. }
  rewrite map_leaf_wvals in Hw, A1.
  rewrite (Proofs_Buffer.write_vals_run1 tg l wi Htg _ w _ Hty A1) in Hw.
  pose proof (run1_offs tg wi Hinf (map (fun bs => (base_align l g, bs)) bss) w) as R.
  pose proof (parts_uals tg l Htg _ _ (Proofs_Buffer.typed_all_ok _ _ _ Hty) A1) as Hu.
  rewrite offs_ok in R; [| assumption | assumption |].
  - destruct R as [i' R]. rewrite R in Hw. injection Hw as _ <-.
    rewrite (uniform_offs _ (gsize l g)) by assumption. now rewrite A4.
  - unfold writer_len in *. destruct bss as [|bs bss].
    + exact Hlt.
    + rewrite (uniform_end _ (gsize l g)) by (assumption || discriminate).
      destruct (stride_gap (gsize l g) (base_align l g) Hp) as [G1 _].
      rewrite len_cons. unfold len in Hno |- *. rewrite <- A4 in Hno. cbn [length] in Hno. nia.
Qed.

(** C36, exact: a slice of at least two elements is placed like a GLSL array if
    and only if the layout is std430 or the base alignment of the element type is
    at least 16; scalars and two-component vectors are not, in std140. *)
Lemma C36_slice_is_array_iff_proof : forall W tg l (wi : write_impl W) h g t vs w w' os,
  target_ok tg = true -> infallible wi ->
  out_ty tg l h = Some t -> gty_of h = Some g ->
  Forall (fun v => hval_ok tg h v = true) vs -> (2 <= length vs)%nat ->
  writer_len w < umod tg ->
  round_up (writer_len w) (base_align l g) + len vs * round_up (gsize l g) (base_align l g) < umod tg ->
  write_vals tg l wi (map (WLeaf h) vs) w = (w', (os, None)) ->
  (os = map (fun k => round_up (writer_len w) (base_align l (GArr g (length vs))) + N.of_nat k * array_stride l g)
            (seq 0 (length vs))
   <-> (l = L430 \/ 16 <= base_align l g)).
Proof.
  intros W tg l wi h g t vs w w' os Htg Hinf Ht Hg Hv Hn Hlt Hno Hw.
  rewrite (C36_slice_offsets_proof W tg l wi h g t vs w w' os Htg Hinf Ht Hg Hv Hlt Hno Hw).
  destruct (size_align_glsl tg Htg h l t g Ht Hg) as [_ [_ Hp]].
  pose proof (stride_iff l h g Hg Hp) as Hiff. fold (array_elem l g). split.
  - intros E. apply Hiff. destruct vs as [|v1 [|v2 vs]]; try (cbn in Hn; lia).
    cbn [length seq map] in E. injection E as E1 E2 _.
    destruct (round_up (gsize l g) (base_align l g)), (array_stride l g); lia.
  - intros H. cbn [base_align]. rewrite array_elem_align by assumption. rewrite (proj2 Hiff H). reflexivity.
Qed.

(** C39, exact: the value written after a non-empty slice (of array-compatible
    elements) is where GLSL puts it if and only if its base alignment exceeds the
    padding GLSL adds after the last element. *)
Lemma C39_after_slice_iff_proof : forall W tg l (wi : write_impl W) delivered inner h g vs h' g' v w o o',
  target_ok tg = true -> lawful wi delivered -> t_checks tg = true ->
  (exists t, out_ty tg l h = Some t) -> gty_of h = Some g ->
  (exists t, out_ty tg l h' = Some t) -> gty_of h' = Some g' ->
  Forall (fun v => hval_ok tg h v = true) vs -> vs <> [] -> hval_ok tg h' v = true ->
  array_elem l g ->
  write_vals tg l wi [WSeq (map (WLeaf h) vs); WLeaf h' v] (writer_new inner) = (w, ([o; o'], None)) ->
  ([o; o'] = goffsets l [("a", GArr g (length vs)); ("b", g')]
   <-> array_stride l g - gsize l g < base_align l g').
Proof.
  intros W tg l wi delivered inner h g vs h' g' v w o o' Htg Hlaw Hch [t Ht] Hg [t' Ht'] Hg' Hv Hne Hv' Hel Hw.
  destruct (slice_facts tg l h g t Htg Ht Hg vs Hv) as [bss [xs [A1 [_ [A3 A4]]]]].
  destruct (elem_facts tg l h' g' t' v Htg Ht' Hg' Hv') as [bs [x [B1 [B2 _]]]].
  destruct (size_align_glsl tg Htg h l t g Ht Hg) as [_ [_ Hp]].
  destruct (size_align_glsl tg Htg h' l t' g' Ht' Hg') as [_ [_ Hp']].
  pose proof (pow2_pos _ Hp) as P0. pose proof (pow2_pos _ Hp') as P0'.
  assert (F : Forall (fun bs => len bs = gsize l g) bss).
  { clear -A3. induction A3 as [|? ? ? ? [? _] _ IH]; constructor; assumption. }
  assert (Hbn : bss <> []) by (destruct bss; [destruct vs; [congruence|discriminate]|discriminate]).
  assert (Hpl : parts_list tg l [WSeq (map (WLeaf h) vs); WLeaf h' v]
    = Some (map (fun bs => (base_align l g, bs)) bss ++ [(base_align l g', bs)])%list).
  { cbn [parts_list]. rewrite A1, B1. now rewrite app_nil_r. }
  destruct (member_ok_wval tg l (MSlice h vs)) as [M1 M2]; [split; eauto|].
  destruct (write_vals_starts tg l wi delivered Htg Hlaw [WSeq (map (WLeaf h) vs); WLeaf h' v] (writer_new inner) w [o; o'] 0
     (map (fun bs => (base_align l g, bs)) bss ++ [(base_align l g', bs)])%list) as [_ [_ E]].
  { constructor; [exact M1|]. constructor; [split; eauto|constructor]. }
  { constructor; [exact M2|]. constructor; [exact I|constructor]. }
  { exact Hpl. }
  { apply at_pos_0. }
  { now left. }
  { exact Hw. }
  cbn [starts] in E. rewrite A1, B1 in E.
  assert (E0 : start_of 0 (map (fun bs => (base_align l g, bs)) bss) = 0).
  { destruct bss; [congruence|]. unfold start_of. cbn [map placements].
    rewrite <- round_up_align_offset by assumption. now apply round_up_zero. }
  rewrite E0 in E. unfold start_of in E. cbn [placements] in E.
  rewrite <- round_up_align_offset in E by assumption.
  rewrite (uniform_end _ (gsize l g)), round_up_zero in E by assumption.
  unfold goffsets. cbn [gmembers map snd member_offsets].
  assert (Eal : base_align l (GArr g (length vs)) = base_align l g) by (cbn [base_align]; now apply array_elem_align).
  rewrite Eal, round_up_zero by assumption. cbn [gsize]. fold (array_stride l g).
  assert (Est : array_stride l g = round_up (gsize l g) (base_align l g)).
  { unfold array_stride. now rewrite array_elem_align. }
  rewrite <- Est in E. injection E as -> ->.
  destruct (stride_gap (gsize l g) (base_align l g) P0) as [G1 G2]. rewrite <- Est in G1, G2.
  assert (Hlen : 1 <= len bss) by (destruct bss; [congruence|rewrite len_cons; lia]).
  replace (N.of_nat (length vs)) with (len bss) by (unfold len; now rewrite A4).
  assert (EE : len bss * array_stride l g = (len bss - 1) * array_stride l g + array_stride l g) by nia.
  assert (Ed : array_stride l g - gsize l g
     = (0 + len bss * array_stride l g) - ((len bss - 1) * array_stride l g + gsize l g)) by lia.
  rewrite Ed, <- (round_up_gap _ _ (base_align l g) (base_align l g') Hp Hp').
  - split; [intros E; now injection E|intros ->; reflexivity].
  - rewrite N.add_0_l. apply N.divide_mul_r. rewrite Est. now apply round_up_divide.
  - lia.
  - lia.
Qed.

(** ** Examples *)

(** the README's "Sequential Types": a count followed by a slice of lights *)
Definition lights_block : block :=
  [("count", MVal (HPrim PU32) (bits 2)); ("lights", MSlice point_light [light1; light2])].

Lemma C38_ex_proof :
  target_ok x86_64 = true /\ block_ok x86_64 L140 lights_block /\ slices_ok L140 lights_block
  /\ (forall f h vs, ~ In (f, MSlice h vs) (removelast lights_block))
  /\ no_empty_slice lights_block
  /\ (exists gs w, block_gty lights_block = Some gs
        /\ write_vals x86_64 L140 vec_sink (block_wvals lights_block) (writer_new []) = (w, ([0; 16], None))
        /\ goffsets L140 gs = [0; 16]).
Proof.
  split; [reflexivity|]. split; [|split; [|split; [|split]]].
  - constructor; [split; [eexists; vm_compute; reflexivity|reflexivity]|]. constructor; [|constructor].
    split; [eexists; vm_compute; reflexivity|]. repeat constructor.
  - intros f h vs g [E|[E|[]]] Hg; [discriminate|]. injection E as _ <- <-. right.
    vm_compute in Hg. injection Hg as <-. vm_compute. discriminate.
  - intros f h vs [E|[]]. discriminate.
  - intros f h vs [E|[E|[]]]; [discriminate|]. injection E as _ _ <-. discriminate.
  - eexists. eexists. conjs; vm_compute; reflexivity.
Qed.

(** a slice in the middle of a block, followed by a vec3 *)
Definition mid_block : block :=
  [("a", MSlice vec3f [v3 1 2 3; v3 4 5 6]); ("b", MVal vec3f (v3 7 8 9)); ("c", MVal (HPrim PF32) (bits 1))].
Lemma C39_ex_proof :
  block_ok x86_64 L430 mid_block /\ slices_ok L430 mid_block /\ gaps_ok L430 mid_block /\ no_empty_slice mid_block
  /\ (exists gs w, block_gty mid_block = Some gs
        /\ write_vals x86_64 L430 vec_sink (block_wvals mid_block) (writer_new []) = (w, ([0; 32; 44], None))
        /\ goffsets L430 gs = [0; 32; 44]).
Proof.
  split; [|split; [|split; [|split]]].
  - repeat (apply Forall_cons; [split; [eexists; vm_compute; reflexivity|repeat constructor]|]). apply Forall_nil.
  - intros f h vs g _ _. now left.
  - cbn [gaps_ok mid_block]. split; [|split; [|exact I]]; intros h vs g g' E Hg Hg'; cbn [snd] in E; [|discriminate].
    injection E as <- <-. vm_compute in Hg, Hg'. injection Hg as <-. injection Hg' as <-. split; [discriminate|reflexivity].
  - intros f h vs [E|[E|[E|[]]]]; try discriminate. injection E as _ _ <-. discriminate.
  - eexists. eexists. conjs; vm_compute; reflexivity.
Qed.

(** the gap condition fails for a scalar after a slice of [vec3], in both layouts:
    the scalar is written at 12 where GLSL expects it at 16 *)
Lemma C39_value_after_vec3_slice_refuted_proof :
  forall l, exists w gs,
  block_gty [("a", MSlice vec3f [v3 1 2 3]); ("b", MVal (HPrim PF32) (bits 1))] = Some gs
  /\ write_vals x86_64 l vec_sink (block_wvals [("a", MSlice vec3f [v3 1 2 3]); ("b", MVal (HPrim PF32) (bits 1))]) (writer_new [])
     = (w, ([0; 12], None))
  /\ goffsets l gs = [0; 16]
  /\ gread x86_64 l (GStruct "" gs) (w_inner w) 0 = None.
Proof.
  intros []; eexists; eexists; conjs; vm_compute; reflexivity.
Qed.

(** a std140 slice of floats: a shader that declares [float a[5]] reads the wrong
    elements *)
Definition five : list hval := [bits 1; bits 2; bits 3; bits 4; bits 5].
Lemma C36_std140_scalar_slice_refuted_proof :
  exists w o,
  writer_write x86_64 L140 vec_sink (writer_new []) (WSeq (map (WLeaf (HPrim PF32)) five)) = (w, WOk o)
  /\ gread x86_64 L140 (GArr (GScalar GFloat) 2) (w_inner w) o = Some (GVArr [GVBits 1; GVBits 5])
  /\ gread x86_64 L140 (GArr (GScalar GFloat) 5) (w_inner w) o = None
  /\ len (w_inner w) = 20 /\ gsize L140 (GArr (GScalar GFloat) 5) = 80.
Proof. eexists; eexists; conjs; vm_compute; reflexivity. Qed.

Lemma C36_ex_proof :
  exists t g w, out_ty x86_64 L140 point_light = Some t /\ gty_of point_light = Some g /\ 16 <= base_align L140 g
  /\ array_stride L140 g = 32
  /\ writer_write x86_64 L140 vec_sink (Writer [x01; x02; x03; x04] 4) (WSeq (map (WLeaf point_light) [light1; light2])) = (w, WOk 16)
  /\ len (w_inner w) = 80.
Proof. do 3 eexists. conjs; try (vm_compute; reflexivity). vm_compute; discriminate. Qed.

Lemma C37_ex_proof :
  exists t w, out_ty x86_64 L430 vec2f = Some t /\ gty_of vec2f = Some (GVec GFloat 2)
  /\ array_stride L430 (GVec GFloat 2) = 8
  /\ writer_write x86_64 L430 vec_sink (Writer [x01; x02; x03; x04] 4) (WSeq (map (WLeaf vec2f) [v2 1 2; v2 3 4])) = (w, WOk 8)
  /\ len (w_inner w) = 24.
Proof. do 2 eexists. conjs; vm_compute; reflexivity. Qed.
