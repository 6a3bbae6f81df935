(** * Runtime-sized arrays at the end of a block *)

From Coq Require Import NArith String Bool List Lia ZArith PeanoNat.
From Coq Require Import ZifyBool ZifyN ZifyNat.
From Coq Require Import Strings.Byte.
From Verif Require Import Rust Internal Prims Derive Host Rows Buffer SpecGlsl SpecHost SpecTypes SpecBuf SpecBlock SpecRuntime
  Arith RustFacts DeriveFacts TypeFacts HostFacts GlslFacts BufferFacts WriterFacts Proofs_Types Proofs_Slices GpuFacts Proofs_Evolve Samples.
Import ListNotations.
Local Open Scope string_scope.
Local Open Scope N_scope.

(** ** arithmetic *)

Lemma runtime_length_at off n stride r : 0 < stride -> r < stride ->
  runtime_length (off + n * stride + r) off stride = n.
Proof.
  intros H1 H2. unfold runtime_length. replace (off + n * stride + r - off) with (n * stride + r) by (set (n * stride); lia).
  symmetry. apply (N.div_unique _ stride n r); [assumption|lia].
Qed.

Lemma runtime_length_iff off stride n sz k : 0 < stride -> sz <= stride -> 0 < n ->
  (runtime_length (off + (n - 1) * stride + sz + k) off stride = n <-> stride - sz <= k < stride - sz + stride).
Proof.
  intros H1 H2 H3. unfold runtime_length.
  replace (off + (n - 1) * stride + sz + k - off) with ((n - 1) * stride + (sz + k)) by (set ((n - 1) * stride); lia).
  rewrite N.div_add_l by lia. split.
  - intros E. assert (E' : (sz + k) / stride = 1) by lia.
    pose proof (N.div_mod (sz + k) stride ltac:(lia)) as D. pose proof (N.mod_lt (sz + k) stride ltac:(lia)). rewrite E' in D. lia.
  - intros E. assert ((sz + k) / stride = 1); [|lia]. symmetry. apply (N.div_unique _ stride 1 (sz + k - stride)); lia.
Qed.

Lemma last_member_end ms a s : forall cur,
  members_end cur (ms ++ [(a, s)])%list = last (member_offsets cur (ms ++ [(a, s)])%list) 0 + s.
Proof.
  induction ms as [|[a' s'] ms IH]; intros cur; [reflexivity|].
  change (((a', s') :: ms) ++ [(a, s)])%list with ((a', s') :: (ms ++ [(a, s)]))%list.
  cbn [members_end member_offsets]. rewrite IH. f_equal.
  destruct ms as [|[a1 s1] ms]; reflexivity.
Qed.

(** three-component vectors are the only element types whose size is not a multiple of
    their alignment *)

Lemma round_up_same x a : 0 < a -> round_up (round_up x a) a = round_up x a.
Proof. intros H. destruct (round_up_divide x a H) as [k Hk]. rewrite Hk, <- (N.add_0_r (k * a)), round_up_add by (assumption || (exists k; lia)).
  unfold round_up. rewrite N.div_small by lia. lia. Qed.

Lemma stride_is_size l h g : gty_of h = Some g -> 0 < base_align l g -> array_elem l g ->
  (array_stride l g = gsize l g <-> is_vec3 g = false).
Proof.
  intros Hg Hp Hel. destruct (gty_of_cases h g Hg) as [[s ->]|[Hin|[n [fs ->]]]].
  - destruct Hel as [->|Hel]; [|destruct s, l; vm_compute in Hel; try (exfalso; now apply Hel)]; destruct s; now vm_compute.
  - cbn [map snd std_names In] in Hin. destruct l;
    repeat (destruct Hin as [<-|Hin]; [first [ split; intros E; vm_compute in E |- *; (reflexivity || discriminate E)
      | exfalso; destruct Hel as [Hel|Hel]; [discriminate|vm_compute in Hel; now apply Hel] ]|]); contradiction.
  - split; [reflexivity|intros _]. unfold array_stride. rewrite gsize_struct.
    assert (E : vec4_round l (base_align l (GStruct n fs)) = base_align l (GStruct n fs)).
    { destruct l; [|reflexivity]. cbn [base_align vec4_round]. apply round_up_same. lia. }
    rewrite E. now apply round_up_same.
Qed.

Lemma gsize_pos l : forall h g, gty_of h = Some g -> gpos l g = true -> 0 < gsize l g.
Proof.
  induction h as [p| |r s fs IH|r m IH|h IH|n fs IH|l' h IH] using hty_ind'; intros g Hg Hp.
  - cbn [gty_of] in Hg. destruct (prim_gscalar p) as [s|]; [|discriminate]. injection Hg as <-. apply scalar_size_pos.
  - injection Hg as <-. vm_compute. reflexivity.
  - destruct (gty_of_cases _ _ Hg) as [[s0 ->]|[Hin|[n0 [fs0 ->]]]]; [apply scalar_size_pos| |].
    + clear -Hin. cbn [map snd std_names In] in Hin. destruct l; repeat (destruct Hin as [<-|Hin]; [vm_compute; reflexivity|]); contradiction.
    + exfalso. destruct (gty_of_HEasy _ _ _ _ Hg) as [gs [E _]]. apply assoc_in in E. clear -E. cbn [std_names In] in E.
      repeat (destruct E as [E|E]; [discriminate|]). exact E.
  - now apply IH.
  - discriminate.
  - destruct (gty_of_HStruct _ _ _ Hg) as [gs [Hne [Egs ->]]]. apply gfields_Forall2 in Egs.
    rewrite gsize_struct. pose proof (gpos_align _ _ Hp) as Hal.
    assert (Hpf : forallb (fun nf => gpos l (snd nf)) gs = true) by (cbn [gpos] in Hp; now apply andb_true_iff in Hp).
    destruct Egs as [|[f1 h1] [f2 g2] fs' gs' [A B] _]; [congruence|]. cbn [fst snd] in *.
    pose proof (round_up_ge (members_end 0 (gmembers l ((f2, g2) :: gs'))) _ Hal).
    cbn [gmembers map members_end snd] in H |- *. cbn [forallb snd] in Hpf. apply andb_true_iff in Hpf. destruct Hpf as [P1 P2].
    pose proof (Forall_inv IH g2 B P1). pose proof (members_end_ge l gs' P2 (round_up 0 (base_align l g2) + gsize l g2)). unfold gmembers in *. lia.
  - now apply IH.
Qed.

(** ** the slice at the end of a block *)

Lemma block_gty_app a : forall b gs, block_gty (a ++ b)%list = Some gs ->
  exists ga gb, block_gty a = Some ga /\ block_gty b = Some gb /\ gs = (ga ++ gb)%list.
Proof.
  induction a as [|[f m] a IH]; intros b gs H; [exists [], gs; auto|].
  unfold block_gty in H |- *. cbn [app] in H. rewrite map_opt_cons in H |- *. cbn [fst snd] in *.
  destruct (member_gty m) as [g|]; [|discriminate]. fold (block_gty (a ++ b)%list) in H. fold (block_gty a).
  destruct (block_gty (a ++ b)%list) as [gs'|] eqn:E; [|discriminate]. injection H as <-.
  destruct (IH b gs' E) as [ga [gb [-> [E2 ->]]]]. fold (block_gty b). exists ((f, g) :: ga), gb. auto.
Qed.

Lemma starts_last tg l a x : forall pos p q, parts_list tg l a = Some p -> parts tg l x = Some q ->
  last (starts tg l pos (a ++ [x])%list) 0 = start_of (end_of pos p) q.
Proof.
  induction a as [|y a IH]; intros pos p q Ha Hx.
  - injection Ha as <-. cbn [app starts]. rewrite Hx. reflexivity.
  - cbn [parts_list] in Ha. destruct (parts tg l y) as [py|] eqn:Ey; [|discriminate].
    destruct (parts_list tg l a) as [pa|] eqn:Ea; [|discriminate]. injection Ha as <-.
    change ((y :: a) ++ [x])%list with (y :: (a ++ [x]))%list. cbn [starts]. rewrite Ey, end_of_app, <- (IH (end_of pos py) pa q eq_refl Hx).
    destruct a as [|z a]; cbn [app starts]; [now rewrite Hx|]. cbn [parts_list] in Ea. destruct (parts tg l z); [reflexivity|discriminate].
Qed.

Lemma gaps_nonempty l hdr x : gaps_ok l (hdr ++ [x])%list -> forall gs, block_gty (hdr ++ [x])%list = Some gs -> no_empty_slice hdr.
Proof.
  induction hdr as [|[f m] hdr IH]; intros Hgap gs Hg; [intros ? ? ? []|].
  destruct (block_gty_app [(f, m)] (hdr ++ [x])%list gs Hg) as [ga [gb [G1 [G2 _]]]].
  assert (Hn : gaps_ok l (hdr ++ [x])%list /\ forall h vs, m = MSlice h vs -> vs <> []).
  { cbn [app gaps_ok] in Hgap. destruct (hdr ++ [x])%list as [|[f' m'] r] eqn:Er; [destruct hdr; discriminate|].
    destruct Hgap as [Hg1 Hg2]. split; [exact Hg2|]. intros h vs ->.
    unfold block_gty in G1, G2. rewrite map_opt_cons in G1, G2. cbn [fst snd member_gty] in G1, G2.
    destruct (gty_of h) as [g|] eqn:Eg; [|discriminate]. destruct (member_gty m') as [g'|] eqn:Eg'; [|discriminate].
    now destruct (Hg1 h vs g g' eq_refl Eg Eg'). }
  destruct Hn as [Hn1 Hn2]. intros f0 h0 vs0 [E|Hin].
  - injection E as _ E. now apply (Hn2 h0 vs0).
  - exact (IH Hn1 gb G2 f0 h0 vs0 Hin).
Qed.

Lemma runtime_block W tg l (wi : write_impl W) delivered inner b hdr f h g vs gs w os :
  target_ok tg = true -> lawful wi delivered ->
  b = (hdr ++ [(f, MSlice h vs)])%list ->
  block_ok tg l b -> slices_ok l b -> gaps_ok l b -> block_gty b = Some gs -> gty_of h = Some g ->
  write_vals tg l wi (block_wvals b) (writer_new inner) = (w, (os, None)) ->
  (t_checks tg = true \/ members_end 0 (gmembers l gs) < umod tg) ->
  0 < gsize l g /\ gsize l g <= array_stride l g /\ 0 < base_align l g
  /\ (base_align l g | array_stride l g) /\ array_stride l g = round_up (gsize l g) (base_align l g)
  /\ exists img xs, delivered (w_inner w) = (delivered inner ++ img)%list
    /\ map_opt (gval_of tg h) vs = Some xs
    /\ (vs = [] -> len img <= last_offset l gs)
    /\ (vs <> [] -> len img = last_offset l gs + (len vs - 1) * array_stride l g + gsize l g
                    /\ (base_align l g | last_offset l gs)
                    /\ forall pad, gread tg l (GArr g (length vs)) (img ++ pad)%list (last_offset l gs) = Some (GVArr xs)).
Proof.
  intros Htg Hlaw -> Hok Hsl Hgap Hg Hge Hw Hno.
  set (b := (hdr ++ [(f, MSlice h vs)])%list) in *.
  assert (Hwok : Forall (wval_ok tg l) (block_wvals b) /\ Forall flat_val (block_wvals b)).
  { unfold block_wvals. split; apply Forall_forall; intros x Hx; apply in_map_iff in Hx; destruct Hx as [m [<- Hm]];
      unfold block_ok in Hok; rewrite Forall_forall in Hok; now apply (member_ok_wval tg l), Hok. }
  destruct Hwok as [Hwok Hfl].
  assert (Hm : member_ok tg l (MSlice h vs)).
  { unfold block_ok in Hok. rewrite Forall_forall in Hok. apply (Hok (f, MSlice h vs)). unfold b. apply in_or_app. right. now left. }
  destruct Hm as [[t Ht] Hv].
  assert (Hel : array_elem l g) by (apply (Hsl f h vs g); [unfold b; apply in_or_app; right; now left|assumption]).
  destruct (size_align_glsl tg Htg h l t g Ht Hge) as [Esz [_ Hpe]]. pose proof (pow2_pos _ Hpe) as Hpos.
  assert (Est : array_stride l g = round_up (gsize l g) (base_align l g)) by (unfold array_stride; now rewrite array_elem_align).
  destruct (stride_gap (gsize l g) (base_align l g) Hpos) as [G1 G2].
  assert (Hsz : 0 < gsize l g).
  { exact (gsize_pos l h g Hge (gpos_of tg Htg h l t g Ht Hge)). }
  split; [assumption|]. split; [lia|]. split; [assumption|]. split; [rewrite Est; now apply round_up_divide|]. split; [assumption|].
  destruct (parts_total tg l Htg (WSeq (block_wvals b)) (proj2 (wval_ok_WSeq tg l _) Hwok)) as [ps Hp].
  rewrite parts_WSeq in Hp.
  destruct (render_image ps [] 0 eq_refl) as [I1 [I2 _]]. cbn [app] in I1, I2.
  destruct (block_reads tg l (render 0 ps) Htg b gs 0 0 ps Hok Hsl Hgap Hg Hp (N.le_refl 0) (agree_eq l 0 gs) I2)
    as [xs0 [_ [_ [X3 X4]]]].
  destruct (write_vals_starts tg l wi delivered Htg Hlaw _ (writer_new inner) w os 0 ps Hwok Hfl Hp (at_pos_0 tg))
    as [D [_ Eos]]; [destruct Hno as [C|Hlt]; [now left|right; lia]|exact Hw|].
  destruct (slice_facts tg l h g t Htg Ht Hge vs Hv) as [bss [xs [A1 [A2 [A3 A4]]]]].
  assert (F : Forall (fun bs => len bs = gsize l g) bss).
  { clear -A3. induction A3 as [|? ? ? ? [? _] _ IH]; constructor; assumption. }
  (* the parts of the header and of the slice *)
  assert (Hsplit : block_wvals b = (block_wvals hdr ++ [WSeq (map (WLeaf h) vs)])%list) by (unfold b, block_wvals; rewrite map_app; reflexivity).
  rewrite Hsplit, parts_list_app in Hp. destruct (parts_list tg l (block_wvals hdr)) as [ph|] eqn:Eh; [|discriminate].
  cbn [parts_list] in Hp. rewrite A1, app_nil_r in Hp. injection Hp as <-.
  exists (render 0 (ph ++ map (fun bs => (base_align l g, bs)) bss)%list), xs.
  split; [exact D|]. split; [exact A2|]. split.
  - intros ->. rewrite I1. unfold last_offset, goffsets.
    destruct (block_gty_app hdr _ gs Hg) as [ga [gb [_ [Eb ->]]]]. unfold block_gty in Eb. rewrite map_opt_cons in Eb.
    cbn [fst snd member_gty] in Eb. rewrite Hge in Eb. cbn [map_opt length] in Eb. injection Eb as <-.
    unfold gmembers in X4 |- *. rewrite map_app in X4 |- *. cbn [map snd] in X4 |- *.
    rewrite last_member_end in X4. assert (E0 : gsize l (GArr g 0) = 0) by reflexivity. rewrite E0 in *. lia.
  - intros Hne.
    assert (Hne' : bss <> []) by (destruct bss; [destruct vs; [congruence|discriminate]|discriminate]).
    assert (Eoff : last_offset l gs = round_up (end_of 0 ph) (base_align l g)).
    { unfold last_offset, goffsets. rewrite <- X3, Hsplit, (starts_last tg l _ _ 0 ph _ Eh A1).
      - unfold start_of. destruct bss as [|bs bss]; [congruence|]. cbn [map placements]. now rewrite <- round_up_align_offset by assumption.
      - intros f0 h0 vs0 Hin. unfold b in Hin. apply in_app_or in Hin. destruct Hin as [Hin|[E|[]]].
        + exact (gaps_nonempty l hdr _ Hgap gs Hg f0 h0 vs0 Hin).
        + injection E as _ _ <-. assumption. }
    split; [|split].
    + rewrite I1, end_of_app, (uniform_end _ (gsize l g)) by assumption. rewrite Eoff, Est. unfold len. now rewrite A4.
    + rewrite Eoff. now apply round_up_divide.
    + intros pad. set (b1 := [("a", MSlice h vs)] : block).
      assert (Hok1 : block_ok tg l b1) by (repeat constructor; eauto).
      assert (Hsl1 : slices_ok l b1).
      { intros f1 h0 vs0 g0 [E|[]] Hg0. injection E as <- <- <-. congruence. }
      assert (Hbg1 : block_gty b1 = Some [("a", GArr g (length vs))]).
      { unfold block_gty, b1. rewrite map_opt_cons. cbn [fst snd member_gty]. rewrite Hge. reflexivity. }
      assert (Hp1 : parts_list tg l (block_wvals b1) = Some (map (fun bs => (base_align l g, bs)) bss)).
      { unfold b1, block_wvals. cbn [map snd member_wval parts_list]. rewrite A1. now rewrite app_nil_r. }
      destruct (block_reads tg l (render 0 (ph ++ map (fun bs => (base_align l g, bs)) bss) ++ pad)%list Htg b1 _ (end_of 0 ph) (end_of 0 ph) _ Hok1 Hsl1 I Hbg1 Hp1
              (N.le_refl _) (agree_eq l _ _)) as [ys [Y1 [Y2 _]]].
      { intros o c Hin. assert (Hin' : In (o, c) (placements 0 (ph ++ map (fun bs => (base_align l g, bs)) bss)%list))
          by (apply In_placements_app; now right).
        specialize (I2 o c Hin'). rewrite read_at_app_l; [exact I2|]. unfold read_at in I2.
        destruct (N.leb_spec (o + len c) (len (render 0 (ph ++ map (fun bs => (base_align l g, bs)) bss)))); [assumption|discriminate]. }
      unfold block_gval, b1 in Y1. rewrite map_opt_cons in Y1. cbn [fst snd member_gval] in Y1. rewrite A2 in Y1.
      cbn [map_opt] in Y1. injection Y1 as <-.
      cbn [gmembers map member_offsets combine snd] in Y2. inversion Y2 as [|? ? ? ? [_ R] _]; subst.
      cbn [fst snd base_align] in R. rewrite array_elem_align in R by assumption. rewrite Eoff. exact R.
Qed.

(** ** C79 *)

(** C79.  Members written one after the other through a fresh [Writer], the last of them a
    non-empty slice [vs], into a shader storage buffer to which [pad] is appended: the shader's
    [length()] of the runtime-sized array is the number of elements written if and only if the
    appended bytes are at least the array stride minus the element size, and fewer than one
    stride more than that.  Then the shader sees exactly the elements written. *)
Lemma C79_length_iff_proof : forall W tg l (wi : write_impl W) delivered inner b hdr f h g vs gs w os,
  target_ok tg = true -> lawful wi delivered ->
  b = (hdr ++ [(f, MSlice h vs)])%list -> vs <> [] ->
  block_ok tg l b -> slices_ok l b -> gaps_ok l b -> block_gty b = Some gs -> gty_of h = Some g ->
  write_vals tg l wi (block_wvals b) (writer_new inner) = (w, (os, None)) ->
  (t_checks tg = true \/ members_end 0 (gmembers l gs) < umod tg) ->
  exists img xs, delivered (w_inner w) = (delivered inner ++ img)%list
    /\ map_opt (gval_of tg h) vs = Some xs
    /\ forall pad, let off := last_offset l gs in let stride := array_stride l g in let slack := stride - gsize l g in
       (runtime_length (len (img ++ pad)%list) off stride = len vs <-> slack <= len pad < slack + stride)
       /\ (slack <= len pad < slack + stride -> gread_runtime tg l g (img ++ pad)%list off = Some (GVArr xs)).
Proof.
  intros W tg l wi delivered inner b hdr f h g vs gs w os Htg Hlaw Eb Hne Hok Hsl Hgap Hg Hge Hw Hno.
  destruct (runtime_block W tg l wi delivered inner b hdr f h g vs gs w os Htg Hlaw Eb Hok Hsl Hgap Hg Hge Hw Hno)
    as [S1 [S2 [S3 [S4 [S5 [img [xs [D [X [_ N]]]]]]]]]].
  destruct (N Hne) as [L [_ R]]. exists img, xs. split; [exact D|]. split; [exact X|]. intros pad. cbv zeta.
  assert (Hv : 0 < len vs) by (destruct vs; [congruence|rewrite len_cons; lia]).
  pose proof (runtime_length_iff (last_offset l gs) (array_stride l g) (len vs) (gsize l g) (len pad) ltac:(lia) S2 Hv) as HI.
  rewrite <- L, <- len_app in HI. split; [exact HI|].
  intros Hp. apply (proj2 HI) in Hp. unfold gread_runtime. rewrite Hp. unfold len. rewrite Nnat.Nat2N.id. apply R.
Qed.

(** C79.  With exactly the bytes [Writer] delivers: the shader's [length()] is the number of
    elements written, but one less if the elements are three-component vectors, whose last
    padding [Writer] does not write; and 0 if the slice was empty.  Extending the buffer to a
    multiple of the alignment of the {e element} type always makes it the number written. *)
Lemma C79_length_proof : forall W tg l (wi : write_impl W) delivered inner b hdr f h g vs gs w os,
  target_ok tg = true -> lawful wi delivered ->
  b = (hdr ++ [(f, MSlice h vs)])%list ->
  block_ok tg l b -> slices_ok l b -> gaps_ok l b -> block_gty b = Some gs -> gty_of h = Some g ->
  write_vals tg l wi (block_wvals b) (writer_new inner) = (w, (os, None)) ->
  (t_checks tg = true \/ members_end 0 (gmembers l gs) < umod tg) ->
  exists img, delivered (w_inner w) = (delivered inner ++ img)%list
    /\ runtime_length (len img) (last_offset l gs) (array_stride l g)
       = (if is_vec3 g then len vs - 1 else len vs)
    /\ (vs <> [] -> runtime_length (round_up (len img) (base_align l g)) (last_offset l gs) (array_stride l g) = len vs).
Proof.
  intros W tg l wi delivered inner b hdr f h g vs gs w os Htg Hlaw Eb Hok Hsl Hgap Hg Hge Hw Hno.
  destruct (runtime_block W tg l wi delivered inner b hdr f h g vs gs w os Htg Hlaw Eb Hok Hsl Hgap Hg Hge Hw Hno)
    as [S1 [S2 [S3 [S4 [S5 [img [xs [D [X [N0 N]]]]]]]]]].
  exists img. split; [exact D|].
  assert (Hel : array_elem l g) by (apply (Hsl f h vs g); [subst b; apply in_or_app; right; now left|assumption]).
  pose proof (stride_is_size l h g Hge S3 Hel) as HS.
  destruct vs as [|v vs].
  - specialize (N0 eq_refl). split; [|congruence]. unfold runtime_length. replace (len img - last_offset l gs) with 0 by lia.
    rewrite N.div_0_l by lia. destruct (is_vec3 g); reflexivity.
  - destruct (N ltac:(discriminate)) as [L [Hd _]]. set (n := len (v :: vs)) in *.
    assert (Hn : 0 < n) by (unfold n; rewrite len_cons; lia).
    assert (En : n * array_stride l g = (n - 1) * array_stride l g + array_stride l g) by nia.
    split.
    + destruct (is_vec3 g).
      * assert (array_stride l g <> gsize l g) by (intros E; apply HS in E; discriminate).
        rewrite L. apply runtime_length_at; lia.
      * assert (array_stride l g = gsize l g) as E by now apply HS.
        rewrite L, <- E. replace (last_offset l gs + (n - 1) * array_stride l g + array_stride l g) with (last_offset l gs + n * array_stride l g + 0) by lia.
        apply runtime_length_at; lia.
    + intros _. rewrite L, round_up_add, <- S5; [|assumption|apply N.divide_add_r; [assumption|now apply N.divide_mul_r]].
      replace (last_offset l gs + (n - 1) * array_stride l g + array_stride l g) with (last_offset l gs + n * array_stride l g + 0) by lia.
      apply runtime_length_at; lia.
Qed.

(** ** Examples *)

Definition points_block : block :=
  [("count", MVal (HPrim PU32) (bits 2)); ("points", MSlice vec3f [v3 1 2 3; v3 4 5 6])].

(** the README's count and lights: the shader's [length()] is 2 *)
Lemma C79_ex_proof :
  lights_block = ([("count", MVal (HPrim PU32) (bits 2))] ++ [("lights", MSlice point_light [light1; light2])])%list
  /\ block_ok x86_64 L140 lights_block /\ slices_ok L140 lights_block /\ gaps_ok L140 lights_block
  /\ block_ok x86_64 L430 points_block /\ slices_ok L430 points_block /\ gaps_ok L430 points_block
  /\ exists gs g w, block_gty lights_block = Some gs /\ gty_of point_light = Some g
     /\ write_vals x86_64 L140 vec_sink (block_wvals lights_block) (writer_new []) = (w, ([0; 16], None))
     /\ last_offset L140 gs = 16 /\ array_stride L140 g = 32 /\ is_vec3 g = false
     /\ len (w_inner w) = 80 /\ runtime_length 80 16 32 = 2.
Proof.
  destruct C38_ex_proof as [_ [K1 [K2 _]]].
  split; [reflexivity|]. split; [exact K1|]. split; [exact K2|]. split; [cbn; split; [discriminate|exact I]|].
  split; [repeat (apply Forall_cons; [split; [eexists; vm_compute; reflexivity|repeat constructor]|]); apply Forall_nil|].
  split; [intros ? ? ? ? _ _; now left|]. split; [cbn; split; [discriminate|exact I]|].
  do 3 eexists. conjs; vm_compute; reflexivity.
Qed.

(** a count and two [vec3]: the buffer has 44 bytes, the shader's [length()] is 1; with
    four more bytes it is 2 *)
Lemma C79_length_is_count_refuted_proof : forall l,
  exists gs w, block_gty points_block = Some gs
  /\ write_vals x86_64 l vec_sink (block_wvals points_block) (writer_new []) = (w, ([0; 16], None))
  /\ last_offset l gs = 16 /\ array_stride l (GVec GFloat 3) = 16
  /\ len (w_inner w) = 44
  /\ runtime_length 44 16 16 = 1 /\ runtime_length 48 16 16 = 2.
Proof. intros []; do 2 eexists; conjs; vm_compute; reflexivity. Qed.

(** the GLSL size of the block is not a safe buffer size either: a [vec4] and one float are 20
    bytes; in a buffer of [gsize] = 32 bytes the array has four elements *)
Definition tail_floats : block := [("color", MVal vec4f (HVRec [("x", bits 1); ("y", bits 2); ("z", bits 3); ("w", bits 4)])); ("weights", MSlice (HPrim PF32) [bits 5])].
Lemma C79_block_size_refuted_proof :
  exists gs w, block_gty tail_floats = Some gs
  /\ write_vals x86_64 L430 vec_sink (block_wvals tail_floats) (writer_new []) = (w, ([0; 16], None))
  /\ last_offset L430 gs = 16 /\ array_stride L430 (GScalar GFloat) = 4
  /\ len (w_inner w) = 20 /\ runtime_length 20 16 4 = 1
  /\ gsize L430 (GStruct "" gs) = 32 /\ runtime_length 32 16 4 = 4.
Proof. do 2 eexists; conjs; vm_compute; reflexivity. Qed.
