(** * C61, C62: Sizer against derived structs; slices of layout values as bytes *)

From Coq Require Import NArith String Bool List Lia ZArith PeanoNat.
From Coq Require Import ZifyBool ZifyN ZifyNat.
From Coq Require Import Strings.Byte.
From Verif Require Import Rust Internal Prims Derive Host Rows Buffer Cast SpecBuf SpecGlsl SpecHost SpecTypes SpecBlock
  Arith RustFacts DeriveFacts TypeFacts HostFacts GlslFacts PadFacts BufferFacts WriterFacts Samples
  Proofs_Buffer Proofs_Types Proofs_Slices.
Import ListNotations.
Local Open Scope string_scope.
Local Open Scope N_scope.

(** ** C61 *)

Lemma next_aligned_eq x a : next_aligned x a = x + align_offset x a.
Proof.
  unfold next_aligned. destruct (N.eqb_spec a 0) as [->|H].
  - rewrite align_offset_0. lia.
  - rewrite round_up_align_offset by lia. reflexivity.
Qed.

Lemma next_aligned_least x a : least_aligned a x (next_aligned x a).
Proof. apply least_aligned_spec, next_aligned_eq. Qed.

Lemma extent_ge ms : forall cur, cur <= extent cur ms.
Proof.
  induction ms as [|[a s] ms IH]; intros cur; cbn [extent]; [lia|].
  specialize (IH (next_aligned cur a + s)). rewrite next_aligned_eq in *. lia.
Qed.

Lemma sizer_run_extent tg l : target_ok tg = true -> forall fs ms s,
  field_metrics tg l fs = Some ms -> extent (sizer_len s) ms < umod tg ->
  exists s', sizer_run tg l (map snd fs) s = Some (Done (SpecTypes.starts (sizer_len s) ms, s'))
    /\ sizer_len s' = extent (sizer_len s) ms.
Proof.
  intros Htg. induction fs as [|[f h] fs IH]; intros ms s Hm Hlt; unfold field_metrics in Hm; cbn [map_opt snd] in Hm.
  - injection Hm as <-. exists s. split; reflexivity.
  - destruct (out_align tg l h) as [a|] eqn:Ea; [|discriminate].
    destruct (std_size_static tg l h) as [n|] eqn:En; [|discriminate].
    destruct (map_opt _ fs) as [ms'|] eqn:Em; [|discriminate]. injection Hm as <-.
    cbn [extent] in Hlt. pose proof (extent_ge ms' (next_aligned (sizer_len s) a + n)) as Hge.
    destruct (C01_sizer_add_proof tg l h a n s _ Htg Ea En (next_aligned_least _ _) ltac:(lia)) as [s1 [A1 A2]].
    destruct (IH ms' s1 Em ltac:(rewrite A2; assumption)) as [s' [B1 B2]].
    exists s'. cbn [map snd sizer_run SpecTypes.starts extent]. rewrite A1, B1, A2. split; [reflexivity|]. now rewrite B2, A2.
Qed.

(** C61.  Adding the fields of a struct to a fresh [Sizer] one by one returns the offsets of the
    fields in the derived struct, and [len()] is where the last field ends; the size of the
    struct is [len()] rounded up to its ALIGNMENT, so [len()] may fall short of it, by less
    than ALIGNMENT, and equals it exactly when [len()] is aligned. *)
Lemma C61_sizer_of_fields_proof : forall tg l name fs t a,
  target_ok tg = true -> out_ty tg l (HStruct name fs) = Some t -> std_align l t = Some a ->
  exists os s, sizer_run tg l (map snd fs) sizer_new = Some (Done (os, s))
    /\ map (fun nf => assoc (fst nf) (field_offsets tg t)) fs = map Some os
    /\ least_aligned a (sizer_len s) (size_of tg t)
    /\ (sizer_len s = size_of tg t <-> aligned a (sizer_len s))
    /\ (a = 0 \/ size_of tg t < sizer_len s + a).
Proof.
  intros tg l name fs t a Htg Ho Ha.
  destruct (C17_size_and_alignment_proof tg l name fs t Htg Ho) as [ms [Hm [A1 [A2 [A3 A4]]]]].
  cbv zeta in A1, A2, A3, A4. rewrite A1 in Ha. injection Ha as Ha. rewrite Ha in A3, A4.
  pose proof (size_lt_umod tg Htg _ _ _ Ho) as Hlt.
  assert (He : extent 0 ms <= size_of tg t) by (rewrite A3, next_aligned_eq; lia).
  destruct (sizer_run_extent tg l Htg fs ms sizer_new Hm) as [s [B1 B2]]; [cbn; lia|].
  cbn [sizer_len sizer_new sz_offset] in B1, B2.
  exists (SpecTypes.starts 0 ms), s. split; [exact B1|]. split; [exact A2|].
  rewrite B2. pose proof (next_aligned_least (extent 0 ms) a) as L. rewrite <- A3 in L. split; [exact L|]. split.
  - split.
    + intros E. destruct L as [_ [L _]]. now rewrite E.
    + intros E. destruct L as [L1 [_ L2]]. specialize (L2 (extent 0 ms) (N.le_refl _) E). lia.
  - destruct (N.eq_dec a 0) as [->|Ha0]; [now left|right]. rewrite A3, next_aligned_eq.
    pose proof (align_offset_lt (extent 0 ms) a ltac:(lia)). lia.
Qed.

(** C61.  A buffer of [Sizer::len()] bytes can be too small for the struct of the same fields (and
    for an API that wants the whole block): a struct with a single [vec3] needs 16 bytes, the
    [Sizer] says 12. *)
Lemma C61_sizer_covers_struct_refuted_proof : forall l,
  exists t s, out_ty x86_64 l (HStruct "OnlyVec3" [("v", vec3f)]) = Some t
    /\ sizer_run x86_64 l [vec3f] sizer_new = Some (Done ([0], s))
    /\ sizer_len s = 12 /\ size_of x86_64 t = 16.
Proof. intros l. destruct l; do 2 eexists; (split; [vm_compute; reflexivity|]); (split; [vm_compute; reflexivity|]); split; reflexivity. Qed.

(** ** C62 *)

Lemma slice_parts tg l h t vs : target_ok tg = true -> out_ty tg l h = Some t ->
  Forall (fun v => hval_ok tg h v = true) vs ->
  exists ss bss, map_opt (as_std tg l h) vs = Some ss /\ map_opt (bytes_of tg t) ss = Some bss
    /\ parts tg l (WSeq (map (WLeaf h) vs)) = Some (map (fun bs => (alN l t, bs)) bss)
    /\ Forall (fun bs => len bs = size_of tg t) bss /\ length bss = length vs
    /\ std_align l t = Some (alN l t).
Proof.
  intros Htg Ho. rewrite parts_WSeq. pose proof (out_ty_good tg Htg _ _ _ Ho) as G.
  induction 1 as [|v vs Hv _ [ss [bss [E1 [E2 [E3 [E4 [E5 E6]]]]]]]].
  - exists [], []. repeat split; [constructor|]. now apply (good_alN tg).
  - destruct (leaf_parts _ _ _ _ _ Htg Ho Hv) as [s [A1 [_ [A3 [_ [_ [A6 [A7 _]]]]]]]].
    exists (s :: ss), (flat tg t s :: bss). rewrite !map_opt_cons, A1, E1, A6, E2. cbn [map parts_list]. rewrite A3, E3.
    repeat split; [constructor; assumption|cbn; lia|assumption].
Qed.

Lemma len_concat n (bss : list (list byte)) : Forall (fun bs => len bs = n) bss -> len (concat bss) = len bss * n.
Proof.
  induction 1 as [|b bss Hb _ IH]; [reflexivity|]. cbn [concat]. rewrite len_app, len_cons, IH, Hb. lia.
Qed.

Lemma render_concat a n bss : a = 0 \/ (a | n) -> Forall (fun bs => len bs = n) bss -> forall cur, a = 0 \/ (a | cur) ->
  render cur (map (fun bs => (a, bs)) bss) = concat bss.
Proof.
  intros Hn. induction 1 as [|b bss Hb _ IH]; intros cur Hc; [reflexivity|]. cbn [map render concat].
  assert (E : align_offset cur a = 0).
  { destruct Hc as [->|Hc]; [apply align_offset_0|now apply align_offset_aligned]. }
  rewrite E. cbn [zeros N.to_nat repeat app]. f_equal. apply IH.
  destruct Hn as [->|Hn]; [now left|]. destruct Hc as [->|Hc]; [now left|right].
  rewrite N.add_0_r, Hb. now apply N.divide_add_r.
Qed.

(** C62.  [bytemuck::cast_slice] of the [Output]s of several values gives the same bytes as
    writing the values with a fresh [Writer], exactly when the size of [Output] is a multiple
    of its ALIGNMENT (derived structs, matrices, scalars, two- and four-component vectors) or
    there are fewer than two values. *)
Lemma C62_cast_slice_vs_writer_proof : forall tg l h t a vs,
  target_ok tg = true -> out_ty tg l h = Some t -> std_align l t = Some a ->
  Forall (fun v => hval_ok tg h v = true) vs ->
  len vs * next_aligned (size_of tg t) a < umod tg ->
  exists ss bs w o,
    map_opt (as_std tg l h) vs = Some ss /\ cast_slice tg t ss = Some bs
    /\ len bs = len vs * size_of tg t
    /\ writer_write tg l vec_sink (writer_new []) (WSeq (map (WLeaf h) vs)) = (w, WOk o)
    /\ (w_inner w = bs <-> aligned a (size_of tg t) \/ (length vs <= 1)%nat).
Proof.
  intros tg l h t a vs Htg Ho Ha Hv Hlt.
  destruct (slice_parts tg l h t vs Htg Ho Hv) as [ss [bss [E1 [E2 [E3 [E4 [E5 E6]]]]]]].
  assert (Ea : alN l t = a) by congruence. rewrite Ea in E3. clear E6. set (n := size_of tg t) in *.
  set (ps := map (fun bs => (a, bs)) bss) in *.
  assert (Hlen : len bss = len vs) by (unfold len; lia).
  assert (He : end_of 0 ps < umod tg /\ (end_of 0 ps = len vs * n -> aligned a n \/ (length vs <= 1)%nat)).
  { destruct (N.eq_dec a 0) as [->|Ha0].
    - split; [|intros _; left; now left].
      unfold ps. rewrite end_of_render, (render_concat 0 n) by (auto || now left). rewrite (len_concat n) by assumption.
      unfold next_aligned in Hlt. cbn in Hlt. rewrite Hlen. lia.
    - destruct (list_eq_dec (list_eq_dec Byte.byte_eq_dec) bss []) as [Eb|Eb].
      + unfold ps. rewrite Eb in *. cbn [len length] in Hlen, E5. split; [cbn; apply umod_pos|intros _; right; lia].
      + unfold ps. rewrite (uniform_end a n) by (assumption || lia).
        rewrite round_up_zero by lia. unfold next_aligned in Hlt. rewrite (proj2 (N.eqb_neq a 0) Ha0) in Hlt.
        pose proof (round_up_ge n a ltac:(lia)) as Hg.
        assert (1 <= len bss) by (destruct bss; [congruence|rewrite len_cons; lia]). rewrite Hlen in *. split; [nia|].
        intros E. destruct (Nat.le_gt_cases (length vs) 1) as [H1|H1]; [now right|left].
        assert (Er : round_up n a = n) by (assert (2 <= len vs) by (unfold len; lia); nia).
        right. destruct (round_up_divide n a ltac:(lia)) as [k Hk]. exists k. lia. }
  assert (Hok : wval_ok tg l (WSeq (map (WLeaf h) vs))).
  { apply wval_ok_WSeq. clear -Hv Ho. induction Hv; cbn; [constructor|]. constructor; [|assumption]. cbn [wval_ok]. split; eauto. }
  destruct (write_val_exact tg l vec_sink (fun v => v) _ ps (writer_new []) Htg vec_lawful vec_infallible Hok E3 (proj1 He)) as [w [A [B C]]].
  cbn [writer_new w_inner w_offset app] in A, B, C.
  exists ss, (concat bss), w. eexists. split; [exact E1|]. split; [unfold cast_slice; now rewrite E2|].
  split; [rewrite (len_concat n) by assumption; now rewrite Hlen|]. split; [exact A|]. rewrite C. split.
  - intros E. apply (proj2 He). rewrite end_of_render, E, (len_concat n) by assumption. rewrite Hlen. lia.
  - intros [H|H].
    + apply (render_concat a n); [|assumption|right; exists 0; reflexivity]. now apply aligned_divide.
    + rewrite <- E5 in H. destruct bss as [|b [|b' bss]]; [reflexivity| |cbn in H; lia].
      unfold ps. cbn [map render concat]. rewrite align_offset_aligned by (exists 0; reflexivity). cbn. now rewrite app_nil_r.
Qed.

(** ** Slices of layout values as GLSL arrays *)

Lemma gread_strided_last rd stride n : forall off vs, gread_strided rd off stride (S n) = Some vs ->
  exists v, rd (off + N.of_nat n * stride) = Some v.
Proof.
  induction n as [|n IH]; intros off vs H.
  - cbn in H. destruct (rd off) as [v|] eqn:E; [|discriminate]. exists v. now rewrite N.mul_0_l, N.add_0_r.
  - change (match rd off, gread_strided rd (off + stride) stride (S n) with Some v, Some ws => Some (v :: ws) | _, _ => None end = Some vs) in H.
    destruct (rd off); [|discriminate].
    destruct (gread_strided rd (off + stride) stride (S n)) as [ws|] eqn:E; [|discriminate].
    destruct (IH _ _ E) as [w Hw]. exists w. rewrite <- Hw. f_equal. lia.
Qed.

Lemma gread_scalar_bound tg s buf off v : gread_scalar tg s buf off = Some v -> off + scalar_size s <= len buf.
Proof.
  unfold gread_scalar, read_at. destruct (N.leb_spec (off + scalar_size s) (len buf)); [lia|discriminate].
Qed.

Lemma gread_vec_bound tg s n buf off v : gread_vec tg s (S n) buf off = Some v -> off + N.of_nat (S n) * scalar_size s <= len buf.
Proof.
  unfold gread_vec. destruct (gread_strided _ _ _ _) as [vs|] eqn:E; [|discriminate]. intros _.
  apply gread_strided_last in E. destruct E as [w E]. apply gread_scalar_bound in E. lia.
Qed.

(** element types that are smaller than their array stride *)
Lemma stride_cases l h g : gty_of h = Some g -> pow2 (base_align l g) ->
  gsize l g = array_stride l g
  \/ (gsize l g < array_stride l g /\ forall tg buf off v, gread tg l g buf off = Some v -> off + gsize l g <= len buf).
Proof.
  intros Hg Hp. destruct (gty_of_cases h g Hg) as [[s ->]|[Hin|[n [fs ->]]]].
  - destruct l, s; first [left; reflexivity | right; split; [reflexivity|intros tg buf off v H; cbn [gread] in H; exact (gread_scalar_bound _ _ _ _ _ H)]].
  - cbn [map snd std_names In] in Hin.
    repeat (destruct Hin as [<-|Hin];
      [destruct l; first [left; reflexivity
                         | right; split; [reflexivity|intros tg buf off v H; cbn [gread] in H; exact (gread_vec_bound _ _ _ _ _ _ H)]]|]).
    destruct Hin.
  - left. unfold array_stride. pose proof (pow2_pos _ Hp) as Hpp.
    assert (E : vec4_round l (base_align l (GStruct n fs)) = base_align l (GStruct n fs)).
    { destruct l; [|reflexivity]. cbn [base_align vec4_round] in *.
      match type of Hpp with 0 < round_up ?m 16 => apply round_up_aligned; [lia|apply round_up_divide; lia] end. }
    rewrite E. symmetry. apply round_up_aligned; [assumption|]. cbn [gsize]. now apply round_up_divide.
Qed.

Lemma concat_read n (bss : list (list byte)) : Forall (fun bs => len bs = n) bss -> forall k bs,
  nth_error bss k = Some bs -> read_at (concat bss) (N.of_nat k * n) (len bs) = Some bs.
Proof.
  induction 1 as [|b bss Hb F IH]; intros k bs Hk; [destruct k; discriminate|]. cbn [concat].
  destruct k as [|k].
  - injection Hk as <-. rewrite read_at_app_l by lia. apply read_at_all.
  - cbn [nth_error] in Hk. rewrite read_at_app_r by (rewrite Hb; lia).
    replace (N.of_nat (S k) * n - len b) with (N.of_nat k * n) by (rewrite Hb; lia). now apply IH.
Qed.

Lemma slice_values tg l h t g : target_ok tg = true -> out_ty tg l h = Some t -> gty_of h = Some g ->
  forall ss bss, map_opt (bytes_of tg t) ss = Some bss -> Forall (fun s => has_sty t s = true) ss ->
  exists vs xs, map_opt (from_std tg l h) ss = Some vs /\ map_opt (gval_of tg h) vs = Some xs
    /\ Forall (fun v => hval_ok tg h v = true) vs
    /\ Forall2 (fun bs x => len bs = size_of tg t
         /\ forall buf off, read_at buf off (len bs) = Some bs -> gread tg l g buf off = Some x) bss xs.
Proof.
  intros Htg Ho Hg. induction ss as [|s ss IH]; intros bss Hb F.
  - injection Hb as <-. exists [], []. repeat split; constructor.
  - rewrite map_opt_cons in Hb. destruct (bytes_of tg t s) as [b|] eqn:Eb; [|discriminate].
    destruct (map_opt (bytes_of tg t) ss) as [bss'|]; [|discriminate]. injection Hb as <-.
    inversion F as [|? ? F1 F2]; subst. destruct (IH bss' eq_refl F2) as [vs [xs [A1 [A2 [A3 A4]]]]].
    destruct (C22_pod_bijection_proof tg l h t Htg Ho) as [_ P]. destruct (P s F1) as [b' [P1 [P2 P3]]].
    rewrite Eb in P1. injection P1 as <-.
    assert (R0 : read_at b 0 (size_of tg t) = Some b) by (rewrite <- P2; apply read_at_all).
    destruct (C24_host_reads_gpu_value_proof tg l h t g b 0 b Htg Ho Hg R0) as [s' [v [x [Q1 [Q2 [Q3 [Q4 _]]]]]]].
    rewrite P3 in Q1. injection Q1 as <-.
    exists (v :: vs), (x :: xs). rewrite !map_opt_cons, Q2, A1, Q4, A2. repeat split; [constructor; assumption|].
    constructor; [|assumption]. split; [assumption|]. intros buf off Hr. rewrite P2 in Hr.
    destruct (C24_host_reads_gpu_value_proof tg l h t g buf off b Htg Ho Hg Hr) as [s' [v' [x' [Q1 [Q2' [_ [Q4' Q5]]]]]]].
    rewrite P3 in Q1. injection Q1 as <-. congruence.
Qed.

Lemma cast_reads tg l h t g ss bs : target_ok tg = true -> out_ty tg l h = Some t -> gty_of h = Some g ->
  Forall (fun s => has_sty t s = true) ss -> cast_slice tg t ss = Some bs ->
  exists vs xs, map_opt (from_std tg l h) ss = Some vs /\ map_opt (gval_of tg h) vs = Some xs
    /\ Forall (fun v => hval_ok tg h v = true) vs
    /\ len bs = len ss * size_of tg t
    /\ (gread tg l (GArr g (length ss)) bs 0 = Some (GVArr xs)
        <-> size_of tg t = array_stride l g \/ (length ss <= 1)%nat).
Proof.
  intros Htg Ho Hg F Hc. unfold cast_slice in Hc. destruct (map_opt (bytes_of tg t) ss) as [bss|] eqn:Eb; [|discriminate].
  injection Hc as <-. destruct (slice_values tg l h t g Htg Ho Hg ss bss Eb F) as [vs [xs [A1 [A2 [A3 A4]]]]].
  destruct (size_align_glsl tg Htg h l t g Ho Hg) as [_ [S2 Hp]].
  assert (Fl : Forall (fun bs => len bs = size_of tg t) bss).
  { clear -A4. induction A4 as [|? ? ? ? [? _] _ IH]; constructor; assumption. }
  assert (L1 : length bss = length ss) by (now apply map_opt_Some_length in Eb).
  assert (L2 : length xs = length ss) by (rewrite <- L1; clear -A4; induction A4; cbn; congruence).
  assert (Hl : len (concat bss) = len ss * size_of tg t).
  { rewrite (len_concat (size_of tg t)) by assumption. unfold len at 1. now rewrite L1. }
  exists vs, xs. repeat (split; [assumption|]).
  assert (Rd : size_of tg t = array_stride l g \/ (length ss <= 1)%nat ->
     gread tg l (GArr g (length ss)) (concat bss) 0 = Some (GVArr xs)).
  { intros H. cbn [gread]. rewrite <- L2. rewrite gread_strided_spec; [reflexivity|].
    intros k x Hk. destruct (nth_error bss k) as [b|] eqn:Ek.
    2:{ apply nth_error_None in Ek. assert (k < length xs)%nat by (apply nth_error_Some; congruence). lia. }
    assert (P : len b = size_of tg t /\ forall buf off, read_at buf off (len b) = Some b -> gread tg l g buf off = Some x).
    { clear -A4 Hk Ek. revert k Hk Ek. induction A4 as [|b0 x0 ? ? H _ IH]; intros [|k] Hk Ek; try discriminate.
      - injection Hk as ->. injection Ek as ->. exact H.
      - eapply IH; eassumption. }
    apply (proj2 P). rewrite N.add_0_l. pose proof (concat_read _ _ Fl k b Ek) as C.
    destruct H as [<-|H]; [assumption|]. assert (k < length xs)%nat by (apply nth_error_Some; congruence).
    assert (k = 0%nat) by lia. subst k. exact C. }
  split; [|exact Rd]. intros H. destruct (Nat.le_gt_cases (length ss) 1) as [H1|H1]; [now right|left].
  rewrite S2. destruct (stride_cases l h g Hg Hp) as [E|[E B]]; [assumption|exfalso].
  cbn [gread] in H. destruct (length ss) as [|k] eqn:El; [lia|].
  destruct (gread_strided _ _ _ (S k)) as [ws|] eqn:Er; [|discriminate].
  apply gread_strided_last in Er. destruct Er as [w Hw]. apply B in Hw. rewrite Hl, S2 in Hw.
  unfold len in Hw. rewrite El in Hw. nia.
Qed.

(** C62.  A shader that declares an array of the corresponding type over the bytes of
    [cast_slice] sees the values, exactly when the size of [Output] is the array stride of the
    layout (or there are fewer than two values). *)
Lemma C62_cast_slice_is_array_proof : forall tg l h t g vs,
  target_ok tg = true -> out_ty tg l h = Some t -> gty_of h = Some g ->
  Forall (fun v => hval_ok tg h v = true) vs ->
  exists ss bs xs, map_opt (as_std tg l h) vs = Some ss /\ cast_slice tg t ss = Some bs
    /\ map_opt (gval_of tg h) vs = Some xs
    /\ (gread tg l (GArr g (length vs)) bs 0 = Some (GVArr xs)
        <-> size_of tg t = array_stride l g \/ (length vs <= 1)%nat).
Proof.
  intros tg l h t g vs Htg Ho Hg Hv.
  destruct (slice_parts tg l h t vs Htg Ho Hv) as [ss [bss [E1 [E2 _]]]].
  assert (L : length ss = length vs) by (now apply map_opt_Some_length in E1).
  assert (F : Forall (fun s => has_sty t s = true) ss /\ map_opt (from_std tg l h) ss = Some vs).
  { clear E2 L. revert ss E1. induction Hv as [|v vs Hv _ IH]; intros ss E1.
    - injection E1 as <-. split; [constructor|reflexivity].
    - rewrite map_opt_cons in E1. destruct (as_std tg l h v) as [s|] eqn:Es; [|discriminate].
      destruct (map_opt (as_std tg l h) vs) as [ss'|]; [|discriminate]. injection E1 as <-.
      destruct (IH ss' eq_refl) as [F1 F2]. destruct (C20_round_trip_proof tg l h t v Htg Ho Hv) as [s' [B1 [B2 B3]]].
      rewrite Es in B1. injection B1 as <-. split; [constructor; assumption|]. now rewrite map_opt_cons, B3, F2. }
  destruct F as [F1 F2].
  assert (Hc : cast_slice tg t ss = Some (concat bss)) by (unfold cast_slice; now rewrite E2).
  destruct (cast_reads tg l h t g ss _ Htg Ho Hg F1 Hc) as [vs' [xs [A1 [A2 [_ [_ A5]]]]]].
  rewrite F2 in A1. injection A1 as <-. exists ss, (concat bss), xs. rewrite L in A5. repeat (split; [assumption|]). exact A5.
Qed.

(** C62.  Which types these are: every derived struct and every matrix in both layouts; in
    std430 also scalars and two- and four-component vectors, in std140 also [vec4], [ivec4],
    [uvec4], [bvec4], [dvec2] and [dvec4]; never a three-component vector. *)
Lemma C62_which_types_proof : forall tg l h t g,
  target_ok tg = true -> out_ty tg l h = Some t -> gty_of h = Some g ->
  (size_of tg t = array_stride l g <->
   match g with
   | GScalar _ => l = L430
   | GVec s n => n <> 3%nat /\ (l = L430 \/ (16 | N.of_nat n * scalar_size s))
   | _ => True
   end).
Proof.
  intros tg l h t g Htg Ho Hg. destruct (size_align_glsl tg Htg h l t g Ho Hg) as [_ [S2 Hp]]. rewrite S2.
  destruct (gty_of_cases h g Hg) as [[s ->]|[Hin|[n [fs ->]]]].
  - destruct l, s; vm_compute; split; congruence.
  - assert (D : forall n, (16 | n) <-> n mod 16 = 0) by (intros n; symmetry; apply N.mod_divide; lia).
    cbn [map snd std_names In] in Hin.
    repeat (destruct Hin as [<-|Hin]; [destruct l; rewrite ?D; vm_compute;
       (split; [intros E; first [discriminate E | exact I | split; [discriminate|auto]]|intros H; first [reflexivity | destruct H as [H1 [H2|H2]]; congruence]])|]).
    destruct Hin.
  - split; [auto|intros _]. destruct (stride_cases l h (GStruct n fs) Hg Hp) as [E|[E _]]; [assumption|exfalso].
    unfold array_stride in E. pose proof (pow2_pos _ Hp) as Hpp.
    assert (V : vec4_round l (base_align l (GStruct n fs)) = base_align l (GStruct n fs)).
    { destruct l; [|reflexivity]. cbn [base_align vec4_round] in *.
      match type of Hpp with 0 < round_up ?m 16 => apply round_up_aligned; [lia|apply round_up_divide; lia] end. }
    rewrite V in E. rewrite round_up_aligned in E; [lia|assumption|]. cbn [gsize]. now apply round_up_divide.
Qed.

(** ** Reading back *)

Lemma uncast_ok tg l h t : target_ok tg = true -> out_ty tg l h = Some t -> 0 < size_of tg t -> forall n bs,
  len bs = N.of_nat n * size_of tg t ->
  exists ss bss, map_opt (from_bytes tg t) (chunks n (N.to_nat (size_of tg t)) bs) = Some ss
    /\ map_opt (bytes_of tg t) ss = Some bss /\ concat bss = bs
    /\ Forall (fun s => has_sty t s = true) ss /\ length ss = n.
Proof.
  intros Htg Ho Hpos. destruct (C22_pod_bijection_proof tg l h t Htg Ho) as [P _].
  induction n as [|n IH]; intros bs Hl.
  - exists [], []. destruct bs; [|rewrite len_cons in Hl; lia]. repeat split. constructor.
  - cbn [chunks]. set (k := size_of tg t) in *.
    assert (L1 : len (firstn (N.to_nat k) bs) = k) by (apply len_firstn; lia).
    assert (L2 : len (skipn (N.to_nat k) bs) = N.of_nat n * k) by (rewrite len_skipn; lia).
    destruct (P _ L1) as [s [Q1 [Q2 Q3]]]. destruct (IH _ L2) as [ss [bss [A1 [A2 [A3 [A4 A5]]]]]].
    exists (s :: ss), (firstn (N.to_nat k) bs :: bss). rewrite !map_opt_cons, Q2, A1, Q3, A2. cbn [concat length].
    rewrite A3. split; [reflexivity|]. split; [reflexivity|]. split; [apply firstn_skipn|]. split; [constructor; assumption|congruence].
Qed.

(** C62.  Reading back: bytes whose number is a multiple of the (nonzero) size of [Output] are a
    slice of [Output]s, which cast back to the same bytes; if the size is the array stride,
    [from_stdN] of the elements are the values a shader reads from the array. *)
Lemma C62_read_back_proof : forall tg l h t n bs,
  target_ok tg = true -> out_ty tg l h = Some t -> size_of tg t <> 0 ->
  len bs = N.of_nat n * size_of tg t ->
  exists ss, uncast_slice tg t bs = Some ss /\ length ss = n /\ cast_slice tg t ss = Some bs
    /\ forall g, gty_of h = Some g -> size_of tg t = array_stride l g ->
       exists vs xs, map_opt (from_std tg l h) ss = Some vs /\ Forall (fun v => hval_ok tg h v = true) vs
         /\ map_opt (gval_of tg h) vs = Some xs
         /\ gread tg l (GArr g n) bs 0 = Some (GVArr xs).
Proof.
  intros tg l h t n bs Htg Ho Hn Hl.
  destruct (uncast_ok tg l h t Htg Ho ltac:(lia) n bs Hl) as [ss [bss [A1 [A2 [A3 [A4 A5]]]]]].
  assert (Hc : cast_slice tg t ss = Some bs) by (unfold cast_slice; now rewrite A2, A3).
  exists ss. split; [|split; [assumption|split; [assumption|]]].
  - unfold uncast_slice. rewrite (proj2 (N.eqb_neq _ _) Hn), Hl, N.mod_mul, N.div_mul by assumption. cbn. now rewrite Nat2N.id.
  - intros g Hg Hs. destruct (cast_reads tg l h t g ss bs Htg Ho Hg A4 Hc) as [vs [xs [B1 [B2 [B3 [_ B5]]]]]].
    rewrite A5 in B5. exists vs, xs. repeat (split; [assumption|]). apply B5. now left.
Qed.

(** C62: lights cast as a slice are a GLSL array, [vec3]s are not. *)
Lemma C62_ex_proof :
  (exists t g ss bs, out_ty x86_64 L140 point_light = Some t /\ gty_of point_light = Some g
     /\ size_of x86_64 t = 32 /\ array_stride L140 g = 32 /\ std_align L140 t = Some 16
     /\ map_opt (as_std x86_64 L140 point_light) [light1; light2] = Some ss
     /\ cast_slice x86_64 t ss = Some bs /\ len bs = 64 /\ uncast_slice x86_64 t bs = Some ss)
  /\ (exists t ss bs w, out_ty x86_64 L140 vec3f = Some t /\ size_of x86_64 t = 12 /\ std_align L140 t = Some 16
     /\ map_opt (as_std x86_64 L140 vec3f) [v3 1 2 3; v3 4 5 6] = Some ss
     /\ cast_slice x86_64 t ss = Some bs /\ len bs = 24
     /\ writer_write x86_64 L140 vec_sink (writer_new []) (WSeq (map (WLeaf vec3f) [v3 1 2 3; v3 4 5 6])) = (w, WOk 0)
     /\ len (w_inner w) = 28
     /\ gread x86_64 L140 (GArr (GVec GFloat 3) 2) bs 0 = None)
  /\ hval_ok x86_64 point_light light1 = true /\ hval_ok x86_64 point_light light2 = true.
Proof.
  split; [|split; [|split; vm_compute; reflexivity]].
  - do 4 eexists. repeat (split; [vm_compute; reflexivity|]). vm_compute; reflexivity.
  - do 4 eexists. repeat (split; [vm_compute; reflexivity|]). vm_compute; reflexivity.
Qed.

(** C61: the README struct needs no rounding, a struct ending in a [vec3] does. *)
Lemma C61_ex_proof :
  (exists t s, out_ty x86_64 L140 main_uniform = Some t /\ std_align L140 t = Some 16 /\ size_of x86_64 t = 64
     /\ sizer_run x86_64 L140 (match main_uniform with HStruct _ fs => map snd fs | _ => [] end) sizer_new = Some (Done ([0; 48; 60], s)) /\ sizer_len s = 64)
  /\ (exists t s, out_ty x86_64 L430 (HStruct "S" [("a", HPrim PF32); ("b", vec3f)]) = Some t
     /\ std_align L430 t = Some 16 /\ size_of x86_64 t = 32
     /\ sizer_run x86_64 L430 [HPrim PF32; vec3f] sizer_new = Some (Done ([0; 16], s)) /\ sizer_len s = 28).
Proof.
  split; do 2 eexists; (repeat (split; [vm_compute; reflexivity|])); reflexivity.
Qed.
