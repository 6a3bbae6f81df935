(** * Changing a struct, and optimality of the layout (C51-C53) *)

From Coq Require Import NArith String Bool List Lia ZArith.
From Coq Require Import ZifyBool ZifyN ZifyNat.
From Coq Require Import Strings.Byte.
From Verif Require Import Rust Internal Prims Derive Host Rows Buffer SpecBuf SpecGlsl SpecHost SpecTypes SpecEvolve
  Arith RustFacts DeriveFacts TypeFacts HostFacts GlslFacts PadFacts BufferFacts WriterFacts Samples
  Proofs_Buffer Proofs_Types Proofs_Struct.
Import ListNotations.
Local Open Scope string_scope.
Local Open Scope N_scope.

Lemma aligned_next x a : aligned a (next_aligned x a).
Proof.
  rewrite aligned_divide, next_aligned_eq. destruct (align_offset_divide x a); auto.
Qed.

Lemma next_aligned_ge x a : x <= next_aligned x a.
Proof. rewrite next_aligned_eq. lia. Qed.

Lemma next_aligned_least x a p : x <= p -> aligned a p -> next_aligned x a <= p.
Proof.
  rewrite aligned_divide, next_aligned_eq. intros Hx [->|D]; [rewrite align_offset_0; lia|].
  destruct (N.eq_dec a 0) as [->|Ha]; [rewrite align_offset_0; lia|]. apply align_offset_least; [lia|assumption|assumption].
Qed.

Lemma placed_starts ms : forall cur total, extent cur ms <= total -> placed cur ms (starts cur ms) total.
Proof.
  induction ms as [|[a s] ms IH]; intros cur total H; cbn [extent starts placed] in *; [exact H|].
  split; [apply next_aligned_ge|]. split; [apply aligned_next|]. now apply IH.
Qed.

Lemma extent_mono ms : forall c c', c <= c' -> extent c ms <= extent c' ms.
Proof.
  induction ms as [|[a s] ms IH]; intros c c' H; cbn [extent]; [exact H|]. apply IH.
  enough (next_aligned c a <= next_aligned c' a) by lia.
  apply next_aligned_least; [pose proof (next_aligned_ge c' a); lia|apply aligned_next].
Qed.

Lemma placed_least ms : forall cur qs total, placed cur ms qs total ->
  Forall2 N.le (starts cur ms) qs /\ extent cur ms <= total.
Proof.
  assert (G : forall ms cur cur' qs total, cur <= cur' -> placed cur' ms qs total -> Forall2 N.le (starts cur ms) qs /\ extent cur ms <= total).
  { clear ms. induction ms as [|[a s] ms IH]; intros cur cur' qs total Hc H; destruct qs as [|q qs]; cbn [placed starts extent] in *; try contradiction.
    - split; [constructor|lia].
    - destruct H as [H1 [H2 H3]].
      assert (L : next_aligned cur a <= q) by (apply next_aligned_least; [lia|assumption]).
      destruct (IH (next_aligned cur a + s) (q + s) qs total ltac:(lia) H3) as [A B]. split; [now constructor|assumption]. }
  intros cur qs total. now apply G.
Qed.

(** ** C53 *)

(** C53.  The layout of a derived struct is the smallest possible: its fields do not overlap
    and are aligned, and in any placement of the fields in declaration order with these
    properties every field is at the same or a larger offset and the struct (whose size
    must be a multiple of ALIGNMENT) is at least as large. *)
Lemma C53_struct_layout_minimal_proof : forall tg l name fs t,
  target_ok tg = true -> out_ty tg l (HStruct name fs) = Some t ->
  exists ms offs A, field_metrics tg l fs = Some ms
    /\ map (fun nf => assoc (fst nf) (field_offsets tg t)) fs = map Some offs
    /\ std_align l t = Some A
    /\ placed 0 ms offs (size_of tg t) /\ aligned A (size_of tg t)
    /\ (forall qs total, placed 0 ms qs total -> aligned A total ->
          Forall2 N.le offs qs /\ size_of tg t <= total).
Proof.
  intros tg l name fs t Htg Ho.
  destruct (C17_size_and_alignment_proof tg l name fs t Htg Ho) as [ms [E [S1 [S2 [S3 S4]]]]].
  set (A := fold_right N.max _ (map fst ms)) in *.
  exists ms, (starts 0 ms), A. split; [exact E|]. split; [exact S2|]. split; [exact S1|].
  split; [apply placed_starts; rewrite S3; apply next_aligned_ge|].
  split; [rewrite S3; apply aligned_next|].
  intros qs total Hp Ha. destruct (placed_least ms 0 qs total Hp) as [P1 P2]. split; [exact P1|].
  rewrite S3. now apply next_aligned_least.
Qed.

(** C53.  The same for the offsets a [Sizer] (and, by C02, a [Writer]) hands out. *)
Lemma C53_sizer_minimal_proof : forall tg l hs ms os s,
  target_ok tg = true ->
  map_opt (fun h => match out_align tg l h, std_size_static tg l h with
                    | Some a, Some n => Some (a, n) | _, _ => None end) hs = Some ms ->
  sizer_run tg l hs sizer_new = Some (Done (os, s)) ->
  (t_checks tg = true \/ extent 0 ms < umod tg) ->
  placed 0 ms os (sizer_len s)
  /\ (forall qs total, placed 0 ms qs total -> Forall2 N.le os qs /\ sizer_len s <= total).
Proof.
  intros tg l hs ms os s Htg Hm Hr Hc.
  enough (E : os = starts 0 ms /\ sizer_len s = extent 0 ms).
  { destruct E as [-> ->]. split; [apply placed_starts; lia|]. intros qs total. apply placed_least. }
  assert (G : forall hs cur ms os s, cur < umod tg ->
    map_opt (fun h => match out_align tg l h, std_size_static tg l h with
                    | Some a, Some n => Some (a, n) | _, _ => None end) hs = Some ms ->
    sizer_run tg l hs (Sizer cur) = Some (Done (os, s)) ->
    (t_checks tg = true \/ extent cur ms < umod tg) -> os = starts cur ms /\ sizer_len s = extent cur ms).
  { clear hs ms os s Hm Hr Hc. induction hs as [|h hs IH]; intros cur ms os s Hcur Hm Hr Hc; cbn [map_opt sizer_run] in Hm, Hr.
    - injection Hm as <-. injection Hr as <- <-. split; reflexivity.
    - destruct (out_align tg l h) as [a|] eqn:Ea; [|discriminate]. destruct (std_size_static tg l h) as [n|] eqn:En; [|discriminate].
      destruct (map_opt _ hs) as [ms'|] eqn:Em; [|discriminate]. injection Hm as <-.
      destruct (least_aligned_exists a cur) as [o Hlo].
      assert (Eo : o = next_aligned cur a) by (rewrite next_aligned_eq; now apply least_aligned_spec).
      cbn [starts extent] in *. rewrite <- Eo in *.
      assert (Hfit : o + n < umod tg).
      { destruct Hc as [Hc|Hc].
        - destruct (C12_sizer_overflow_proof tg l h a n (Sizer cur) o Htg Hc Ea En Hcur Hlo) as [[F _]|[F P]]; [assumption|].
          rewrite P in Hr. discriminate.
        - pose proof (extent_mono ms' (o + n) (o + n) ltac:(lia)) as _.
          assert (X : forall ms c, c <= extent c ms).
          { clear. induction ms as [|[a s] ms IH]; intros c; cbn [extent]; [lia|]. pose proof (next_aligned_ge c a). pose proof (IH (next_aligned c a + s)). lia. }
          specialize (X ms' (o + n)). lia. }
      destruct (C01_sizer_add_proof tg l h a n (Sizer cur) o Htg Ea En Hlo Hfit) as [s' [E1 E2]].
      rewrite E1 in Hr. destruct s' as [c']. cbn [sizer_len sz_offset] in E2. subst c'.
      destruct (sizer_run tg l hs (Sizer (o + n))) as [[[os' s'']|]|] eqn:Er; try discriminate. injection Hr as <- <-.
      destruct (IH (o + n) ms' os' s'' Hfit eq_refl Er) as [-> ->]; [tauto|]. split; reflexivity. }
  apply (G hs 0 ms os s); auto. apply umod_pos.
Qed.

(** ** C51 *)

Lemma extent_app a b : forall c, extent c (a ++ b)%list = extent (extent c a) b.
Proof. induction a as [|[x s] a IH]; intros c; cbn [app extent]; [reflexivity|apply IH]. Qed.
Lemma starts_app a b : forall c, starts c (a ++ b)%list = (starts c a ++ starts (extent c a) b)%list.
Proof. induction a as [|[x s] a IH]; intros c; cbn [app extent starts]; [reflexivity|]. f_equal. apply IH. Qed.
Lemma extent_ge ms : forall c, c <= extent c ms.
Proof. induction ms as [|[a s] ms IH]; intros c; cbn [extent]; [lia|]. pose proof (next_aligned_ge c a). pose proof (IH (next_aligned c a + s)). lia. Qed.

Lemma map_opt_app {A B} (f : A -> option B) a b :
  map_opt f (a ++ b)%list = match map_opt f a, map_opt f b with Some x, Some y => Some (x ++ y)%list | _, _ => None end.
Proof.
  induction a as [|x a IH]; cbn [app map_opt]; [destruct (map_opt f b); reflexivity|].
  rewrite IH. destruct (f x); [|reflexivity]. destruct (map_opt f a); [|reflexivity]. destruct (map_opt f b); reflexivity.
Qed.

Lemma next_aligned_mono_al x y a b : x <= y -> (a = 0 \/ (a | b) /\ b <> 0) -> next_aligned x a <= next_aligned y b.
Proof.
  intros H Ha. apply next_aligned_least; [pose proof (next_aligned_ge y b); lia|]. rewrite aligned_divide.
  destruct Ha as [->|[D Hb]]; [now left|right]. pose proof (aligned_next y b) as K. rewrite aligned_divide in K. destruct K as [->|K]; [contradiction|].
  now apply (N.divide_trans _ b).
Qed.

Lemma extent_dims ps : forall c, extent c (dims ps) = end_of c ps.
Proof.
  induction ps as [|[a b] ps IH]; intros c; cbn [dims map extent end_of fst snd]; [reflexivity|].
  fold (dims ps). now rewrite IH, next_aligned_eq.
Qed.

Lemma conv_typed tg l fs vs outs ss : conv tg l fs vs outs ss -> typed_all tg l (combine (map snd fs) (map snd vs)).
Proof.
  induction 1 as [|f h w t s fs vs outs ss Ho Hv Ha Hs Hf _ IH]; [constructor|]. constructor; [|exact IH]. cbn [fst snd]. eauto.
Qed.

(** the bytes of a struct are those of its fields, put one after the other *)
Lemma struct_bytes_render tg l name fs t vs bs ms :
  target_ok tg = true -> out_ty tg l (HStruct name fs) = Some t ->
  hval_ok tg (HStruct name fs) (HVRec vs) = true ->
  as_std_bytes tg l (HStruct name fs) (HVRec vs) = Some bs -> field_metrics tg l fs = Some ms ->
  exists ps, parts_list tg l (map leaf (combine (map snd fs) (map snd vs))) = Some ps
    /\ typed_all tg l (combine (map snd fs) (map snd vs))
    /\ dims ps = ms /\ bs = (render 0 ps ++ zeros (size_of tg t - end_of 0 ps))%list.
Proof.
  intros Htg Ho Hv Hb Hm.
  destruct (C49_fieldwise_writing_proof tg l name fs t vs bs Htg Ho Hv Hb) as [w [offs [W1 [W2 [W3 _]]]]].
  rewrite hval_ok_struct in Hv.
  destruct (as_std_struct_detail tg l name fs vs t Htg Ho Hv) as [outs [inits [E [-> [Hnd [HG [HC Ha]]]]]]].
  pose proof (conv_typed _ _ _ _ _ _ HC) as Hty.
  pose proof (conv_parts tg l _ _ _ _ Htg HC) as HP. fold (fparts tg l outs inits) in HP.
  assert (HPs : parts tg l (WSeq (map leaf (combine (map snd fs) (map snd vs)))) = Some (fparts tg l outs inits)) by (now rewrite parts_WSeq).
  exists (fparts tg l outs inits). split; [exact HP|]. split; [exact Hty|].
  rewrite (field_metrics_mems tg l fs outs Htg E) in Hm. injection Hm as <-.
  split.
  - clear -HC HG. unfold fparts, dims, mems. induction HC as [|f h w t s fs vs outs ss Ho Hv Ha Hs Hf _ IH]; [reflexivity|].
    inversion HG as [|? ? G1 G2]; subst. cbn [map combine fst snd] in *. rewrite IH by assumption. f_equal. f_equal.
    apply len_flat; [|assumption]. eapply good_nopad. exact G1.
  - rewrite (write_vals_run1 tg l vec_sink Htg _ _ _ Hty HPs) in W1.
    pose proof (parts_uals tg l Htg _ _ (typed_all_ok _ _ _ Hty) HPs) as Hu.
    destruct (run1_spec tg vec_sink (fun v => v) vec_lawful _ (writer_new []) _ _ None 0 Hu (at_pos_0 tg) W1) as [_ [_ [_ D]]].
    cbn [writer_new w_inner app] in D. rewrite D in W3. rewrite W3. f_equal. unfold zeros. f_equal. f_equal.
    rewrite end_of_render. lia.
Qed.

Lemma fold_max_ge b q : b <= fold_right N.max b q.
Proof. induction q as [|x q IH]; cbn [fold_right]; lia. Qed.

Lemma combine_app_same {A B} (a a' : list A) (b b' : list B) : length a = length b ->
  combine (a ++ a') (b ++ b') = (combine a b ++ combine a' b')%list.
Proof.
  revert b. induction a as [|x a IH]; intros [|y b] H; try discriminate H; [reflexivity|]. cbn [app combine]. f_equal. apply IH. now injection H.
Qed.

Lemma parts_list_app tg l a b :
  parts_list tg l (a ++ b)%list = match parts_list tg l a, parts_list tg l b with Some x, Some y => Some (x ++ y)%list | _, _ => None end.
Proof.
  induction a as [|x a IH]; cbn [app parts_list]; [destruct (parts_list tg l b); reflexivity|].
  rewrite IH. destruct (parts tg l x); [|reflexivity]. destruct (parts_list tg l a); [|reflexivity].
  destruct (parts_list tg l b); [|reflexivity]. now rewrite app_assoc.
Qed.

(** C51.  Appending fields to a struct does not move the existing fields or change their
    bytes, and never makes the struct smaller or less aligned: up to the end of the last
    old field the bytes of the two structs are the same. *)
Lemma C51_appending_fields_proof : forall tg l name name' fs gs t t' ms,
  target_ok tg = true ->
  out_ty tg l (HStruct name fs) = Some t -> out_ty tg l (HStruct name' (fs ++ gs)) = Some t' ->
  field_metrics tg l fs = Some ms ->
  (forall f, In f (map fst fs) -> assoc f (field_offsets tg t') = assoc f (field_offsets tg t))
  /\ size_of tg t <= size_of tg t'
  /\ (exists A A', std_align l t = Some A /\ std_align l t' = Some A' /\ A <= A')
  /\ (forall vs ws bs bs', as_std_bytes tg l (HStruct name fs) (HVRec vs) = Some bs ->
        as_std_bytes tg l (HStruct name' (fs ++ gs)) (HVRec (vs ++ ws)) = Some bs' ->
        hval_ok tg (HStruct name fs) (HVRec vs) = true ->
        hval_ok tg (HStruct name' (fs ++ gs)) (HVRec (vs ++ ws)) = true ->
        forall i, i < extent 0 ms -> byte_at bs' i = byte_at bs i).
Proof.
  intros tg l name name' fs gs t t' ms Htg H1 H2 Hm.
  destruct (C17_size_and_alignment_proof tg l name fs t Htg H1) as [ms1 [E1 [S1 [S2 [S3 S4]]]]].
  rewrite Hm in E1. injection E1 as <-.
  destruct (C17_size_and_alignment_proof tg l name' (fs ++ gs) t' Htg H2) as [ms2 [E2 [R1 [R2 [R3 R4]]]]].
  unfold field_metrics in E2, Hm. rewrite map_opt_app, Hm in E2.
  destruct (map_opt _ gs) as [ns|] eqn:En; [|discriminate]. injection E2 as <-.
  rewrite starts_app, map_app in R2. rewrite map_app in R2.
  assert (Hlen : length (map (fun nf : string * hty => assoc (fst nf) (field_offsets tg t')) fs) = length (map Some (starts 0 ms))).
  { rewrite !map_length. apply map_opt_Some_length in Hm. rewrite <- Hm. clear. generalize 0 as c. induction ms as [|[a s] ms IH]; intros c; cbn [starts length]; [reflexivity|]. f_equal. apply IH. }
  assert (R2' : map (fun nf : string * hty => assoc (fst nf) (field_offsets tg t')) fs = map Some (starts 0 ms)).
  { clear -R2 Hlen. revert R2 Hlen. generalize (map (fun nf : string * hty => assoc (fst nf) (field_offsets tg t')) fs) as a.
    generalize (map Some (starts 0 ms)) as b. generalize (map (fun nf : string * hty => assoc (fst nf) (field_offsets tg t')) gs) as c.
    generalize (map Some (starts (extent 0 ms) ns)) as d. intros d c b a E L. revert b E L.
    induction a as [|x a IH]; intros [|y b] E L; cbn [app length] in *; try lia; [reflexivity|]. injection E as -> E. f_equal. apply IH; [exact E|lia]. }
  rewrite <- S2 in R2'.
  set (b := match l with L140 => 16 | L430 => 0 end) in *.
  assert (Hle : fold_right N.max b (map fst ms) <= fold_right N.max b (map fst (ms ++ ns)%list)).
  { rewrite map_app, fold_right_app. generalize (map fst ms) as q. pose proof (fold_max_ge b (map fst ns)) as Hy. revert Hy. generalize (fold_right N.max b (map fst ns)) as y.
    intros y Hy q. induction q as [|x q IHq]; cbn [fold_right]; lia. }
  split; [|split; [|split; [do 2 eexists; split; [exact S1|split; [exact R1|exact Hle]]|]]].
  - intros f Hf. apply in_map_iff in Hf. destruct Hf as [[g h] [<- Hin]]. cbn [fst].
    clear -R2' Hin. induction fs as [|[f h'] fs IH]; [contradiction|]. cbn [map fst] in R2'. injection R2' as E1 E2.
    destruct Hin as [Hin|Hin]; [injection Hin as <- <-; exact E1|auto].
  - rewrite S3, R3. rewrite extent_app. apply next_aligned_mono_al; [apply extent_ge|].
    assert (P : forall hh tt nm, out_ty tg l (HStruct nm hh) = Some tt -> forall A, std_align l tt = Some A -> A = 0 \/ pow2 A).
    { intros hh tt nm Q A QA. destruct (C31_alignment_power_of_two_proof tg l (HStruct nm hh) A Htg) as [[k ->]|[-> _]]; [|right; now exists k|now left].
      unfold out_align. now rewrite Q. }
    destruct (P _ _ _ H1 _ S1) as [Z|Z]; [now left|].
    destruct (P _ _ _ H2 _ R1) as [Z'|Z'].
    + rewrite Z' in Hle. pose proof (pow2_pos _ Z). lia.
    + right. split; [now apply pow2_divide|]. pose proof (pow2_pos _ Z'). lia.
  - intros vs ws bs bs' B1 B2 V1 V2.
    destruct (struct_bytes_render tg l name fs t vs bs ms Htg H1 V1 B1 Hm) as [ps [P1 [_ [P2 P3]]]].
    assert (Hm' : field_metrics tg l (fs ++ gs) = Some (ms ++ ns)%list).
    { unfold field_metrics. rewrite map_opt_app, Hm, En. reflexivity. }
    destruct (struct_bytes_render tg l name' (fs ++ gs) t' (vs ++ ws) bs' _ Htg H2 V2 B2 Hm') as [ps' [P1' [_ [P2' P3']]]].
    rewrite hval_ok_struct in V1.
    assert (Lfv : length (map snd fs) = length (map snd vs)).
    { apply hfields_ok_names in V1. rewrite !map_length. rewrite <- (map_length fst fs), <- V1. now rewrite map_length. }
    rewrite !map_app, combine_app_same, map_app, parts_list_app, P1 in P1' by exact Lfv.
    destruct (parts_list tg l (map leaf (combine (map snd gs) (map snd ws)))) as [qs|]; [|discriminate P1']. injection P1' as <-.
    intros i Hi. rewrite P3', render_app, <- app_assoc, P3.
    rewrite <- P2, extent_dims, end_of_render in Hi.
    now rewrite !byte_at_app_l by lia.
Qed.

(** ** C52 *)

Lemma hfields_ok_Forall2 tg fs : forall vs, hfields_ok tg fs vs = true ->
  Forall2 (fun a b => fst a = fst b /\ hval_ok tg (snd a) (snd b) = true) fs vs.
Proof.
  induction fs as [|[f h] fs IH]; intros [|[g w] vs] H; try discriminate H; [constructor|].
  cbn [hfields_ok] in H. rewrite !andb_true_iff, String.eqb_eq in H. destruct H as [[H1 H2] H3]. constructor; [split; assumption|auto].
Qed.

Lemma renamed_rec_inv vs v' : renamed_val (HVRec vs) v' ->
  exists vs', v' = HVRec vs' /\ Forall2 (fun a b => renamed_val (snd a) (snd b)) vs vs'.
Proof.
  intros H. inversion H as [|? vs' F|]; subst; [|eauto]. exists vs. split; [reflexivity|].
  clear. induction vs; constructor; [constructor|assumption].
Qed.

(** two values of one type that differ only in field names are equal *)
Lemma renamed_val_eq tg : forall h v v', renamed_val v v' -> hval_ok tg h v = true -> hval_ok tg h v' = true -> v = v'.
Proof.
  assert (S : forall fs, Forall (fun nf : string * hty => forall v v', renamed_val v v' -> hval_ok tg (snd nf) v = true -> hval_ok tg (snd nf) v' = true -> v = v') fs ->
    forall vs vs', Forall2 (fun a b => renamed_val (snd a) (snd b)) vs vs' -> hfields_ok tg fs vs = true -> hfields_ok tg fs vs' = true -> vs = vs').
  { intros fs IH vs vs' F H1 H2. apply hfields_ok_Forall2 in H1. apply hfields_ok_Forall2 in H2. revert vs vs' F H1 H2.
    induction IH as [|[f h] fs Hh _ IHfs]; intros vs vs' F H1 H2; inversion H1 as [|? [g w] ? vs1 [A1 A2] A3]; subst;
      inversion H2 as [|? [g' w'] ? vs2 [B1 B2] B3]; subst; [reflexivity|].
    inversion F as [|? ? ? ? F1 F2]; subst. cbn [fst snd] in *. subst. f_equal; [f_equal; now apply Hh|now apply IHfs]. }
  induction h as [p| |r s fs IH|r m IH|h IH|n fs IH|l' h IH] using hty_ind'; intros v v' R H1 H2;
    (destruct v; try discriminate H1); try (inversion R; subst; try reflexivity; fail).
  - destruct (renamed_rec_inv _ _ R) as [vs' [-> F]]. rewrite hval_ok_easy in *. f_equal. now apply (S fs IH).
  - inversion R as [| |? ? R1]; subst; [reflexivity|]. f_equal. now apply IH.
  - destruct (renamed_rec_inv _ _ R) as [vs' [-> F]]. rewrite hval_ok_struct in *. f_equal. now apply (S fs IH).
Qed.

Definition same_layout (tg : target) (l : lay) (h h' : hty) : Prop :=
  out_align tg l h = out_align tg l h' /\ std_size_static tg l h = std_size_static tg l h'
  /\ forall v v', renamed_val v v' -> hval_ok tg h v = true -> hval_ok tg h' v' = true ->
       as_std_bytes tg l h v = as_std_bytes tg l h' v'.

Lemma renamed_struct_inv n fs h' : renamed (HStruct n fs) h' ->
  exists n' fs', h' = HStruct n' fs' /\ Forall2 (fun a b => renamed (snd a) (snd b)) fs fs'.
Proof.
  intros H. inversion H as [|? n' ? fs' F|]; subst; [|eauto]. exists n, fs. split; [reflexivity|].
  clear. induction fs; constructor; [constructor|assumption].
Qed.

Lemma out_struct_fields tg l n fs t : out_ty tg l (HStruct n fs) = Some t ->
  Forall (fun nf => exists u, out_ty tg l (snd nf) = Some u) fs.
Proof.
  rewrite out_ty_HStruct. destruct (out_fields tg l fs) as [outs|] eqn:E; [|discriminate]. intros _.
  apply out_fields_Forall2 in E. induction E as [|a b fs outs [_ H] _ IH]; constructor; [eauto|assumption].
Qed.

(** the layout of a struct depends only on those of its fields *)
Lemma struct_same tg l n n' fs fs' t t' : target_ok tg = true ->
  out_ty tg l (HStruct n fs) = Some t -> out_ty tg l (HStruct n' fs') = Some t' ->
  Forall2 (fun a b => same_layout tg l (snd a) (snd b)) fs fs' ->
  same_layout tg l (HStruct n fs) (HStruct n' fs')
  /\ map (fun nf => assoc (fst nf) (field_offsets tg t)) fs = map (fun nf => assoc (fst nf) (field_offsets tg t')) fs'.
Proof.
  intros Htg H1 H2 F.
  destruct (C17_size_and_alignment_proof tg l n fs t Htg H1) as [ms [E1 [S1 [S2 [S3 S4]]]]].
  destruct (C17_size_and_alignment_proof tg l n' fs' t' Htg H2) as [ms' [E2 [R1 [R2 [R3 R4]]]]].
  assert (Em : ms = ms').
  { assert (field_metrics tg l fs = field_metrics tg l fs') as Q; [|rewrite E1, E2 in Q; now injection Q].
    clear -F. unfold field_metrics. induction F as [|a b fs fs' [A1 [A2 _]] _ IH]; [reflexivity|]. cbn [map_opt]. now rewrite A1, A2, IH. }
  subst ms'.
  assert (Es : size_of tg t = size_of tg t') by now rewrite S3, R3.
  split; [split; [|split]|].
  - unfold out_align. rewrite H1, H2, S1, R1. reflexivity.
  - unfold std_size_static. now rewrite H1, H2, Es.
  - intros v v' R V1 V2. destruct v as [| |vs| | |]; try discriminate V1.
    destruct (renamed_rec_inv _ _ R) as [vs' [-> FV]].
    destruct (leaf_parts _ _ _ _ _ Htg H1 V1) as [s1 [_ [_ [_ [_ [B1 _]]]]]].
    destruct (leaf_parts _ _ _ _ _ Htg H2 V2) as [s2 [_ [_ [_ [_ [B2 _]]]]]].
    destruct (struct_bytes_render _ _ _ _ _ _ _ _ Htg H1 V1 B1 E1) as [ps [P1 [_ [P2 P3]]]].
    destruct (struct_bytes_render _ _ _ _ _ _ _ _ Htg H2 V2 B2 E2) as [ps' [P1' [_ [P2' P3']]]].
    rewrite B1, B2, P3, P3', Es.
    enough (Some ps = Some ps') as Q by now injection Q as ->.
    rewrite <- P1, <- P1'. rewrite hval_ok_struct in V1, V2. clear -F FV V1 V2.
    apply hfields_ok_Forall2 in V1. apply hfields_ok_Forall2 in V2. revert vs vs' FV V1 V2.
    induction F as [|[f h] [f' h'] fs fs' [A1 [A2 A3]] _ IH]; intros vs vs' FV V1 V2.
    + inversion V1; subst. inversion V2; subst. reflexivity.
    + inversion V1 as [|? [g w] ? vs1 [C1 C2] C3]; subst. inversion V2 as [|? [g' w'] ? vs2 [D1 D2] D3]; subst.
      inversion FV as [|? ? ? ? F1 F2]; subst. cbn [fst snd] in *.
      cbn [map combine snd parts_list]. rewrite (IH _ _ F2 C3 D3). unfold leaf. cbn [fst snd parts].
      now rewrite A1, (A3 w w' F1 C2 D2).
  - now rewrite S2, R2.
Qed.

Lemma renamed_same_layout tg l : target_ok tg = true -> forall h h' t t', renamed h h' ->
  out_ty tg l h = Some t -> out_ty tg l h' = Some t' -> same_layout tg l h h'.
Proof.
  intros Htg. induction h as [p| |r s fs IH|r m IH|h IH|n fs IH|l' h IH] using hty_ind'; intros h' t t' R H1 H2;
    try (inversion R; subst; (split; [reflexivity|split; [reflexivity|]]); intros v v' RV V1 V2; f_equal; eapply renamed_val_eq; eassumption).
  - inversion R as [| |? h1 R1]; subst.
    + split; [reflexivity|split; [reflexivity|]]; intros v v' RV V1 V2; f_equal; eapply renamed_val_eq; eassumption.
    + destruct l; [|discriminate H1]. cbn [out_ty] in H1, H2.
      destruct (out_ty tg L140 h) as [u|] eqn:E1; [|discriminate]. destruct (out_ty tg L140 h1) as [u1|] eqn:E2; [|discriminate].
      destruct (IH h1 u u1 R1 eq_refl E2) as [A1 [A2 A3]].
      unfold same_layout. unfold out_align, std_size_static, as_std_bytes in *. cbn [out_ty as_std]. rewrite E1, E2 in *.
      split; [cbn [std_align]; now rewrite A1|]. split; [cbn [size_of]; exact A2|].
      intros v v' RV V1 V2. destruct v as [| | | |w|]; try discriminate V1. destruct v' as [| | | |w'|]; try discriminate V2.
      cbn [hval_ok] in V1, V2. assert (RW : renamed_val w w') by (inversion RV; subst; [constructor|assumption]).
      specialize (A3 w w' RW V1 V2). destruct (as_std tg L140 h w), (as_std tg L140 h1 w'); cbn [bytes_of]; exact A3.
  - destruct (renamed_struct_inv _ _ _ R) as [n' [fs' [-> F]]].
    apply (struct_same tg l n n' fs fs' t t' Htg H1 H2).
    apply out_struct_fields in H1. apply out_struct_fields in H2. clear -IH H1 H2 F.
    induction F as [|[f h] [f' h'] fs fs' R _ IHF]; [constructor|].
    inversion IH; subst. inversion H1 as [|? ? [u U] ?]; subst. inversion H2 as [|? ? [u' U'] ?]; subst. cbn [snd] in *. constructor; eauto.
Qed.

(** C52.  Names do not matter for bytes: renaming structs and fields, at any depth, in a type
    that stays acceptable changes neither ALIGNMENT nor size nor any byte of any value. *)
Lemma C52_names_are_irrelevant_proof : forall tg l h h' t t',
  target_ok tg = true -> renamed h h' -> out_ty tg l h = Some t -> out_ty tg l h' = Some t' ->
  out_align tg l h = out_align tg l h' /\ std_size_static tg l h = std_size_static tg l h'
  /\ forall v v', renamed_val v v' -> hval_ok tg h v = true -> hval_ok tg h' v' = true ->
       as_std_bytes tg l h v = as_std_bytes tg l h' v'.
Proof. intros tg l h h' t t' Htg R H1 H2. exact (renamed_same_layout tg l Htg h h' t t' R H1 H2). Qed.

(** C52.  ... nor the offset of any field. *)
Lemma C52_offsets_by_position_proof : forall tg l n n' fs fs' t t',
  target_ok tg = true -> Forall2 (fun a b => renamed (snd a) (snd b)) fs fs' ->
  out_ty tg l (HStruct n fs) = Some t -> out_ty tg l (HStruct n' fs') = Some t' ->
  map (fun nf => assoc (fst nf) (field_offsets tg t)) fs = map (fun nf => assoc (fst nf) (field_offsets tg t')) fs'.
Proof.
  intros tg l n n' fs fs' t t' Htg F H1 H2. apply (struct_same tg l n n' fs fs' t t' Htg H1 H2).
  apply out_struct_fields in H1. apply out_struct_fields in H2. clear -Htg H1 H2 F.
  induction F as [|[f h] [f' h'] fs fs' R _ IHF]; [constructor|].
  inversion H1 as [|? ? [u U] ?]; subst. inversion H2 as [|? ? [u' U'] ?]; subst. cbn [snd] in *. constructor; [|auto].
  eapply renamed_same_layout; eassumption.
Qed.

Local Ltac compute_all := lazymatch goal with
  | |- ex _ => eexists; compute_all
  | |- _ /\ _ => split; [compute_all|compute_all]
  | |- _ => vm_compute; reflexivity
  end.

(** [C51]: [PointLight] with a [bool] and a matrix appended; the struct grows from 32 to 80 bytes. *)
Lemma C51_ex_proof :
  exists t t' ms bs bs', out_ty x86_64 L140 point_light = Some t
  /\ out_ty x86_64 L140 (HStruct "PointLight2" ([("position", vec3f); ("color", vec3f); ("brightness", HPrim PF32)] ++ [("on", HBool); ("m", mat2f)])) = Some t'
  /\ field_metrics x86_64 L140 [("position", vec3f); ("color", vec3f); ("brightness", HPrim PF32)] = Some ms
  /\ extent 0 ms = 32 /\ size_of x86_64 t = 32 /\ size_of x86_64 t' = 80
  /\ as_std_bytes x86_64 L140 point_light light1 = Some bs
  /\ as_std_bytes x86_64 L140 (HStruct "PointLight2" ([("position", vec3f); ("color", vec3f); ("brightness", HPrim PF32)] ++ [("on", HBool); ("m", mat2f)]))
       (HVRec ([("position", v3 f1_0 2 3); ("color", v3 4 5 6); ("brightness", bits f1_0)] ++ [("on", HVBool true); ("m", HVRec [("x", v2 1 2); ("y", v2 3 4)])])) = Some bs'
  /\ firstn 32 bs' = bs.
Proof. compute_all. Qed.

(** [C52]: [Scene] with its inner struct and two fields renamed. *)
Definition scene_renamed : hty :=
  HStruct "Szene" [("an", HBool); ("licht", HStruct "Punktlicht" [("wo", vec3f); ("farbe", vec3f); ("wieviel", HPrim PF32)]);
    ("m", mat2f); ("d", dvec3); ("flags", bvec3); ("n", HPrim PI32)].
Definition scene1_renamed : hval :=
  HVRec [("an", HVBool true); ("licht", HVRec [("wo", v3 f1_0 2 3); ("farbe", v3 4 5 6); ("wieviel", bits f1_0)]);
         ("m", HVRec [("x", v2 1 2); ("y", v2 3 4)]);
         ("d", v3 (2 ^ 63) 1 (2 ^ 64 - 1)); ("flags", v3b true false true); ("n", bits (2 ^ 32 - 1))].
Lemma C52_ex_proof :
  renamed scene scene_renamed /\ renamed_val scene1 scene1_renamed
  /\ out_ty x86_64 L140 scene <> None /\ out_ty x86_64 L140 scene_renamed <> None
  /\ hval_ok x86_64 scene scene1 = true /\ hval_ok x86_64 scene_renamed scene1_renamed = true
  /\ scene1 <> scene1_renamed
  /\ as_std_bytes x86_64 L140 scene scene1 = as_std_bytes x86_64 L140 scene_renamed scene1_renamed.
Proof.
  split; [repeat (constructor; cbn [snd])|]. split; [repeat (constructor; cbn [snd])|].
  split; [vm_compute; discriminate|]. split; [vm_compute; discriminate|].
  split; [vm_compute; reflexivity|]. split; [vm_compute; reflexivity|]. split; [vm_compute; discriminate|vm_compute; reflexivity].
Qed.

(** [C53]: the hypotheses met by [Scene]; moving a field down is not possible, moving it up is. *)
Lemma C53_ex_proof :
  exists t ms, out_ty x86_64 L140 point_light = Some t
  /\ field_metrics x86_64 L140 [("position", vec3f); ("color", vec3f); ("brightness", HPrim PF32)] = Some ms
  /\ starts 0 ms = [0; 16; 28] /\ size_of x86_64 t = 32
  /\ sizer_run x86_64 L140 [vec3f; vec3f; HPrim PF32] sizer_new = Some (Done ([0; 16; 28], Sizer 32)).
Proof. compute_all. Qed.
Lemma C53_ex2_proof : placed 0 [(16, 12); (16, 12); (4, 4)] [0; 16; 28] 32 /\ placed 0 [(16, 12); (16, 12); (4, 4)] [0; 32; 44] 48
  /\ ~ placed 0 [(16, 12); (16, 12); (4, 4)] [0; 12; 24] 32.
Proof.
  cbn [placed]. unfold aligned. repeat split; try lia; try (right; first [exists 0; reflexivity|exists 1; reflexivity|exists 7; reflexivity|exists 2; reflexivity|exists 11; reflexivity]).
  intros [_ [_ [_ [[H|[k H]] _]]]]; [discriminate|lia].
Qed.
