(** * Hand-written layout types: [unsafe impl Std140 / Std430] (C86) *)

From Coq Require Import NArith String Bool List Lia ZArith PeanoNat.
From Coq Require Import ZifyBool ZifyN ZifyNat.
From Coq Require Import Strings.Byte.
From Verif Require Import Rust Internal Prims Derive Host Buffer Custom SpecGlsl SpecHost SpecTypes SpecBuf SpecLayout
  Arith RustFacts DeriveFacts TypeFacts LayoutFacts HostFacts GlslFacts PadFacts BufferFacts WriterFacts Proofs_Buffer Proofs_Types Samples.
Import ListNotations.
Local Open Scope string_scope.
Local Open Scope N_scope.

(** what acceptance of a derived struct over layout types means *)
Lemma layout_derive_facts tg l name fields t : target_ok tg = true ->
  (forall f u, In (f, u) fields -> layout_type tg l u) -> derive_output tg l name fields = Some t ->
  Forall (fun f => lgood tg l (snd f)) fields
  /\ t = derived tg l name fields /\ lgood tg l t
  /\ NoDup (map fst fields) /\ NoDup (map fst (derived_fields tg l fields))
  /\ (forall f u, In (f, u) fields -> assoc f (derived_fields tg l fields) = Some u)
  /\ size_of tg t = sizes tg (derived_fields tg l fields)
  /\ (struct_al l fields = 0 \/ (struct_al l fields | size_of tg t)).
Proof.
  intros Htg HF H. apply derive_output_iff in H; [|assumption]. destruct H as [_ [Hnd [-> _]]].
  assert (G : Forall (fun f => lgood tg l (snd f)) fields).
  { apply Forall_forall. intros [f u] Hin. cbn [snd]. eapply layout_type_lgood; eauto. }
  destruct (lderived_props tg l name fields Htg G) as [A [B C]].
  split; [assumption|]. split; [reflexivity|]. split; [assumption|].
  split; [eapply gen_fields_NoDup_sub; exact Hnd|]. split; [assumption|]. split; [|split; assumption].
  intros f u Hin. apply assoc_nodup; [assumption|]. now apply gen_fields_sub.
Qed.

(** C86.  Every layout type, however built from hand-written ones, is what a hand-written
    implementation promises: a power of two as ALIGNMENT that is a multiple of Rust's alignment
    (0 only for empty types), and a one-to-one correspondence between values and byte strings of
    the right length, both as seen by [as_bytes]. *)
Lemma C86_closed_proof : forall tg l t,
  target_ok tg = true -> layout_type tg l t ->
  (exists a, std_align l t = Some a
     /\ ((a = 0 /\ size_of tg t = 0) \/ (exists k, a = 2 ^ k /\ a < umod tg /\ (align_of tg t | a))))
  /\ size_of tg t < umod tg
  /\ (forall s, has_sty t s = true ->
        exists bs, bytes_of tg t s = Some bs /\ len bs = size_of tg t /\ from_bytes tg t bs = Some s)
  /\ (forall bs, len bs = size_of tg t ->
        exists s, has_sty t s = true /\ from_bytes tg t bs = Some s /\ bytes_of tg t s = Some bs).
Proof.
  intros tg l t Htg H. pose proof (layout_type_lgood tg l t Htg H) as G. pose proof (lgood_nopad _ _ _ G) as Hn.
  split; [|split; [|split]].
  - destruct G as [a [A1 [_ [_ [_ [A5 A6]]]]]]. exists a. split; [assumption|].
    destruct (N.eq_dec a 0) as [E|E]; [left; split; [assumption|now apply A5]|right].
    destruct (A6 E) as [[k P] [B C]]. exists k. auto.
  - eapply layout_size_lt; eassumption.
  - intros s Hs. exists (flat tg t s). rewrite (bytes_of_flat tg t s Hn Hs), (len_flat tg t s Hn Hs), (from_bytes_flat tg t s Hn Hs). auto.
  - intros bs Hl. destruct (from_bytes_total tg t bs Hn Hl) as [s [A [B C]]]. exists s.
    rewrite (bytes_of_flat tg t s Hn B), C. auto.
Qed.

Lemma metrics_mems tg l fields : Forall (fun f => lgood tg l (snd f)) fields -> metrics tg l fields = Some (mems tg l fields).
Proof.
  unfold metrics. induction 1 as [|[f u] fields G _ IH]; [reflexivity|]. rewrite map_opt_cons. cbn [snd] in *.
  rewrite (lgood_alN _ _ _ G), IH. reflexivity.
Qed.

(** C86.  A struct deriving a layout with such fields: ALIGNMENT is the largest of the fields'
    (at least 16 in std140), every field sits at the first suitable offset after the previous
    one, the size is the end of the last field rounded up to ALIGNMENT, and the compiler adds no
    padding of its own. *)
Lemma C86_derive_layout_proof : forall tg l name fields t,
  target_ok tg = true -> (forall f u, In (f, u) fields -> layout_type tg l u) ->
  derive_output tg l name fields = Some t ->
  exists ms, metrics tg l fields = Some ms
    /\ let A := fold_right N.max (match l with L140 => 16 | L430 => 0 end) (map fst ms) in
       std_align l t = Some A
       /\ map (fun f => assoc (fst f) (field_offsets tg t)) fields = map Some (starts 0 ms)
       /\ size_of tg t = next_aligned (extent 0 ms) A
       /\ (A = 0 \/ (A | size_of tg t))
       /\ (forall ln n al fs, t = TStruct ln n al fs ->
             contiguous 0 (map (fun nf => size_of tg (snd nf)) fs) (map snd (field_offsets tg t)) (size_of tg t)).
Proof.
  intros tg l name fields t Htg HF H.
  destruct (layout_derive_facts tg l name fields t Htg HF H) as [HG [-> [G [_ [Hnd [_ [Hs Hd2]]]]]]].
  exists (mems tg l fields). split; [now apply metrics_mems|].
  assert (EA : fold_right N.max match l with L140 => 16 | L430 => 0 end (map fst (mems tg l fields)) = struct_al l fields).
  { rewrite fold_max_base. unfold struct_al, mems. rewrite map_map. destruct l; reflexivity. }
  cbv zeta. rewrite EA. clear EA. apply lgood_nopad in G.
  split. { unfold derived. cbn [std_align]. now rewrite lay_eqb_refl. }
  split.
  { rewrite <- (gen_starts tg l (struct_al l fields) fields 0 0 (head_aligned_0 _ _ _) Hnd).
    unfold derived in *. apply map_ext. intros [f u]. cbn [fst]. now apply field_offsets_pos. }
  split; [|split; [exact Hd2|]].
  - rewrite Hs. rewrite <- (extent_gen tg l (struct_al l fields) fields 0 0 (head_aligned_0 _ _ _)). reflexivity.
  - intros ln n al fs E. rewrite E in *. rewrite (nopad_size_of _ _ _ _ _ G). rewrite nopad_struct in G.
    cbn [field_offsets]. rewrite map_snd_combine.
    2:{ rewrite repr_c_offsets_length, !map_length. reflexivity. }
    exact (nopad_contiguous tg _ fs 0 G).
Qed.

(** ** Nested parts *)

Lemma head_field_pos tg l fin fields : Forall (fun f => lgood tg l (snd f)) fields -> forall idx cur f u o,
  head_aligned l fin cur fields -> NoDup (map fst (gen_fields tg l fin idx cur fields)) ->
  In (f, u) fields -> field_pos tg cur (gen_fields tg l fin idx cur fields) f = Some o ->
  (alN l u = 0 \/ (alN l u | o)) /\ o + size_of tg u <= cur + sizes tg (gen_fields tg l fin idx cur fields).
Proof.
  induction 1 as [|[g w] fields G _ IH]; intros idx cur f u o Hh Hnd Hin Hp; [contradiction|].
  cbn [gen_fields field_pos sizes map fst snd] in *. rewrite size_pad in *.
  set (e := cur + size_of tg w) in *.
  set (p := align_offset e match fields with [] => fin | (_, x) :: _ => alN l x end) in *.
  inversion Hnd as [|? ? N1 N2]; subst. inversion N2 as [|? ? N3 N4]; subst.
  destruct (String.eqb_spec f g) as [->|Hne].
  - injection Hp as <-. destruct Hin as [E|Hin].
    + injection E as ->. cbn [head_aligned] in Hh. split; [tauto|]. unfold e. lia.
    + exfalso. apply N1. right. apply in_map_iff. exists (g, u). split; [reflexivity|]. now apply gen_fields_sub.
  - destruct Hin as [E|Hin]; [congruence|].
    destruct (String.eqb_spec f (pad_field_name idx)) as [->|Hne2].
    + exfalso. apply N3. apply in_map_iff. exists (pad_field_name idx, u). split; [reflexivity|]. now apply gen_fields_sub.
    + pose proof (head_aligned_next l fin e fields) as Hh'. fold p in Hh'.
      destruct (IH (S idx) (e + p) f u o Hh' N4 Hin Hp) as [A B]. split; [assumption|].
      unfold e in B |- *. lia.
Qed.

Lemma derived_part_facts tg l : target_ok tg = true -> forall t o u, derived_part tg l t o u -> layout_type tg l t ->
  lgood tg l u /\ lgood tg l t
  /\ (alN l u = 0 \/ (alN l u | o) /\ ((alN l u | alN l t) /\ alN l t <> 0))
  /\ o + size_of tg u <= size_of tg t.
Proof.
  intros Htg. induction 1 as [t|t o u El H0 _ IH|name fields t f u o o' v HF Hd Hin Ho _ IH]; intros Hl.
  - pose proof (layout_type_lgood tg l t Htg Hl) as G. split; [assumption|]. split; [assumption|]. split; [|lia].
    destruct (N.eq_dec (alN l t) 0); [now left|right]. split; [apply N.divide_0_r|]. split; [apply N.divide_refl|assumption].
  - subst l. destruct (IH H0) as [Gu [Gt [A B]]]. pose proof (layout_type_lgood tg L140 _ Htg Hl) as Gd.
    split; [assumption|]. split; [assumption|].
    change (size_of tg (TDyn t)) with (size_of tg t). split; [|assumption].
    destruct A as [A|[A1 [A2 A3]]]; [now left|right]. split; [assumption|].
    assert (E : alN L140 (TDyn t) = N.max 256 (alN L140 t)).
    { unfold alN. cbn [std_align]. rewrite (lgood_alN _ _ _ Gt). apply max_spec. }
    rewrite E. split; [|lia]. transitivity (alN L140 t); [assumption|].
    destruct (lgood_alN_pow2 _ _ _ Gt) as [Z|P]; [contradiction|].
    apply pow2_divide; [assumption| |lia]. apply pow2_max; [exact pow2_256|assumption].
  - specialize (IH (HF _ _ Hin)). destruct IH as [G [Gu [A B]]].
    destruct (layout_derive_facts tg l name fields t Htg HF Hd) as [HG [-> [Gt [_ [Hnd [_ [Hs Hd2]]]]]]].
    split; [assumption|]. split; [assumption|]. unfold derived in Ho.
    pose proof (lgood_nopad _ _ _ Gt) as Hn. unfold derived in Hn. rewrite (field_offsets_pos _ _ _ _ _ _ Hn) in Ho.
    destruct (head_field_pos tg l (struct_al l fields) fields HG 0 0 f u o (head_aligned_0 _ _ _) Hnd Hin Ho) as [C D].
    assert (Ea : alN l (derived tg l name fields) = struct_al l fields).
    { unfold alN, derived. cbn [std_align]. now rewrite lay_eqb_refl. }
    split.
    + destruct A as [A|[A [A2 A3]]]; [now left|right]. destruct C as [C|C]; [contradiction|].
      destruct (lstruct_al_divides tg l fields f u HG Hin) as [E|[E1 E2]]; [contradiction|]. rewrite Ea.
      split; [apply N.divide_add_r; [now transitivity (alN l u)|assumption]|]. split; [now transitivity (alN l u)|assumption].
    + rewrite Hs. rewrite N.add_0_l in D. unfold derived_fields. lia.
Qed.

(** C86.  Every part of such a struct, at any depth, is inside it, at a multiple of its own
    ALIGNMENT, and hence properly aligned for Rust too, in an aligned buffer. *)
Lemma C86_nested_alignment_proof : forall tg l t o u a,
  target_ok tg = true -> layout_type tg l t -> derived_part tg l t o u -> std_align l u = Some a ->
  aligned a o /\ o + size_of tg u <= size_of tg t
  /\ (size_of tg u <> 0 -> exists at_, std_align l t = Some at_ /\ (a | at_) /\ (align_of tg u | o)).
Proof.
  intros tg l t o u a Htg Hl Hp Ha. destruct (derived_part_facts tg l Htg t o u Hp Hl) as [Gu [Gt [A B]]].
  assert (Ea : alN l u = a) by (unfold alN; now rewrite Ha). rewrite Ea in A.
  split; [apply aligned_divide; tauto|]. split; [assumption|]. intros Hs.
  assert (a <> 0).
  { intros ->. destruct Gu as [a' [G1 [_ [_ [_ [G5 _]]]]]]. rewrite Ha in G1. injection G1 as <-. destruct (G5 eq_refl). contradiction. }
  destruct A as [A|[A1 [A2 _]]]; [contradiction|]. exists (alN l t). split; [now apply lgood_alN with (tg := tg)|]. split; [assumption|].
  destruct (lgood_align_divides _ _ _ Gu) as [E|[E _]]; [rewrite E; apply N.divide_1_l|]. rewrite Ea in E. now transitivity a.
Qed.

(** ** Sizer and Writer *)

(** C86.  [Sizer::add] at any layout type: the least multiple of ALIGNMENT that is at least [len()];
    with overflow checks it panics exactly when the end is not representable. *)
Lemma C86_sizer_proof : forall tg l t a s o,
  target_ok tg = true -> layout_type tg l t -> std_align l t = Some a ->
  sizer_len s < umod tg -> least_aligned a (sizer_len s) o ->
  (o + size_of tg t < umod tg ->
     exists s', sizer_add_std tg l t s = Some (Done (o, s')) /\ sizer_len s' = o + size_of tg t)
  /\ (t_checks tg = true -> umod tg <= o + size_of tg t -> sizer_add_std tg l t s = Some Panicked).
Proof.
  intros tg l t a s o Htg Hl Ha Hs Ho. apply least_aligned_spec in Ho. unfold sizer_len in *.
  unfold sizer_add_std, sizer_add_raw. rewrite Ha. unfold uadd. rewrite <- Ho. split.
  - intros Hlt. replace (o <? umod tg) with true by (symmetry; apply N.ltb_lt; lia).
    replace (o + size_of tg t <? umod tg) with true by (symmetry; apply N.ltb_lt; lia). eexists. split; reflexivity.
  - intros Hc Hge. rewrite Hc. destruct (N.ltb_spec o (umod tg)); [|reflexivity].
    destruct (N.ltb_spec (o + size_of tg t) (umod tg)); [lia|reflexivity].
Qed.

(** C86.  [Writer::write_stdN] and [Writer::write] at any layout type do what [Sizer::add] predicts, and deliver
    zeros up to the offset and then the bytes of the value. *)
Lemma C86_writer_proof : forall W tg l (wi : write_impl W) delivered t s a bs w sz o,
  target_ok tg = true -> lawful wi delivered -> infallible wi -> layout_type tg l t -> has_sty t s = true ->
  std_align l t = Some a -> bytes_of tg t s = Some bs -> sizer_len sz = writer_len w ->
  least_aligned a (writer_len w) o -> o + len bs < umod tg ->
  writer_write tg l wi w (WStd t s) = write_std tg l wi t s w
  /\ exists w' sz', write_std tg l wi t s w = (w', WOk o)
     /\ sizer_add_std tg l t sz = Some (Done (o, sz')) /\ sizer_len sz' = writer_len w' /\ writer_len w' = o + len bs
     /\ delivered (w_inner w') = (delivered (w_inner w) ++ repeat x00 (N.to_nat (o - writer_len w)) ++ bs)%list.
Proof.
  intros W tg l wi delivered t s a bs w sz o Htg Hlaw Hinf Hl Hs Ha Hb Hsz Ho Hlt.
  split; [reflexivity|].
  destruct (std_parts tg l t s Htg Hl Hs) as [E1 [E2 [E3 [E4 G]]]]. rewrite Ha in E2. injection E2 as E2. rewrite Hb in E3. injection E3 as E3.
  subst bs.
  destruct (write_val_exact tg l wi delivered (WStd t s) [(a, flat tg t s)] w Htg Hlaw Hinf) as [w' [A [B C]]].
  { split; assumption. }
  { rewrite E2. exact E1. }
  { apply least_aligned_spec in Ho. unfold writer_len in *. cbn [end_of]. rewrite Ho in Hlt. exact Hlt. }
  pose proof Ho as Ho'. apply least_aligned_spec in Ho'.
  destruct (C86_sizer_proof tg l t a sz o Htg Hl Ha) as [S _].
  { rewrite Hsz. lia. }
  { now rewrite Hsz. }
  rewrite <- E4 in S. destruct (S Hlt) as [sz' [S1 S2]].
  unfold writer_len, sizer_len in *. cbn [write_val] in A. exists w', sz'. cbn [end_of render ret_of placements map hd fst] in A, B, C.
  rewrite <- Ho' in A, B. split; [exact A|]. split; [exact S1|]. split; [congruence|]. split; [exact B|].
  rewrite C, app_nil_r. unfold zeros. do 4 f_equal. lia.
Qed.

(** ** Conversions of derived structs *)

Lemma vals_names (fields : list (string * sty)) (vals : list (string * sval)) :
  Forall2 (fun f v => fst f = fst v /\ has_sty (snd f) (snd v) = true) fields vals -> map fst vals = map fst fields.
Proof. induction 1 as [|f v fields vals [E _] _ IH]; [reflexivity|]. cbn [map]. now rewrite E, IH. Qed.

(** C86.  The derived [as_stdN] at such fields cannot fail, puts the bytes of every field's layout
    value at the field's offset and zeros everywhere else, and the derived [from_stdN] hands
    exactly these values back to the fields. *)
Lemma C86_conversion_proof : forall tg l name fields t vals,
  target_ok tg = true -> (forall f u, In (f, u) fields -> layout_type tg l u) ->
  derive_output tg l name fields = Some t ->
  Forall2 (fun f v => fst f = fst v /\ has_sty (snd f) (snd v) = true) fields vals ->
  exists s bs, derived_as tg l name fields vals = Some s /\ has_sty t s = true /\ bytes_of tg t s = Some bs
    /\ derived_from l name fields s = Some vals
    /\ (forall f u v, In (f, u) fields -> In (f, v) vals ->
          exists o b, assoc f (field_offsets tg t) = Some o /\ bytes_of tg u v = Some b /\ read_at bs o (len b) = Some b)
    /\ (forall i, i < size_of tg t ->
          (forall f u o, In (f, u) fields -> assoc f (field_offsets tg t) = Some o -> ~ (o <= i < o + size_of tg u)) ->
          byte_at bs i = Some x00).
Proof.
  intros tg l name fields t vals Htg HF Hd Hv. pose proof (vals_names _ _ Hv) as Hn.
  destruct (layout_derive_facts tg l name fields t Htg HF Hd) as [HG [Et [G [Hn1 [Hn2 [Has [Hs _]]]]]]].
  set (decl := derived_fields tg l fields) in *.
  assert (Hty : forall f u v, In (f, u) fields -> assoc f vals = Some v -> has_sty u v = true).
  { intros f u v Hin Hf. apply assoc_in in Hf. clear -Hin Hf Hv Hn1. revert Hin Hf Hn1.
    induction Hv as [|[g w] [g' x] fields vals [E1 E2] Hvs IH]; intros Hin Hf Hn1; [contradiction|]. cbn [fst snd] in *. subst g'.
    cbn [map fst] in Hn1. inversion Hn1 as [|? ? X1 X2]; subst. pose proof (vals_names _ _ Hvs) as Hn.
    destruct Hin as [E|Hin], Hf as [E'|Hf].
    - congruence.
    - injection E as -> ->. exfalso. apply X1. rewrite <- Hn. apply in_map_iff. exists (f, v). auto.
    - injection E' as -> ->. exfalso. apply X1. apply in_map_iff. exists (f, u). auto.
    - now apply IH. }
  exists (SRec (updated decl vals)).
  assert (Hnv : NoDup (map fst vals)) by now rewrite Hn.
  assert (Hsub : forall f, In f (map fst vals) -> In f (map fst decl)).
  { intros f Hin. rewrite Hn in Hin. apply in_map_iff in Hin. destruct Hin as [[f' u] [<- Hin]]. apply in_map_iff. exists (f', u). split; [reflexivity|].
    now apply gen_fields_sub. }
  assert (Hok : fields_ok decl (updated decl vals) = true).
  { apply updated_ok. intros f u v Hin Hf.
    assert (Hin' : In f (map fst fields)) by (rewrite <- Hn; apply in_map_iff; exists (f, v); split; [reflexivity|now apply assoc_in]).
    apply in_map_iff in Hin'. destruct Hin' as [[f' u'] [E Hin']]. cbn [fst] in E. subst f'.
    pose proof (Has f u' Hin') as E. rewrite (assoc_nodup f u decl Hn2 Hin) in E. injection E as <-. eapply Hty; eassumption. }
  assert (Hst : has_sty t (SRec (updated decl vals)) = true) by (rewrite Et; unfold derived; now rewrite has_sty_struct).
  pose proof (lgood_nopad _ _ _ G) as Hnp.
  assert (Eb : bytes_of tg t (SRec (updated decl vals)) = Some (flat_fields tg decl (updated decl vals))).
  { rewrite (bytes_of_flat tg t _ Hnp Hst). rewrite Et. unfold derived. now rewrite flat_struct. }
  assert (Hnp' : nopad tg (TStruct l (trait_name l ++ name) (struct_al l fields) decl) = true) by (rewrite Et in Hnp; exact Hnp).
  pose proof (nopad_all _ _ _ _ _ Hnp') as Hall.
  exists (flat_fields tg decl (updated decl vals)). split; [|split; [exact Hst|split; [exact Eb|split; [|split]]]].
  - unfold derived_as. rewrite Hd, derive_inits_eq, <- Hn, assoc_reorder by assumption. rewrite Et. now apply struct_update_eq.
  - unfold derived_from. rewrite derive_from_eq, <- Hn.
    assert (K : forall vs, (forall f v, In (f, v) vs -> assoc f (updated decl vals) = Some v) ->
      map_opt (fun f => match sfield f (SRec (updated decl vals)) with Some w => Some (f, w) | None => None end) (map fst vs) = Some vs).
    { induction vs as [|[f v] vs IH]; intros H; [reflexivity|]. cbn [map]. rewrite map_opt_cons. cbn [fst].
      change (sfield f (SRec (updated decl vals))) with (assoc f (updated decl vals)). rewrite (H f v (or_introl eq_refl)), IH; [reflexivity|]. intros; apply H; now right. }
    apply K. intros f v Hin. apply updated_assoc; [assumption| |now apply assoc_nodup].
    apply Hsub. apply in_map_iff. exists (f, v). auto.
  - intros f u v Hin Hinv. rewrite Et. unfold derived. fold decl. rewrite (field_offsets_pos _ _ _ _ _ _ Hnp').
    destruct (field_pos tg 0 decl f) as [o|] eqn:Ep.
    2:{ exfalso. pose proof (gen_starts tg l (struct_al l fields) fields 0 0 (head_aligned_0 _ _ _) Hn2) as K.
        assert (X : In (field_pos tg 0 (gen_fields tg l (struct_al l fields) 0 0 fields) f) (map Some (starts 0 (mems tg l fields)))).
        { rewrite <- K. apply in_map_iff. exists (f, u). auto. }
        apply in_map_iff in X. destruct X as [o [X _]]. unfold decl, derived_fields in Ep. congruence. }
    destruct (field_at tg decl (updated decl vals) 0 f o Ep Hall Hok) as [ft [x [F1 [F2 [F3 [_ [_ F6]]]]]]].
    rewrite (Has f u Hin) in F1. injection F1 as <-.
    assert (E : assoc f (updated decl vals) = Some v).
    { apply updated_assoc; [assumption| |now apply assoc_nodup]. apply Hsub. apply in_map_iff. exists (f, v). auto. }
    rewrite E in F2. injection F2 as <-.
    assert (Hnu : nopad tg u = true).
    { pose proof (proj1 (Forall_forall _ _) HG _ Hin) as Gu. exact (lgood_nopad _ _ _ Gu). }
    exists o, (flat tg u v). split; [reflexivity|]. split; [now apply bytes_of_flat|]. rewrite (len_flat tg u v Hnu F3).
    specialize (F6 (flat_fields tg decl (updated decl vals)) 0). rewrite !N.add_0_l in F6. apply F6.
    rewrite <- (len_flat_fields tg decl (updated decl vals) Hall Hok). apply read_at_all.
  - intros i Hi Hout. rewrite Hs in Hi.
    destruct (flat_fields_byte tg decl (updated decl vals) i Hall Hok Hn2 Hi) as [f [ft [x [o [B1 [B2 [B3 [B4 [B5 [B6 B7]]]]]]]]]].
    unfold byte_at. rewrite B7.
    destruct (updated_assoc_inv decl vals f ft x Hn2 B1 B2) as [E|[_ ->]].
    + exfalso. assert (Hin' : In f (map fst fields)) by (rewrite <- Hn; apply in_map_iff; exists (f, x); split; [reflexivity|now apply assoc_in]).
      apply in_map_iff in Hin'. destruct Hin' as [[f' u'] [E' Hin']]. cbn [fst] in E'. subst f'.
      pose proof (Has f u' Hin') as E2. rewrite (assoc_nodup f ft decl Hn2 B1) in E2. injection E2 as <-.
      apply (Hout f ft o Hin'); [|lia]. rewrite Et. unfold derived. fold decl. now rewrite (field_offsets_pos _ _ _ _ _ _ Hnp').
    + apply flat_zeroed_byte; [|lia]. exact (proj1 (Forall_forall _ _) Hall _ B1).
Qed.

(** C86.  The conversions of Host.v and Custom.v are these conversions, applied to the converted
    fields. *)
Lemma C86_same_code_proof : forall X tg l name (fs : list (string * xty X)) v outs vals,
  map_opt (fun nf => match x_out tg l (snd nf) with Some t => Some (fst nf, t) | None => None end) fs = Some outs ->
  map_opt (fun nf => match xfield (fst nf) v with
                     | Some w => match x_as tg l (snd nf) w with Some s => Some (fst nf, s) | None => None end
                     | None => None end) fs = Some vals ->
  x_as tg l (XStruct name fs) v = derived_as tg l name outs vals.
Proof.
  intros X tg l name fs v outs vals H1 H2. cbn [x_as]. rewrite H1, H2. unfold derived_as.
  destruct (derive_output tg l name outs); [|reflexivity].
  match goal with |- context [map_opt ?f ?xs] => now destruct (map_opt f xs) end.
Qed.

(** ** What the promises of a hand-written implementation are needed for *)

(** C86.  An ALIGNMENT that is not a power of two, here 12, is not respected by nested structs. *)
Definition odd12 : sty := TStruct L430 "Odd" 12 [("v", TArray PF32 3)].
Definition vec4_430 : sty := TStruct L430 "Vec4" 16 [("x", TPrim PF32); ("y", TPrim PF32); ("z", TPrim PF32); ("w", TPrim PF32)].
Definition odd_inner : sty := TStruct L430 "Std430Inner" 16 [("a", odd12); ("_pad0", TArray PU8 4); ("b", vec4_430); ("_pad1", TArray PU8 0)].
Definition odd_outer : sty := TStruct L430 "Std430Outer" 16 [("x", TPrim PU32); ("_pad0", TArray PU8 12); ("inner", odd_inner); ("_pad1", TArray PU8 0)].
Lemma C86_power_of_two_needed_refuted_proof :
  ~ (forall tg t name1 fields1 inner name2 fields2 outer f g o1 o2 a,
       target_ok tg = true ->
       (* all promises but "power of two" *)
       std_align L430 t = Some a -> a <> 0 -> a < umod tg -> (align_of tg t | a) -> size_of tg t < t_obj tg ->
       (forall s, has_sty t s = true -> exists bs, bytes_of tg t s = Some bs) ->
       (forall g v, In (g, v) fields1 -> v = t \/ layout_type tg L430 v) ->
       In (f, t) fields1 -> derive_output tg L430 name1 fields1 = Some inner ->
       (forall g v, In (g, v) fields2 -> v = inner \/ layout_type tg L430 v) ->
       In (g, inner) fields2 -> derive_output tg L430 name2 fields2 = Some outer ->
       assoc g (field_offsets tg outer) = Some o1 -> assoc f (field_offsets tg inner) = Some o2 ->
       aligned a (o1 + o2)).
Proof.
  intros H.
  specialize (H x86_64 odd12 "Inner" [("a", odd12); ("b", vec4_430)] odd_inner "Outer" [("x", TPrim PU32); ("inner", odd_inner)] odd_outer "a" "inner" 16 0 12).
  assert (B : aligned 12 (16 + 0)).
  { apply H; clear; try (lazymatch goal with |- forall _, _ => fail | _ => vm_compute; reflexivity end).
    - discriminate.
    - exists 3. reflexivity.
    - intros s Hs. eexists. apply bytes_of_flat; [reflexivity|exact Hs].
    - intros g v [E|[E|[]]]; injection E as <- <-; [now left|right]. apply lt_crate with (h := vec4f). vm_compute. reflexivity.
    - now left.
    - intros g v [E|[E|[]]]; injection E as <- <-; [right|now left]. apply lt_crate with (h := HPrim PU32). vm_compute. reflexivity.
    - right. now left. }
  apply aligned_divide in B. destruct B as [B|[k B]]; [discriminate|]. lia.
Qed.

(** C86.  An ALIGNMENT that is not a multiple of Rust's alignment, here 4 for a type that contains
    an [f64], makes the compiler add padding to a derived struct: its values have uninitialised bytes. *)
Definition wide4 : sty := TStruct L430 "Wide" 4 [("d", TPrim PF64)].
Lemma C86_rust_alignment_needed_refuted_proof :
  ~ (forall tg t name fields u f a k s,
       target_ok tg = true ->
       (* all promises but "a multiple of Rust's alignment" *)
       std_align L430 t = Some a -> a = 2 ^ k -> a < umod tg -> size_of tg t < t_obj tg ->
       (forall s, has_sty t s = true -> exists bs, bytes_of tg t s = Some bs) ->
       (forall g v, In (g, v) fields -> v = t \/ layout_type tg L430 v) ->
       In (f, t) fields -> derive_output tg L430 name fields = Some u -> has_sty u s = true ->
       exists bs, bytes_of tg u s = Some bs).
Proof.
  intros H.
  specialize (H x86_64 wide4 "S" [("a", TPrim PU32); ("w", wide4)]
    (TStruct L430 "Std430S" 4 [("a", TPrim PU32); ("_pad0", TArray PU8 0); ("w", wide4); ("_pad1", TArray PU8 0)])
    "w" 4 2 (zeroed (TStruct L430 "Std430S" 4 [("a", TPrim PU32); ("_pad0", TArray PU8 0); ("w", wide4); ("_pad1", TArray PU8 0)]))).
  destruct H as [bs H]; try (lazymatch goal with |- forall _, _ => fail | _ => vm_compute; reflexivity end).
  - intros s Hs. eexists. apply bytes_of_flat; [reflexivity|exact Hs].
  - intros g v [E|[E|[]]]; injection E as <- <-; [right|now left]. apply lt_crate with (h := HPrim PU32). reflexivity.
  - right. now left.
  - vm_compute in H. discriminate.
Qed.

(** C86: a 4x3 matrix stored as twelve floats, and a type that wants whole pages *)
Definition affine : sty := TStruct L140 "Affine" 16 [("rows", TArray PF32 12)].
Definition page : sty := TStruct L140 "Page" 4096 [("bytes", TArray PU8 100)].
Lemma affine_hand : hand_written x86_64 L140 affine /\ hand_written x86_64 L140 page.
Proof.
  split.
  - constructor; [exists 4|reflexivity|].
    + split; [reflexivity|]. split; [reflexivity|]. exists 4. reflexivity.
    + intros s Hs. eexists. apply bytes_of_flat; [reflexivity|exact Hs].
  - constructor; [exists 12|reflexivity|].
    + split; [reflexivity|]. split; [reflexivity|]. exists 4096. reflexivity.
    + intros s Hs. eexists. apply bytes_of_flat; [reflexivity|exact Hs].
Qed.
Definition frame_fields : list (string * sty) := [("id", TPrim PU32); ("view", affine); ("page", page)].
Definition frame_vals : list (string * sval) :=
  [("id", SBits 7); ("view", SRec [("rows", SArr (repeat f1_0 12))]); ("page", SRec [("bytes", SArr (repeat 255 100))])].
Lemma frame_types f u : In (f, u) frame_fields -> layout_type x86_64 L140 u.
Proof.
  destruct affine_hand as [A B]. intros [E|[E|[E|[]]]]; injection E as <- <-; [|now apply lt_hand|now apply lt_hand].
  apply lt_crate with (h := HPrim PU32). reflexivity.
Qed.
Lemma C86_ex_proof :
  (forall f u, In (f, u) frame_fields -> layout_type x86_64 L140 u)
  /\ exists t, derive_output x86_64 L140 "Frame" frame_fields = Some t
  /\ layout_type x86_64 L140 t /\ layout_type x86_64 L140 (TDyn t)
  /\ std_align L140 t = Some 4096 /\ size_of x86_64 t = 8192
  /\ map (fun f => assoc f (field_offsets x86_64 t)) ["id"; "view"; "page"] = [Some 0; Some 16; Some 4096]
  /\ Forall2 (fun f v => fst f = fst v /\ has_sty (snd f) (snd v) = true) frame_fields frame_vals
  /\ (exists s bs, derived_as x86_64 L140 "Frame" frame_fields frame_vals = Some s /\ bytes_of x86_64 t s = Some bs /\ len bs = 8192
        /\ wval_ok x86_64 L140 (WSeq [WStd affine (zeroed affine); WStd t s]))
  /\ derived_part x86_64 L140 (TDyn t) 16 affine.
Proof.
  split; [exact frame_types|].
  eassert (Hd : derive_output x86_64 L140 "Frame" frame_fields = Some _) by (vm_compute; reflexivity).
  eexists. split; [exact Hd|].
  pose proof (lt_derive _ _ _ _ _ frame_types Hd) as Hl.
  split; [exact Hl|]. split; [now apply lt_dyn|]. split; [vm_compute; reflexivity|]. split; [vm_compute; reflexivity|].
  split; [vm_compute; reflexivity|].
  assert (Hv : Forall2 (fun f v => fst f = fst v /\ has_sty (snd f) (snd v) = true) frame_fields frame_vals).
  { constructor; [split; vm_compute; reflexivity|]. constructor; [split; vm_compute; reflexivity|]. constructor; [split; vm_compute; reflexivity|constructor]. }
  split; [exact Hv|].
  destruct (C86_conversion_proof x86_64 L140 "Frame" frame_fields _ frame_vals eq_refl frame_types Hd Hv) as [s [bs [A [B [C _]]]]].
  split.
  - exists s, bs. split; [exact A|]. split; [exact C|]. split.
    + destruct (C86_closed_proof x86_64 L140 _ eq_refl Hl) as [_ [_ [K _]]]. destruct (K s B) as [bs' [K1 [K2 _]]]. rewrite C in K1. injection K1 as <-.
      rewrite K2. vm_compute. reflexivity.
    + split; [split; [apply lt_hand, affine_hand|vm_compute; reflexivity]|]. split; [split; assumption|exact I].
  - apply dp_dyn; [reflexivity|assumption|]. apply (dp_field _ _ _ _ _ "view" affine 16 0 _ frame_types Hd).
    + right. now left.
    + vm_compute. reflexivity.
    + apply dp_here.
Qed.
