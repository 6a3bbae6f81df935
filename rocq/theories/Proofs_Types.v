(** * Layout types, the derive macro and conversions *)

From Coq Require Import NArith String Bool List Lia ZArith.
From Coq Require Import ZifyBool ZifyN ZifyNat.
From Coq Require Import Strings.Byte.
From Verif Require Import Rust Internal Prims Derive Host Rows Cost SpecBuf SpecGlsl SpecHost SpecTypes SpecNumeral NumeralFacts
  Arith RustFacts DeriveFacts TypeFacts HostFacts GlslFacts PadFacts Samples.
Import ListNotations.
Local Open Scope string_scope.
Local Open Scope N_scope.

(** ** C14 *)

Lemma nopad_contiguous tg al fs : forall cur, nopad_fields tg al cur fs = true ->
  contiguous cur (map (fun nf => size_of tg (snd nf)) fs)
    (repr_c_offsets cur (map (fun nf => layout_of tg (snd nf)) fs)) (cur + sizes tg fs).
Proof.
  induction fs as [|[f t] fs IH]; intros cur H; cbn [nopad_fields map repr_c_offsets contiguous sizes snd] in *.
  - lia.
  - rewrite !andb_true_iff in H. destruct H as [[H1 H2] H3]. apply N.eqb_eq in H1.
    rewrite layout_of_eq, H1, N.add_0_r. split; [reflexivity|].
    replace (cur + (size_of tg t + sizes tg fs)) with (cur + size_of tg t + sizes tg fs) by lia. auto.
Qed.

Lemma map_snd_combine {A B} (a : list A) : forall (b : list B), length a = length b -> map snd (combine a b) = b.
Proof. induction a as [|x a IH]; intros [|y b] H; try discriminate; [reflexivity|]. cbn. f_equal. apply IH. now injection H. Qed.

Lemma repr_c_offsets_length fs : forall cur, length (repr_c_offsets cur fs) = length fs.
Proof. induction fs as [|[s a] fs IH]; intros cur; [reflexivity|]. cbn. now rewrite IH. Qed.

(** C14.  For every type that has a layout version: the [#[repr(C)]] layout of the
    generated (or built-in) struct has no compiler padding before, between or after
    its fields, and the memory of every value consists of initialised bytes only. *)
Lemma C14_no_implicit_padding_proof : forall tg l h t,
  target_ok tg = true -> out_ty tg l h = Some t ->
  (forall ln n al fs, t = TStruct ln n al fs ->
     contiguous 0 (map (fun nf => size_of tg (snd nf)) fs) (map snd (field_offsets tg t)) (size_of tg t))
  /\ (forall s, has_sty t s = true ->
        exists bs, mem_of tg t s = Some (map Some bs) /\ len bs = size_of tg t).
Proof.
  intros tg l h t Htg H. pose proof (out_ty_good tg Htg h l t H) as G. apply good_nopad in G. split.
  - intros ln n al fs ->. rewrite (nopad_size_of _ _ _ _ _ G). rewrite nopad_struct in G.
    cbn [field_offsets]. rewrite map_snd_combine.
    2:{ rewrite repr_c_offsets_length, !map_length. reflexivity. }
    exact (nopad_contiguous tg _ fs 0 G).
  - intros s Hs. destruct (flat_mem tg t s G Hs) as [A B]. eauto.
Qed.

(** ** C15, C16: offsets by path *)

Lemma index_of_nth f names k : index_of f names = Some k -> nth_error names (N.to_nat k) = Some f.
Proof.
  revert k. induction names as [|g r IH]; intros k H; cbn [index_of] in H; [discriminate|].
  destruct (String.eqb_spec f g) as [->|_].
  - injection H as <-. reflexivity.
  - destruct (index_of f r) as [j|]; [|discriminate]. assert (E : k = 1 + j) by congruence.
    rewrite E, N2Nat.inj_add. change (N.to_nat 1) with 1%nat. cbn [Nat.add nth_error]. now apply IH.
Qed.

Definition path_ok (tg : target) (h : hty) : Prop := forall l t g path o g',
  out_ty tg l h = Some t -> gty_of h = Some g -> gpath_offset l g path = Some (o, g') ->
  exists u, path_offset tg t path = Some (o, u) /\ size_of tg u = gsize l g' /\ std_align l u = Some (base_align l g').

Lemma path_nil tg l h t g : target_ok tg = true -> out_ty tg l h = Some t -> gty_of h = Some g ->
  size_of tg t = gsize l g /\ std_align l t = Some (base_align l g).
Proof.
  intros Htg Ho Hg. destruct (size_align_glsl tg Htg h l t g Ho Hg) as [E1 [E2 _]].
  rewrite (good_alN _ _ _ (out_ty_good tg Htg h l t Ho)). split; [assumption|congruence].
Qed.

Lemma combine_assoc_Forall2 {B} (f : string) (Q : string -> B -> Prop) : forall (ns : list string) (os : list B) o,
  Forall2 Q ns os -> assoc f (combine ns os) = Some o -> Q f o.
Proof.
  intros ns os o H. induction H as [|n o' ns os Hq _ IH]; intros E; [discriminate|].
  cbn [combine] in E. rewrite assoc_cons in E. destruct (String.eqb_spec f n) as [->|_]; [|auto].
  injection E as <-. exact Hq.
Qed.

Lemma path_all tg : target_ok tg = true -> forall h, path_ok tg h.
Proof.
  intros Htg. induction h as [p| |r s fs IH|r m IH|h IH|n fs IH|l' h IH] using hty_ind'; intros l t g path o g' Ho Hg Hp;
    (destruct path as [|f path]; [injection Hp as <- <-; exists t; split; [reflexivity|]; eapply path_nil; eassumption|]).
  - cbn [gty_of] in Hg. destruct (prim_gscalar p); [|discriminate]. injection Hg as <-. discriminate.
  - cbn [gty_of] in Hg. injection Hg as <-. discriminate.
  - destruct (easy_facts _ _ _ _ _ _ Ho) as [outs [ln [n [al [decl [E1 [E2 [Et [Hn [Hnd Hd]]]]]]]]]].
    destruct (gty_of_HEasy _ _ _ _ Hg) as [gs [Eg [Hgs [Hc _]]]].
    destruct (table_shape tg l s g t Htg Eg E1) as [n' [al' [decl' [Et' [Eal [Esz [Hvm [_ [_ Hpos]]]]]]]]].
    rewrite Et in Et'. injection Et' as -> -> -> ->.
    assert (Hstep : exists k, index_of f (firstn (ncomps g) comp_names) = Some k
              /\ match gpath_offset l (cgty g) path with
                 | Some (o', g'') => Some (k * cstride l g + o', g'') | None => None end = Some (o, g')).
    { destruct g; try discriminate Hvm; cbn [gpath_offset] in Hp; cbn [ncomps cgty cstride].
      - destruct (index_of f (firstn n comp_names)) as [k|]; [|discriminate]. exists k. split; [reflexivity|exact Hp].
      - destruct (index_of f (firstn cols comp_names)) as [k|]; [|discriminate]. exists k. split; [reflexivity|exact Hp]. }
    destruct Hstep as [k [Hk Hrest]].
    destruct (gpath_offset l (cgty g) path) as [[o' g'']|] eqn:Ep; [|discriminate]. injection Hrest as <- <-.
    pose proof (index_of_nth _ _ _ Hk) as Hnth.
    pose proof (Hpos _ _ Hnth) as Hfp. rewrite N2Nat.id in Hfp.
    destruct (Hc f (nth_error_In _ _ Hnth)) as [gc [Hgc Hcomp]].
    destruct (is_comp_eq _ _ Hcomp) as [-> _].
    (* the field's host type *)
    apply gfields_Forall2 in Hgs.
    destruct (Forall2_assoc_r (fun h g => gty_of h = Some g) fs gs f (cgty g) Hgs Hgc) as [hf [Hhf Hghf]].
    apply out_fields_Forall2 in E2.
    destruct (Forall2_assoc (fun h t => out_ty tg l h = Some t) fs outs f hf E2 Hhf) as [tf [Htf Hotf]].
    assert (Hdf : assoc f decl' = Some tf) by (apply Hd; now apply assoc_in).
    pose proof (proj1 (Forall_forall _ _) IH _ (assoc_in _ _ _ Hhf)) as IHf. cbn [snd] in IHf.
    destruct (IHf l tf (cgty g) path o' g'' Hotf Hghf Ep) as [u [Hu1 [Hu2 Hu3]]].
    exists u. split; [|split; assumption].
    assert (G : nopad tg t = true) by (eapply good_nopad, out_ty_good; eassumption).
    rewrite Et in G |- *. cbn [path_offset]. rewrite (field_offsets_pos _ _ _ _ _ _ G), Hfp, Hdf, Hu1. reflexivity.
  - cbn [out_ty gty_of] in *. exact (IH l t g (f :: path) o g' Ho Hg Hp).
  - discriminate.
  - destruct (struct_members tg l n fs t g Htg Ho Hg) as [outs [gs [E [Egs [-> [Et [Hn [Hnd [Hd [HG [Hsz Hpos]]]]]]]]]]].
    cbn [gpath_offset] in Hp.
    destruct (assoc f (combine (map fst gs) (goffsets l gs))) as [of|] eqn:Eo; [|discriminate].
    destruct (assoc f gs) as [gf|] eqn:Egf; [|discriminate].
    destruct (gpath_offset l gf path) as [[o' g'']|] eqn:Ep; [|discriminate]. injection Hp as <- <-.
    assert (Hfp : field_pos tg 0 (derived_fields tg l outs) f = Some of).
    { apply (combine_assoc_Forall2 f (fun n o => field_pos tg 0 (derived_fields tg l outs) n = Some o) (map fst gs) (goffsets l gs)); [|exact Eo].
      clear - Hpos. induction Hpos; constructor; assumption. }
    apply gfields_Forall2 in Egs.
    destruct (Forall2_assoc_r (fun h g => gty_of h = Some g) fs gs f gf Egs Egf) as [hf [Hhf Hghf]].
    pose proof E as E2. apply out_fields_Forall2 in E2.
    destruct (Forall2_assoc (fun h t => out_ty tg l h = Some t) fs outs f hf E2 Hhf) as [tf [Htf Hotf]].
    pose proof (Hd f tf (assoc_in _ _ _ Htf)) as Hdf.
    pose proof (proj1 (Forall_forall _ _) IH _ (assoc_in _ _ _ Hhf)) as IHf. cbn [snd] in IHf.
    destruct (IHf l tf gf path o' g'' Hotf Hghf Ep) as [u [Hu1 [Hu2 Hu3]]].
    exists u. split; [|split; assumption].
    assert (G : nopad tg t = true) by (eapply good_nopad, out_ty_good; eassumption).
    rewrite Et in G |- *. unfold derived in G |- *. cbn [path_offset].
    rewrite (field_offsets_pos _ _ _ _ _ _ G), Hfp, Hdf, Hu1. reflexivity.
  - destruct (out_ty_HOut _ _ _ _ _ Ho) as [A _]. cbn [gty_of] in Hg. exact (IH l t g (f :: path) o g' A Hg Hp).
Qed.

(** C15.  In std140, whatever part of the GLSL type a path of names denotes (a
    member, a member of a member, a matrix column, a vector component, ...), the
    Rust path of the same names exists in the generated struct and has the offset,
    size and alignment the std140 rules give. *)
Lemma C15_std140_offsets_proof : forall tg h t g path o g',
  target_ok tg = true -> out_ty tg L140 h = Some t -> gty_of h = Some g ->
  gpath_offset L140 g path = Some (o, g') ->
  exists u, path_offset tg t path = Some (o, u)
    /\ size_of tg u = gsize L140 g' /\ std_align L140 u = Some (base_align L140 g').
Proof. intros tg h t g path o g' Htg Ho Hg Hp. exact (path_all tg Htg h L140 t g path o g' Ho Hg Hp). Qed.

(** C16.  The same for std430. *)
Lemma C16_std430_offsets_proof : forall tg h t g path o g',
  target_ok tg = true -> out_ty tg L430 h = Some t -> gty_of h = Some g ->
  gpath_offset L430 g path = Some (o, g') ->
  exists u, path_offset tg t path = Some (o, u)
    /\ size_of tg u = gsize L430 g' /\ std_align L430 u = Some (base_align L430 g').
Proof. intros tg h t g path o g' Htg Ho Hg Hp. exact (path_all tg Htg h L430 t g path o g' Ho Hg Hp). Qed.

(** ** C17 *)

Lemma next_aligned_eq x a : next_aligned x a = x + align_offset x a.
Proof.
  unfold next_aligned. destruct (N.eqb_spec a 0) as [->|H].
  - unfold align_offset. rewrite N.eqb_refl. cbn. lia.
  - apply round_up_align_offset. lia.
Qed.

Lemma next_aligned_id x a : a = 0 \/ (a | x) -> next_aligned x a = x.
Proof.
  intros H. unfold next_aligned. destruct (N.eqb_spec a 0) as [->|Hn]; [reflexivity|].
  destruct H as [H|H]; [contradiction|]. apply round_up_aligned; [lia|assumption].
Qed.

Definition mems (tg : target) (l : lay) (outs : list (string * sty)) : list (N * N) :=
  map (fun o => (alN l (snd o), size_of tg (snd o))) outs.

Lemma extent_gen tg l fin outs : forall idx cur, head_aligned l fin cur outs ->
  cur + sizes tg (gen_fields tg l fin idx cur outs) = next_aligned (extent cur (mems tg l outs)) fin.
Proof.
  induction outs as [|[f t] outs IH]; intros idx cur Hh.
  - cbn [gen_fields sizes mems map extent]. rewrite N.add_0_r. symmetry. now apply next_aligned_id.
  - cbn [gen_fields sizes mems map extent snd]. rewrite size_pad.
    rewrite (next_aligned_id cur) by exact Hh.
    set (e := cur + size_of tg t) in *.
    set (p := align_offset e match outs with [] => fin | (_, u) :: _ => alN l u end).
    pose proof (head_aligned_next l fin e outs) as Hh'. fold p in Hh'.
    specialize (IH (S idx) (e + p) Hh').
    replace (cur + (size_of tg t + (p + sizes tg (gen_fields tg l fin (S idx) (e + p) outs))))
      with (e + p + sizes tg (gen_fields tg l fin (S idx) (e + p) outs)) by (unfold e; lia).
    rewrite IH. fold (mems tg l outs).
    destruct outs as [|[f2 t2] outs].
    + cbn [mems map extent]. unfold p. rewrite <- next_aligned_eq. apply next_aligned_id.
      rewrite next_aligned_eq. destruct (align_offset_divide e fin); auto.
    + cbn [mems map extent snd]. do 3 f_equal. unfold p.
      rewrite (next_aligned_id (e + align_offset e (alN l t2))); [now rewrite next_aligned_eq|].
      destruct (align_offset_divide e (alN l t2)); auto.
Qed.

Lemma gen_starts tg l fin outs : forall idx cur,
  head_aligned l fin cur outs -> NoDup (map fst (gen_fields tg l fin idx cur outs)) ->
  map (fun o => field_pos tg cur (gen_fields tg l fin idx cur outs) (fst o)) outs
  = map Some (starts cur (mems tg l outs)).
Proof.
  induction outs as [|[f t] outs IH]; intros idx cur Hh Hnd; [reflexivity|].
  cbn [gen_fields mems map starts snd fst] in *.
  rewrite (next_aligned_id cur) by exact Hh.
  set (e := cur + size_of tg t) in *.
  set (p := align_offset e match outs with [] => fin | (_, u) :: _ => alN l u end) in *.
  pose proof (head_aligned_next l fin e outs) as Hh'. fold p in Hh'.
  inversion Hnd as [|? ? N1 N2]; subst. inversion N2 as [|? ? N3 N4]; subst.
  specialize (IH (S idx) (e + p) Hh' N4).
  f_equal.
  { cbn [field_pos]. now rewrite String.eqb_refl. }
  fold (mems tg l outs).
  assert (Hs : starts e (mems tg l outs) = starts (e + p) (mems tg l outs)).
  { destruct outs as [|[f2 t2] outs]; [reflexivity|]. cbn [mems map starts snd].
    assert (Hq : next_aligned e (alN l t2) = next_aligned (e + p) (alN l t2)).
    { unfold p. rewrite (next_aligned_id (e + align_offset e (alN l t2))); [now rewrite next_aligned_eq|].
      destruct (align_offset_divide e (alN l t2)); auto. }
    now rewrite Hq. }
  rewrite Hs, <- IH.
  assert (Hin : forall o, In o outs -> In (fst o) (map fst (gen_fields tg l fin (S idx) (e + p) outs))).
  { intros [f2 t2] Hin. apply in_map_iff. exists (f2, t2). split; [reflexivity|]. now apply gen_fields_sub. }
  apply map_ext_in. intros o Ho. cbn [field_pos]. rewrite size_pad.
  destruct (String.eqb_spec (fst o) f) as [E|_].
  { exfalso. apply N1. right. rewrite <- E. now apply Hin. }
  destruct (String.eqb_spec (fst o) (pad_field_name idx)) as [E|_].
  { exfalso. apply N3. rewrite <- E. now apply Hin. }
  reflexivity.
Qed.

Lemma field_metrics_mems tg l fs outs : target_ok tg = true -> out_fields tg l fs = Some outs ->
  field_metrics tg l fs = Some (mems tg l outs).
Proof.
  intros Htg H. apply out_fields_Forall2 in H. unfold field_metrics. apply map_opt_Forall2.
  induction H as [|[f h] [g u] fs outs [E1 E2] _ IH]; cbn [mems map]; constructor; [|assumption].
  cbn [fst snd] in *. unfold out_align, std_size_static. rewrite E2.
  now rewrite (good_alN _ _ _ (out_ty_good tg Htg h l u E2)).
Qed.

Lemma fold_max_base a xs : fold_right N.max a xs = N.max a (fold_right N.max 0 xs).
Proof. induction xs as [|x xs IH]; cbn [fold_right]; [lia|]. rewrite IH. lia. Qed.

(** C17.  The ALIGNMENT of a derived struct is the largest ALIGNMENT of its fields (at
    least 16 in std140), its fields sit at the first suitably aligned offsets, and
    its size is the end of the last field rounded up to ALIGNMENT. *)
Lemma C17_size_and_alignment_proof : forall tg l name fs t,
  target_ok tg = true -> out_ty tg l (HStruct name fs) = Some t ->
  exists ms, field_metrics tg l fs = Some ms
    /\ let A := fold_right N.max (match l with L140 => 16 | L430 => 0 end) (map fst ms) in
       std_align l t = Some A
       /\ map (fun nf => assoc (fst nf) (field_offsets tg t)) fs = map Some (starts 0 ms)
       /\ size_of tg t = next_aligned (extent 0 ms) A
       /\ (A = 0 \/ (A | size_of tg t)).
Proof.
  intros tg l name fs t Htg H.
  destruct (struct_facts _ _ _ _ _ Htg H) as [outs [E [Hn [Hnd [Hd [HG ->]]]]]].
  exists (mems tg l outs). split; [now apply field_metrics_mems|].
  assert (EA : fold_right N.max match l with L140 => 16 | L430 => 0 end (map fst (mems tg l outs)) = struct_al l outs).
  { rewrite fold_max_base. unfold struct_al, mems. rewrite map_map. destruct l; reflexivity. }
  cbv zeta. rewrite EA. clear EA.
  destruct (derived_props tg l name outs HG) as [G [Hs Hd2]].
  split. { unfold derived. cbn [std_align]. now rewrite lay_eqb_refl. }
  split.
  { rewrite <- (gen_starts tg l (struct_al l outs) outs 0 0 (head_aligned_0 _ _ _) Hnd).
    apply good_nopad in G. unfold derived in *.
    replace (map (fun nf : string * hty => assoc (fst nf) (field_offsets tg (TStruct l (trait_name l ++ name) (struct_al l outs) (derived_fields tg l outs)))) fs)
      with (map (fun f => assoc f (field_offsets tg (TStruct l (trait_name l ++ name) (struct_al l outs) (derived_fields tg l outs)))) (map fst fs))
      by (now rewrite map_map).
    rewrite <- (out_fields_names _ _ _ _ E), map_map. apply map_ext. intros [f u]. cbn [fst].
    now apply field_offsets_pos. }
  split; [|exact Hd2].
  rewrite Hs. rewrite <- (extent_gen tg l (struct_al l outs) outs 0 0 (head_aligned_0 _ _ _)). reflexivity.
Qed.

(** C17, against GLSL: ALIGNMENT is the base alignment, the size is the space the
    structure occupies (including trailing padding), and it is a multiple of the
    alignment (of 16 in std140). *)
Lemma C17_glsl_size_and_alignment_proof : forall tg l name fs t g,
  target_ok tg = true -> out_ty tg l (HStruct name fs) = Some t -> gty_of (HStruct name fs) = Some g ->
  std_align l t = Some (base_align l g) /\ size_of tg t = gsize l g
  /\ (base_align l g | size_of tg t) /\ (l = L140 -> (16 | size_of tg t)).
Proof.
  intros tg l name fs t g Htg H Hg. destruct (path_nil tg l _ t g Htg H Hg) as [E1 E2].
  destruct (size_align_glsl tg Htg _ l t g H Hg) as [_ [_ P]].
  destruct (C17_size_and_alignment_proof tg l name fs t Htg H) as [ms [_ [A1 [_ [_ A4]]]]].
  rewrite A1 in E2. injection E2 as E2. rewrite E2 in A1, A4. split; [assumption|]. split; [assumption|].
  assert (D : (base_align l g | size_of tg t)).
  { destruct A4 as [A4|A4]; [|assumption]. apply pow2_pos in P. lia. }
  split; [assumption|]. intros ->. transitivity (base_align L140 g); [|assumption].
  apply pow2_divide; [exists 4; reflexivity|assumption|]. rewrite <- E2, fold_max_base. lia.
Qed.

(** ** C18 *)

Lemma derive_env l name fields g : emit l (DeriveInput name [] (DNamed fields)) = Some g ->
  g_pads g = pad_env l name fields /\ g_fields g = gen_gfields l name 0 fields.
Proof. rewrite emit_eq. intros H. injection H as <-. split; reflexivity. Qed.

Lemma ceval_no_fuel_aux tg l name fields : (forall k fuel, (k <= fuel)%nat -> (k <= length fields)%nat ->
    ceval tg l (pad_env l name fields) fuel (prefix_expr l name fields k) <> CFuel)
  /\ (forall k fuel, (k <= fuel)%nat -> (k < length fields)%nat ->
    ceval tg l (pad_env l name fields) fuel (pad_body l name fields k) <> CFuel).
Proof.
  assert (Hsa : forall fuel, ceval tg l (pad_env l name fields) fuel (struct_alignment l fields) <> CFuel).
  { intros fuel. destruct (Forall_dec (fun f : string * sty => exists a, std_align l (snd f) = Some a)
                  ltac:(intros [f u]; cbn [snd]; destruct (std_align l u); [left; eauto|right; intros [a Ha]; discriminate])
                  fields) as [Hal|Hal].
    - rewrite ceval_struct_alignment by exact Hal. discriminate.
    - rewrite ceval_struct_alignment_unaligned by exact Hal. discriminate. }
  assert (Hbody : forall k fuel, ceval tg l (pad_env l name fields) fuel (prefix_expr l name fields k) <> CFuel ->
            ceval tg l (pad_env l name fields) fuel (pad_body l name fields k) <> CFuel).
  { intros k fuel Hp. unfold pad_body. rewrite ceval_CAlignOffset, ceval_CAdd, ceval_CSizeOf.
    destruct (ceval tg l (pad_env l name fields) fuel (prefix_expr l name fields k)); try (cbn [cbind]; congruence).
    cbn [cbind]. destruct (_ <? _); [|discriminate]. cbn [cbind].
    destruct (nth_error fields (k + 1)) as [f|].
    - rewrite ceval_CAlignOf. destruct (std_align l (snd f)); discriminate.
    - specialize (Hsa fuel). destruct (ceval tg l (pad_env l name fields) fuel (struct_alignment l fields)); cbn [cbind]; congruence. }
  assert (Hpre : forall k fuel, (k <= fuel)%nat -> (k <= length fields)%nat ->
    ceval tg l (pad_env l name fields) fuel (prefix_expr l name fields k) <> CFuel).
  { induction k as [k IHk] using (well_founded_induction lt_wf). intros fuel Hf Hn.
    destruct k as [|j]; [destruct fuel; discriminate|].
    cbn [prefix_expr]. rewrite !ceval_CAdd, ceval_CSizeOf.
    pose proof (IHk j ltac:(lia) fuel ltac:(lia) ltac:(lia)) as Hp.
    destruct (ceval tg l (pad_env l name fields) fuel (prefix_expr l name fields j)) as [x| | |]; try (cbn [cbind]; congruence).
    cbn [cbind]. destruct (_ <? _); [|discriminate]. cbn [cbind].
    destruct fuel as [|fuel]; [lia|]. rewrite ceval_CCall by lia.
    pose proof (Hbody j fuel (IHk j ltac:(lia) fuel ltac:(lia) ltac:(lia))) as Hb.
    destruct (ceval tg l (pad_env l name fields) fuel (pad_body l name fields j)); try (cbn [cbind]; congruence).
    cbn [cbind]. destruct (_ <? _); discriminate. }
  split; [exact Hpre|]. intros k fuel Hf Hn. apply Hbody, Hpre; lia.
Qed.

(** C18.  Calling the padding function of field [i] never nests more than [i + 1]
    calls deep, for any struct (accepted or not): with that much call depth the
    evaluation always ends. *)
Lemma C18_padding_terminates_proof : forall tg l name fields g i fuel,
  emit l (DeriveInput name [] (DNamed fields)) = Some g ->
  (i < length fields)%nat -> (i < fuel)%nat ->
  ceval tg l (g_pads g) fuel (CCall (pad_fn_name l name i)) <> CFuel.
Proof.
  intros tg l name fields g i fuel Hg Hi Hf. destruct (derive_env _ _ _ _ Hg) as [-> _].
  destruct fuel as [|fuel]; [lia|]. rewrite ceval_CCall by exact Hi.
  apply ceval_no_fuel_aux; lia.
Qed.

Lemma nth_starts tg l fields : forall i, (i < length fields)%nat ->
  all_aligned l fields ->
  nth_error (starts 0 (mems tg l fields)) i = Some (start tg l fields i).
Proof.
  intros i Hi _.
  assert (G : forall (suf pre : list (string * sty)), fields = (pre ++ suf)%list ->
     forall j, (j < length suf)%nat ->
     nth_error (starts (start tg l fields (length pre)) (mems tg l suf)) j = Some (start tg l fields (length pre + j))).
  { induction suf as [|[f t] suf IH]; intros pre E j Hj; [cbn in Hj; lia|].
    cbn [mems map starts snd]. fold (mems tg l suf).
    assert (Hty : ty_at fields (length pre) = t).
    { unfold ty_at. rewrite E, nth_error_app2, Nat.sub_diag by lia. reflexivity. }
    assert (Hs0 : next_aligned (start tg l fields (length pre)) (alN l t) = start tg l fields (length pre)).
    { apply next_aligned_id. destruct (length pre) as [|k] eqn:El.
      - cbn [start]. right. apply N.divide_0_r.
      - rewrite start_S. unfold pad.
        assert (Hna : next_al l fields k = alN l t).
        { unfold next_al. rewrite E, nth_error_app2 by lia.
          replace (k + 1 - length pre)%nat with 0%nat by lia. reflexivity. }
        rewrite Hna. destruct (align_offset_divide (fend tg l fields k) (alN l t)); auto. }
    rewrite Hs0. destruct j as [|j]; [cbn [nth_error]; now rewrite Nat.add_0_r|].
    cbn [nth_error].
    assert (E' : fields = ((pre ++ [(f, t)]) ++ suf)%list) by (rewrite <- app_assoc; exact E).
    specialize (IH _ E' j ltac:(cbn in Hj; lia)). rewrite app_length in IH. cbn [length] in IH.
    replace (length pre + S j)%nat with (length pre + 1 + j)%nat by lia. rewrite <- IH.
    replace (length pre + 1)%nat with (S (length pre)) by lia.
    rewrite start_S. unfold fend. rewrite Hty.
    destruct suf as [|[f2 t2] suf]; [cbn in Hj; lia|]. cbn [mems map starts snd].
    set (e := start tg l fields (length pre) + size_of tg t).
    assert (Hp : pad tg l fields (length pre) = align_offset e (alN l t2)).
    { unfold pad, fend. rewrite Hty. fold e. unfold next_al.
      rewrite E, nth_error_app2 by lia. replace (length pre + 1 - length pre)%nat with 1%nat by lia. reflexivity. }
    rewrite Hp.
    rewrite (next_aligned_id (e + align_offset e (alN l t2))).
    2:{ destruct (align_offset_divide e (alN l t2)); auto. }
    now rewrite next_aligned_eq. }
  exact (G fields [] eq_refl i Hi).
Qed.

Lemma extent_fend tg l fields i : all_aligned l fields -> length fields = S i ->
  extent 0 (mems tg l fields) = fend tg l fields i.
Proof.
  intros _ Hlen.
  assert (G : forall (suf pre : list (string * sty)), fields = (pre ++ suf)%list -> suf <> [] ->
     extent (start tg l fields (length pre)) (mems tg l suf) = fend tg l fields i).
  { induction suf as [|[f t] suf IH]; intros pre E Hne; [congruence|].
    cbn [mems map extent snd]. fold (mems tg l suf).
    assert (Hty : ty_at fields (length pre) = t).
    { unfold ty_at. rewrite E, nth_error_app2, Nat.sub_diag by lia. reflexivity. }
    assert (Hs0 : next_aligned (start tg l fields (length pre)) (alN l t) = start tg l fields (length pre)).
    { apply next_aligned_id. destruct (length pre) as [|k] eqn:El.
      - cbn [start]. right. apply N.divide_0_r.
      - rewrite start_S. unfold pad.
        assert (Hna : next_al l fields k = alN l t).
        { unfold next_al. rewrite E, nth_error_app2 by lia.
          replace (k + 1 - length pre)%nat with 0%nat by lia. reflexivity. }
        rewrite Hna. destruct (align_offset_divide (fend tg l fields k) (alN l t)); auto. }
    rewrite Hs0.
    destruct suf as [|[f2 t2] suf].
    - cbn [mems map extent]. rewrite E, app_length in Hlen. cbn [length] in Hlen.
      replace i with (length pre) by lia. unfold fend. now rewrite Hty.
    - assert (E' : fields = ((pre ++ [(f, t)]) ++ (f2, t2) :: suf)%list) by (rewrite <- app_assoc; exact E).
      rewrite <- (IH _ E' ltac:(discriminate)). rewrite app_length. cbn [length].
      replace (length pre + 1)%nat with (S (length pre)) by lia.
      rewrite start_S. unfold fend at 1. rewrite Hty. cbn [mems map extent snd].
      set (e := start tg l fields (length pre) + size_of tg t).
      assert (Hp : pad tg l fields (length pre) = align_offset e (alN l t2)).
      { unfold pad, fend. rewrite Hty. fold e. unfold next_al.
        rewrite E, nth_error_app2 by lia. replace (length pre + 1 - length pre)%nat with 1%nat by lia. reflexivity. }
      rewrite Hp. rewrite (next_aligned_id (e + align_offset e (alN l t2))).
      2:{ destruct (align_offset_divide e (alN l t2)); auto. }
      now rewrite next_aligned_eq. }
  destruct fields as [|f0 fields]; [discriminate|]. exact (G (f0 :: fields) [] eq_refl ltac:(discriminate)).
Qed.

Lemma out_fields_aligned tg l fs outs : target_ok tg = true -> out_fields tg l fs = Some outs -> all_aligned l outs.
Proof.
  intros Htg H. apply out_fields_Forall2 in H. induction H as [|[f h] [g u] fs outs [E1 E2] _ IH]; constructor; [|assumption].
  cbn [snd] in *. exists (alN l u). apply (good_alN tg). eapply out_ty_good; eassumption.
Qed.

(** C18.  In an accepted struct the padding function of field [i] returns the
    distance from the end of field [i] to the start of field [i + 1], or to the end
    of the struct if [i] is the last field. *)
Lemma C18_padding_value_proof : forall tg l name fs t outs g i fuel oi si,
  target_ok tg = true -> out_ty tg l (HStruct name fs) = Some t ->
  map_opt (fun nf => match out_ty tg l (snd nf) with Some u => Some (fst nf, u) | None => None end) fs = Some outs ->
  emit l (DeriveInput name [] (DNamed outs)) = Some g ->
  (i < length fs)%nat -> (i < fuel)%nat ->
  nth_error (map (fun nf => assoc (fst nf) (field_offsets tg t)) fs) i = Some (Some oi) ->
  nth_error (map (fun nf => std_size_static tg l (snd nf)) fs) i = Some (Some si) ->
  exists n, ceval tg l (g_pads g) fuel (CCall (pad_fn_name l name i)) = CVal n
    /\ match nth_error (map (fun nf => assoc (fst nf) (field_offsets tg t)) fs) (S i) with
       | Some o' => o' = Some (oi + si + n)
       | None => size_of tg t = oi + si + n
       end.
Proof.
  intros tg l name fs t outs0 g i fuel oi si Htg Ho Houts0 Hg Hi Hf Hoi Hsi.
  destruct (derive_env _ _ _ _ Hg) as [-> _]. fold (out_fields tg l fs) in Houts0.
  destruct (C17_size_and_alignment_proof tg l name fs t Htg Ho) as [ms [Em [A1 [A2 [A3 _]]]]].
  destruct (struct_facts _ _ _ _ _ Htg Ho) as [outs [E [Hn [Hnd [Hd [HG Et]]]]]].
  rewrite E in Houts0. injection Houts0 as <-.
  rewrite (field_metrics_mems tg l fs outs Htg E) in Em. injection Em as <-.
  pose proof (out_fields_aligned tg l fs outs Htg E) as Hal.
  assert (Hlen : length outs = length fs) by (unfold out_fields in E; now apply map_opt_Some_length in E).
  destruct (target_umod tg Htg) as [Hobj Hum].
  rewrite ceval_pad by (try assumption; lia).
  assert (Hsz : size_of tg t < t_obj tg).
  { destruct (out_ty_HStruct_inv _ _ _ _ _ Htg Ho) as [? [_ [_ [_ [_ B]]]]]. exact B. }
  assert (Hfe : fend tg l outs i <= size_of tg t).
  { rewrite A3. pose proof (fend_le_start tg l outs (length fs - 1) ltac:(lia)) as _.
    assert (Hmono : fend tg l outs i <= fend tg l outs (length outs - 1)).
    { destruct (Nat.eq_dec i (length outs - 1)) as [->|Hne]; [lia|].
      pose proof (start_mono_le tg l outs (S i) (length outs - 1) ltac:(lia)) as B. rewrite start_S in B.
      unfold fend at 2. lia. }
    rewrite (extent_fend tg l outs (length outs - 1) Hal) by lia. rewrite next_aligned_eq. lia. }
  unfold checked. destruct (N.ltb_spec (fend tg l outs i) (umod tg)) as [_|Hge]; [|lia].
  exists (pad tg l outs i). split; [reflexivity|].
  rewrite A2 in *.
  assert (Hoi' : oi = start tg l outs i).
  { rewrite nth_error_map, (nth_starts tg l outs i) in Hoi by (try assumption; lia). cbn in Hoi. congruence. }
  assert (Hsi' : si = size_of tg (ty_at outs i)).
  { pose proof E as E2. apply out_fields_Forall2 in E2.
    assert (Hk : exists f u, nth_error outs i = Some (f, u)).
    { destruct (nth_error outs i) as [[f u]|] eqn:En; [eauto|]. apply nth_error_None in En. lia. }
    destruct Hk as [f [u Hk]]. unfold ty_at. rewrite Hk. cbn [snd].
    rewrite nth_error_map in Hsi. destruct (nth_error fs i) as [[f' h]|] eqn:En; [|discriminate].
    cbn in Hsi. injection Hsi as Hsi. clear - E2 Hk En Hsi. revert i Hk En.
    induction E2 as [|[a b] [c d] fs outs [_ X] _ IH]; intros [|i] Hk En; try discriminate.
    - cbn in *. injection Hk as -> ->. injection En as -> ->. unfold std_size_static in Hsi. rewrite X in Hsi. congruence.
    - eauto. }
  subst oi si. change (start tg l outs i + size_of tg (ty_at outs i)) with (fend tg l outs i).
  rewrite nth_error_map.
  destruct (Nat.eq_dec (S i) (length outs)) as [Hlast|Hnl].
  - assert (Hnone : nth_error (starts 0 (mems tg l outs)) (S i) = None).
    { apply nth_error_None. assert (L : forall ms c, length (starts c ms) = length ms).
      { clear. induction ms as [|[a b] ms IH]; intros c; cbn; [reflexivity|]. now rewrite IH. }
      rewrite L. unfold mems. rewrite map_length. lia. }
    rewrite Hnone. cbn [option_map].
    rewrite A3, (extent_fend tg l outs i Hal (eq_sym Hlast)), next_aligned_eq.
    unfold pad, next_al. replace (nth_error outs (i + 1)) with (@None (string * sty)).
    2:{ symmetry. apply nth_error_None. lia. }
    do 2 f_equal. rewrite fold_max_base. unfold struct_al, mems. rewrite map_map. destruct l; reflexivity.
  - rewrite (nth_starts tg l outs (S i)) by (try assumption; lia). cbn [option_map]. now rewrite start_S.
Qed.

(** ** C45 *)

Lemma ccalls_CAdd env fuel a b : ccalls env fuel (CAdd a b) = oadd (ccalls env fuel a) (ccalls env fuel b).
Proof. destruct fuel; reflexivity. Qed.
Lemma ccalls_CAlignOffset env fuel a b : ccalls env fuel (CAlignOffset a b) = oadd (ccalls env fuel a) (ccalls env fuel b).
Proof. destruct fuel; reflexivity. Qed.
Lemma ccalls_leaf env fuel e : match e with CLit _ | CSizeOf _ | CAlignOf _ => True | _ => False end -> ccalls env fuel e = Some 0.
Proof. destruct e; try contradiction; destruct fuel; reflexivity. Qed.
Lemma ccalls_struct_alignment env fuel l fields : ccalls env fuel (struct_alignment l fields) = Some 0.
Proof.
  unfold struct_alignment.
  assert (G : forall es, Forall (fun e => ccalls env fuel e = Some 0) es -> ccalls env fuel (CMaxArr es) = Some 0).
  { intros es H. destruct fuel as [|fuel]; cbn [ccalls] in *;
      (induction H as [|e es He _ IH]; [reflexivity|rewrite He, IH; reflexivity]). }
  apply G. constructor; [apply ccalls_leaf; exact I|].
  induction fields as [|f fields IH]; cbn [map]; constructor; [apply ccalls_leaf; exact I|assumption].
Qed.

Lemma ccalls_pad l name fields : forall i fuel, (i < length fields)%nat -> (i < fuel)%nat ->
  ccalls (pad_env l name fields) fuel (CCall (pad_fn_name l name i)) = Some (2 ^ N.of_nat i).
Proof.
  induction i as [i IH] using (well_founded_induction lt_wf). intros fuel Hi Hf.
  destruct fuel as [|fuel]; [lia|]. cbn [ccalls]. rewrite pad_env_assoc by exact Hi.
  unfold pad_body. rewrite ccalls_CAlignOffset, ccalls_CAdd, (ccalls_leaf _ _ (CSizeOf _)) by exact I.
  assert (Hpre : forall k, (k <= i)%nat -> ccalls (pad_env l name fields) fuel (prefix_expr l name fields k) = Some (2 ^ N.of_nat k - 1)).
  { induction k as [|k IHk]; intros Hk; [now apply ccalls_leaf|].
    cbn [prefix_expr]. rewrite !ccalls_CAdd, (ccalls_leaf _ _ (CSizeOf _)), IHk by (exact I || lia).
    rewrite (IH k) by lia. cbn [oadd]. f_equal. rewrite Nat2N.inj_succ, N.pow_succ_r'.
    pose proof (N.pow_nonzero 2 (N.of_nat k)). lia. }
  rewrite (Hpre i) by lia.
  replace (ccalls (pad_env l name fields) fuel
      match nth_error fields (i + 1) with
      | Some f => CAlignOf (snd f)
      | None => struct_alignment l fields
      end) with (Some 0).
  2:{ destruct (nth_error fields (i + 1)); [now rewrite ccalls_leaf|now rewrite ccalls_struct_alignment]. }
  cbn [oadd]. f_equal. pose proof (N.pow_nonzero 2 (N.of_nat i)). lia.
Qed.

(** C45.  Evaluating the padding function of field [i] makes exactly [2^i] calls of
    padding functions, and computing the layout of a struct with [n] fields makes
    [2^n - 1]: the compile-time cost is exponential in the number of fields. *)
Lemma C45_padding_cost_proof : forall l name fields g,
  emit l (DeriveInput name [] (DNamed fields)) = Some g ->
  (forall i fuel, (i < length fields)%nat -> (i < fuel)%nat ->
     ccalls (g_pads g) fuel (CCall (pad_fn_name l name i)) = Some (2 ^ N.of_nat i))
  /\ struct_calls g = Some (2 ^ len fields - 1).
Proof.
  intros l name fields g Hg. unfold struct_calls. destruct (derive_env _ _ _ _ Hg) as [E1 E2]. rewrite E1, E2. split.
  - intros i fuel Hi Hf. now apply ccalls_pad.
  - assert (Hlen : length (pad_env l name fields) = length fields) by (unfold pad_env; now rewrite map_length, seq_length).
    rewrite Hlen.
    assert (G : forall suf k, (k + length suf = length fields)%nat ->
      fold_right (fun gf acc => match snd gf with GOut _ => acc
         | GPad e => oadd (ccalls (pad_env l name fields) (S (length fields)) e) acc end) (Some 0) (gen_gfields l name k suf)
      = Some (2 ^ N.of_nat (length fields) - 2 ^ N.of_nat k)).
    { induction suf as [|[f t] suf IH]; intros k Hk; cbn [gen_gfields fold_right snd length] in *.
      - f_equal. replace k with (length fields) by lia. lia.
      - rewrite (IH (S k)) by lia. rewrite ccalls_pad by lia. cbn [oadd]. f_equal.
        rewrite Nat2N.inj_succ, N.pow_succ_r'.
        assert (2 ^ N.of_nat (S k) <= 2 ^ N.of_nat (length fields)) by (apply N.pow_le_mono_r; lia).
        rewrite Nat2N.inj_succ, N.pow_succ_r' in H. lia. }
    rewrite (G fields 0%nat) by lia. reflexivity.
Qed.

Lemma pow4_gt a : (2 <= a)%nat -> N.of_nat a + 2 * N.of_nat a * N.of_nat a < 4 ^ N.of_nat a.
Proof.
  induction 1 as [|a Ha IH]; [reflexivity|].
  rewrite Nat2N.inj_succ, N.pow_succ_r'. nia.
Qed.

Lemma exp_beats_poly c k : exists n, c * n ^ k + c < 2 ^ n - 1.
Proof.
  set (a := c + k + 2). exists (2 ^ (2 * a)).
  assert (Hc : c < 2 ^ c) by (apply N.pow_gt_lin_r; lia).
  assert (H4 : a + 2 * a * a < 2 ^ (2 * a)).
  { pose proof (pow4_gt (N.to_nat a)) as P. rewrite N2Nat.id in P.
    rewrite N.pow_mul_r. change (2 ^ 2) with 4. apply P. subst a. lia. }
  rewrite <- N.pow_mul_r.
  assert (E : 2 ^ (c + 2 * a * k + 2) <= 2 ^ (2 ^ (2 * a))).
  { apply N.pow_le_mono_r; [lia|]. subst a. nia. }
  rewrite !N.pow_add_r in E. change (2 ^ 2) with 4 in E.
  assert (1 <= 2 ^ (2 * a * k)) by (pose proof (N.pow_nonzero 2 (2 * a * k)); lia).
  nia.
Qed.

(** C45.  No polynomial in the number of fields bounds the cost (32 fields already need
    more than four billion calls). *)
Lemma C45_cost_is_moderate_refuted_proof :
  ~ (exists c k, forall l name fields g, emit l (DeriveInput name [] (DNamed fields)) = Some g ->
       exists n, struct_calls g = Some n /\ n <= c * len fields ^ k + c).
Proof.
  intros [c [k H]]. destruct (exp_beats_poly c k) as [m Hm].
  pose (fields := map (fun i => (dec i, TPrim PF32)) (seq 0 (N.to_nat m))).
  assert (Hl : len fields = m) by (unfold fields, len; rewrite map_length, seq_length; lia).
  assert (E : exists g, emit L140 (DeriveInput "S" [] (DNamed fields)) = Some g).
  { rewrite emit_eq. eauto. }
  destruct E as [g Hg]. destruct (H _ _ _ _ Hg) as [n [Hn Hle]].
  destruct (C45_padding_cost_proof _ _ _ _ Hg) as [_ Hc]. rewrite Hn in Hc. injection Hc as ->.
  rewrite Hl in Hle. lia.
Qed.

(** ** C19 - C24 *)

Lemma as_bytes_facts tg l h t v : target_ok tg = true -> out_ty tg l h = Some t -> hval_ok tg h v = true ->
  exists s, as_std tg l h v = Some s /\ has_sty t s = true /\ from_std tg l h s = Some v
    /\ as_std_bytes tg l h v = Some (flat tg t s) /\ len (flat tg t s) = size_of tg t.
Proof.
  intros Htg Ho Hv. destruct (conv_total tg Htg h l t Ho) as [Hc _]. destruct (Hc v Hv) as [s [A1 [A2 A3]]].
  pose proof (good_nopad _ _ _ (out_ty_good tg Htg h l t Ho)) as G.
  exists s. unfold as_std_bytes. rewrite Ho, A1, (bytes_of_flat tg t s G A2).
  repeat (split; [assumption || reflexivity|]). now apply len_flat.
Qed.

(** C19.  Every byte of [x.as_stdN().as_bytes()] that belongs to no scalar component
    of the corresponding GLSL type is zero. *)
Lemma C19_padding_is_zero_proof : forall tg l h g v bs i,
  target_ok tg = true -> gty_of h = Some g -> no_raw h = true -> hval_ok tg h v = true ->
  as_std_bytes tg l h v = Some bs -> i < len bs -> gcovers l g i = false ->
  byte_at bs i = Some x00.
Proof.
  intros tg l h g v bs i Htg Hg Hr Hv Hb Hi Hc.
  destruct (out_ty tg l h) as [t|] eqn:Ho; [|unfold as_std_bytes in Hb; rewrite Ho in Hb; discriminate].
  destruct (as_bytes_facts tg l h t v Htg Ho Hv) as [s [A1 [A2 [A3 [A4 A5]]]]].
  rewrite A4 in Hb. injection Hb as <-. rewrite A5 in Hi. unfold byte_at.
  exact (pad_all tg Htg h l t g v s i Hr Ho Hg Hv A1 Hi Hc).
Qed.

(** C20.  [as_stdN] is defined on every value and [from_stdN] gives the value back,
    bit for bit. *)
Lemma C20_round_trip_proof : forall tg l h t v,
  target_ok tg = true -> out_ty tg l h = Some t -> hval_ok tg h v = true ->
  exists s, as_std tg l h v = Some s /\ has_sty t s = true /\ from_std tg l h s = Some v.
Proof. intros tg l h t v Htg Ho Hv. destruct (conv_total tg Htg h l t Ho) as [Hc _]. exact (Hc v Hv). Qed.

(** C20, through memory: different values have different bytes, and reading the
    bytes back ([bytemuck::from_bytes], [from_stdN]) restores the value. *)
Lemma C20_round_trip_bytes_proof : forall tg l h t v bs,
  target_ok tg = true -> out_ty tg l h = Some t -> hval_ok tg h v = true ->
  as_std_bytes tg l h v = Some bs ->
  (exists s, from_bytes tg t bs = Some s /\ from_std tg l h s = Some v)
  /\ (forall w, hval_ok tg h w = true -> as_std_bytes tg l h w = Some bs -> w = v).
Proof.
  intros tg l h t v bs Htg Ho Hv Hb.
  destruct (as_bytes_facts tg l h t v Htg Ho Hv) as [s [A1 [A2 [A3 [A4 A5]]]]].
  rewrite A4 in Hb. injection Hb as <-.
  pose proof (good_nopad _ _ _ (out_ty_good tg Htg h l t Ho)) as G.
  pose proof (from_bytes_flat tg t s G A2) as F. split; [eauto|].
  intros w Hw Hb. destruct (as_bytes_facts tg l h t w Htg Ho Hw) as [s' [B1 [B2 [B3 [B4 B5]]]]].
  rewrite B4 in Hb. injection Hb as Hb.
  pose proof (from_bytes_flat tg t s' G B2) as F'. rewrite Hb in F'. congruence.
Qed.

(** C22.  Byte strings of length [size_of::<Output>()] and [Output] values are in
    bijection: decoding is total, [as_bytes] inverts it, and [as_bytes] always has
    length [size_of]. *)
Lemma C22_pod_bijection_proof : forall tg l h t,
  target_ok tg = true -> out_ty tg l h = Some t ->
  (forall bs, len bs = size_of tg t ->
     exists s, has_sty t s = true /\ from_bytes tg t bs = Some s /\ bytes_of tg t s = Some bs)
  /\ (forall s, has_sty t s = true ->
     exists bs, bytes_of tg t s = Some bs /\ len bs = size_of tg t /\ from_bytes tg t bs = Some s).
Proof.
  intros tg l h t Htg Ho. pose proof (good_nopad _ _ _ (out_ty_good tg Htg h l t Ho)) as G. split.
  - intros bs Hl. destruct (from_bytes_total tg t bs G Hl) as [s [A [B C]]]. exists s.
    rewrite (bytes_of_flat tg t s G B), C. auto.
  - intros s Hs. exists (flat tg t s). rewrite (bytes_of_flat tg t s G Hs), (len_flat tg t s G Hs), (from_bytes_flat tg t s G Hs). auto.
Qed.

(** C23.  A shader that reads a variable of the corresponding GLSL type at any
    position where the bytes of [x.as_stdN()] were placed sees the value of [x]. *)
Lemma C23_gpu_reads_host_value_proof : forall tg l h t g v bs buf off,
  target_ok tg = true -> out_ty tg l h = Some t -> gty_of h = Some g -> hval_ok tg h v = true ->
  as_std_bytes tg l h v = Some bs -> read_at buf off (len bs) = Some bs ->
  exists x, gval_of tg h v = Some x /\ gread tg l g buf off = Some x.
Proof.
  intros tg l h t g v bs buf off Htg Ho Hg Hv Hb Hr.
  destruct (as_bytes_facts tg l h t v Htg Ho Hv) as [s [A1 [A2 [A3 [A4 A5]]]]].
  rewrite A4 in Hb. injection Hb as <-. rewrite A5 in Hr.
  destruct (read_all tg Htg h l t g s v buf off Ho Hg A2 A3 Hr) as [x [X1 X2]]. eauto.
Qed.

(** C24.  For any buffer contents, decoding [Output] and calling [from_stdN] gives
    the value a shader reading the same bytes sees. *)
Lemma C24_host_reads_gpu_value_proof : forall tg l h t g buf off bs,
  target_ok tg = true -> out_ty tg l h = Some t -> gty_of h = Some g ->
  read_at buf off (size_of tg t) = Some bs ->
  exists s v x, from_bytes tg t bs = Some s /\ from_std tg l h s = Some v /\ hval_ok tg h v = true
    /\ gval_of tg h v = Some x /\ gread tg l g buf off = Some x.
Proof.
  intros tg l h t g buf off bs Htg Ho Hg Hr.
  pose proof (good_nopad _ _ _ (out_ty_good tg Htg h l t Ho)) as G.
  destruct (from_bytes_total tg t bs G (read_at_len _ _ _ _ Hr)) as [s [A [B C]]].
  destruct (conv_total tg Htg h l t Ho) as [_ Hc]. destruct (Hc s B) as [v [V1 V2]].
  rewrite <- C in Hr. destruct (read_all tg Htg h l t g s v buf off Ho Hg B V1 Hr) as [x [X1 X2]].
  exists s, v, x. auto.
Qed.

(** C21.  Converting any [Output] value to the host and back keeps the GLSL value it
    denotes, zeroes the padding, and is idempotent. *)
Lemma C21_normalisation_proof : forall tg l h t g s bs,
  target_ok tg = true -> out_ty tg l h = Some t -> gty_of h = Some g -> no_raw h = true ->
  bytes_of tg t s = Some bs ->
  exists v s' bs', from_std tg l h s = Some v /\ as_std tg l h v = Some s' /\ bytes_of tg t s' = Some bs'
    /\ (exists x, gread tg l g bs 0 = Some x /\ gread tg l g bs' 0 = Some x)
    /\ (forall i, i < len bs' -> gcovers l g i = false -> byte_at bs' i = Some x00)
    /\ from_std tg l h s' = Some v.
Proof.
  intros tg l h t g s bs Htg Ho Hg Hr Hb.
  pose proof (good_nopad _ _ _ (out_ty_good tg Htg h l t Ho)) as G.
  pose proof (bytes_of_typed _ _ _ _ Hb) as Hs. rewrite (bytes_of_flat tg t s G Hs) in Hb. injection Hb as <-.
  destruct (conv_total tg Htg h l t Ho) as [Hc1 Hc]. destruct (Hc s Hs) as [v [V1 V2]].
  destruct (Hc1 v V2) as [s' [S1 [S2 S3]]].
  exists v, s', (flat tg t s'). rewrite (bytes_of_flat tg t s' G S2).
  repeat (split; [assumption || reflexivity|]). split; [|split; [|assumption]].
  - assert (R1 : read_at (flat tg t s) 0 (size_of tg t) = Some (flat tg t s)).
    { rewrite <- (len_flat tg t s G Hs). apply read_at_all. }
    assert (R2 : read_at (flat tg t s') 0 (size_of tg t) = Some (flat tg t s')).
    { rewrite <- (len_flat tg t s' G S2). apply read_at_all. }
    destruct (read_all tg Htg h l t g s v _ 0 Ho Hg Hs V1 R1) as [x [X1 X2]].
    destruct (read_all tg Htg h l t g s' v _ 0 Ho Hg S2 S3 R2) as [x' [X1' X2']].
    exists x. split; [assumption|]. congruence.
  - intros i Hi Hcov. rewrite (len_flat tg t s' G S2) in Hi.
    exact (pad_all tg Htg h l t g v s' i Hr Ho Hg V2 S1 Hi Hcov).
Qed.

(** ** C26, C27, C44 *)

(** C26.  [true] becomes the word 1 and [false] the word 0; a word read back is
    [true] exactly when it is not zero. *)
Lemma C26_bool_conversions_proof : forall tg l,
  (forall b, as_std_bytes tg l HBool (HVBool b) = Some (enc_prim tg PU32 (if b then 1 else 0)))
  /\ (forall n, from_std tg l HBool (SBits n) = Some (HVBool (if n =? 0 then false else true))).
Proof.
  intros tg l. split.
  - intros b. unfold as_std_bytes. cbn [out_ty as_std]. unfold bytes_of. cbn [mem_of].
    destruct b; cbn [Bool_from_bool]; (replace (pbits_ok PBool _) with true by reflexivity);
      rewrite map_opt_id_Some; reflexivity.
  - intros n. cbn [from_std]. unfold bool_from_Bool. destruct (n =? 0); reflexivity.
Qed.

(** C27.  Two [Bool]s compare equal exactly when their words are equal; this agrees
    with equality of the booleans they stand for when both were made from Rust
    booleans (words 0 and 1) or when one of them is false. *)
Lemma C27_bool_equality_proof : forall a b,
  (Bool_eq a b = true <-> a = b)
  /\ (Bool_eq a b = Bool.eqb (bool_from_Bool a) (bool_from_Bool b) <-> a = b \/ a = 0 \/ b = 0)
  /\ (forall x y, Bool_eq (Bool_from_bool x) (Bool_from_bool y) = Bool.eqb x y).
Proof.
  intros a b. unfold Bool_eq. split; [apply N.eqb_eq|]. split.
  - unfold bool_from_Bool. destruct (N.eqb_spec a b), (N.eqb_spec a 0), (N.eqb_spec b 0); cbn; split; intros; subst; try tauto; try lia; try congruence.
  - intros [] []; reflexivity.
Qed.

(** C27.  The [Debug] text of a [Bool] shows the boolean, not the word: two [Bool]s have the same
    text exactly when they stand for the same boolean, so unequal [Bool]s can print alike. *)
Lemma C27_debug_text_proof : forall a b,
  (Bool_debug a = Bool_debug b <-> bool_from_Bool a = bool_from_Bool b)
  /\ Bool_debug 0 = "Bool(false)" /\ Bool_debug 1 = "Bool(true)"
  /\ (exists c d, Bool_debug c = Bool_debug d /\ Bool_eq c d = false).
Proof.
  intros a b. split; [|split; [reflexivity|split; [reflexivity|exists 1, 2; split; reflexivity]]].
  unfold Bool_debug. destruct (bool_from_Bool a), (bool_from_Bool b); split; intros H; congruence || discriminate.
Qed.

(** C27.  The claim that [Bool] equality is equality of booleans is false: words 1 and 2
    both mean [true] (a GPU may store any nonzero word) but compare unequal. *)
Lemma C27_bool_equality_is_boolean_refuted_proof :
  ~ (forall a b, pbits_ok PBool a = true -> pbits_ok PBool b = true ->
       Bool_eq a b = Bool.eqb (bool_from_Bool a) (bool_from_Bool b)).
Proof. intros H. specialize (H 1 2 eq_refl eq_refl). discriminate H. Qed.

(** C44.  [max] and [max_arr] compute maxima and [max_arr] never indexes out of bounds. *)
Lemma C44_max_proof :
  (forall a b, Internal.max a b = N.max a b)
  /\ (forall xs, exists m, max_arr xs = Some m /\ (forall x, In x xs -> x <= m)
        /\ (xs = [] -> m = 0) /\ (xs <> [] -> In m xs)).
Proof.
  split; [apply max_spec|]. intros xs. rewrite max_arr_spec. eexists. split; [reflexivity|].
  induction xs as [|x xs [IH1 [IH2 IH3]]]; cbn [fold_right In].
  - split; [contradiction|]. split; [reflexivity|congruence].
  - split.
    + intros y [->|Hy]; [lia|]. specialize (IH1 y Hy). lia.
    + split; [congruence|]. intros _. destruct (N.max_spec x (fold_right N.max 0 xs)) as [[Hlt ->]|[_ ->]]; [|now left].
      right. apply IH3. intros ->. cbn in Hlt. lia.
Qed.

(** ** C25 *)

(** C25.  The built-in layout types: exactly the documented names exist in both
    layouts, with the alignment, size and component / column offsets of the GLSL
    type they are documented to correspond to. *)
Lemma C25_builtin_types_proof : forall tg l, target_ok tg = true ->
  (map vr_name (vectors l) ++ map mr_name (matrices l))%list = map fst std_names
  /\ forall name g, In (name, g) std_names ->
     exists t, find_std l name = Some t
       /\ std_align l t = Some (base_align l g) /\ size_of tg t = gsize l g
       /\ (forall c o g', gpath_offset l g [c] = Some (o, g') ->
             exists u, path_offset tg t [c] = Some (o, u) /\ size_of tg u = gsize l g').
Proof.
  intros tg l Htg. split; [destruct l; reflexivity|]. intros name g Hin.
  assert (Ha : assoc name std_names = Some g).
  { apply assoc_nodup; [|assumption]. apply nodupb_NoDup. reflexivity. }
  assert (Hf : exists t, find_std l name = Some t).
  { assert (H : forallb (fun e => match find_std l (fst e) with Some _ => true | None => false end) std_names = true)
      by (destruct l; vm_compute; reflexivity).
    rewrite forallb_forall in H. specialize (H _ Hin). cbn [fst] in H. destruct (find_std l name); [eauto|discriminate]. }
  destruct Hf as [t Hf]. exists t. split; [assumption|].
  destruct (table_shape tg l name g t Htg Ha Hf) as [n [al [decl [Et [Eal [Esz [Hvm [_ [_ Hpos]]]]]]]]].
  split. { rewrite Et. cbn [std_align]. rewrite lay_eqb_refl. congruence. }
  split; [assumption|]. intros c o g' Hp.
  assert (H : forallb (fun e => match find_std l (fst e) with
      | Some t => forallb (fun c => match gpath_offset l (snd e) [c] with
                                    | Some (o, g') => match path_offset tg t [c] with
                                                      | Some (o', u) => (o =? o') && (size_of tg u =? gsize l g')
                                                      | None => false end
                                    | None => true end) comp_names
      | None => false end) std_names = true).
  { clear - Htg. destruct l; all_targets tg Htg; vm_compute; reflexivity. }
  rewrite forallb_forall in H. specialize (H _ Hin). cbn [fst snd] in H. rewrite Hf in H.
  rewrite forallb_forall in H.
  assert (Hc : In c comp_names).
  { destruct g; try discriminate Hvm; cbn [gpath_offset] in Hp;
      [destruct (index_of c (firstn n0 comp_names)) as [k|] eqn:E|destruct (index_of c (firstn cols comp_names)) as [k|] eqn:E];
      try discriminate; apply index_of_nth, nth_error_In in E;
      clear - E; revert E; generalize comp_names as cs; intros cs E;
      match type of E with In _ (firstn ?m cs) => rewrite <- (firstn_skipn m cs); apply in_or_app; now left end. }
  specialize (H _ Hc). rewrite Hp in H.
  destruct (path_offset tg t [c]) as [[o' u]|]; [|discriminate]. rewrite andb_true_iff in H. destruct H as [H1 H2].
  apply N.eqb_eq in H1, H2. subst o'. eauto.
Qed.

(** C25.  Every supported mint, cgmath, glam and nalgebra type (the list [math_names])
    implements both traits and its [Output] has the alignment and size of the GLSL type
    of that shape; the crate's tables contain no other type. *)
Lemma C25_math_types_proof : forall name g, In (name, g) math_names ->
  exists h, In (Some h) all_math_types /\ rust_name h = name /\ gty_of h = Some g
    /\ forall tg l, target_ok tg = true ->
         exists t, out_ty tg l h = Some t /\ std_align l t = Some (base_align l g) /\ size_of tg t = gsize l g.
Proof.
  intros name g Hin.
  assert (H : forallb (fun e => existsb (fun oh => match oh with
      | Some h => String.eqb (rust_name h) (fst e)
                  && match gty_of h with
                     | Some g => match g, snd e with
                                 | GVec s n, GVec s' n' => gscalar_eqb s s' && Nat.eqb n n'
                                 | GMat s c r, GMat s' c' r' => gscalar_eqb s s' && Nat.eqb c c' && Nat.eqb r r'
                                 | _, _ => false end
                     | None => false end
      | None => false end) all_math_types) math_names = true) by (vm_compute; reflexivity).
  rewrite forallb_forall in H. specialize (H _ Hin). apply existsb_exists in H.
  destruct H as [[h|] [Hh H]]; [|discriminate]. cbn [fst snd] in H. rewrite andb_true_iff in H. destruct H as [H1 H2].
  apply String.eqb_eq in H1.
  assert (Hg : gty_of h = Some g).
  { destruct (gty_of h) as [g0|]; [|discriminate]. f_equal.
    destruct g0, g; try discriminate; rewrite !andb_true_iff in H2.
    - destruct H2 as [A B]. apply gscalar_eqb_eq in A. apply Nat.eqb_eq in B. congruence.
    - destruct H2 as [[A B] C]. apply gscalar_eqb_eq in A. apply Nat.eqb_eq in B, C. congruence. }
  exists h. repeat (split; [assumption|]). intros tg l Htg.
  assert (Ho : exists t, out_ty tg l h = Some t).
  { assert (H : forallb (fun oh => match oh with
       | Some h => match out_ty tg l h with Some _ => true | None => false end
       | None => false end) all_math_types = true).
    { clear - Htg. destruct l; all_targets tg Htg; vm_compute; reflexivity. }
    rewrite forallb_forall in H. specialize (H _ Hh). cbn in H. destruct (out_ty tg l h); [eauto|discriminate]. }
  destruct Ho as [t Ho]. exists t. destruct (path_nil tg l h t g Htg Ho Hg). auto.
Qed.

(** C25.  ... and no other: the tables hold exactly these types, in number and names. *)
Lemma C25_no_other_math_types_proof :
  (forall oh, In oh all_math_types -> exists h, oh = Some h /\ In (rust_name h) (map fst math_names))
  /\ length all_math_types = length math_names
  /\ NoDup (map fst math_names).
Proof.
  split; [|split; [reflexivity|apply nodupb_NoDup; vm_compute; reflexivity]].
  intros oh Hin.
  assert (H : forallb (fun oh => match oh with Some h => existsb (String.eqb (rust_name h)) (map fst math_names) | None => false end) all_math_types = true)
    by (vm_compute; reflexivity).
  rewrite forallb_forall in H. specialize (H _ Hin). destruct oh as [h|]; [|discriminate].
  exists h. split; [reflexivity|]. now apply existsb_eqb_in.
Qed.

(** ** C31, C46 *)

(** C31.  ALIGNMENT is a power of two, or 0; it is 0 only for std430 structs of size 0
    (a derived struct without fields, or with only such structs as fields). *)
Lemma C31_alignment_power_of_two_proof : forall tg l h a,
  target_ok tg = true -> out_align tg l h = Some a ->
  (exists k, a = 2 ^ k) \/ (a = 0 /\ l = L430 /\ std_size_static tg l h = Some 0).
Proof.
  intros tg l h a Htg Ha. unfold out_align, std_size_static in *. destruct (out_ty tg l h) as [t|] eqn:Ho; [|discriminate].
  pose proof (out_ty_good tg Htg h l t Ho) as [a' [B1 [B2 [B3 [B4 [B5 B6]]]]]].
  rewrite Ha in B1. injection B1 as <-. destruct (N.eq_dec a 0) as [->|Hn].
  - right. destruct (B5 eq_refl) as [_ Hs]. split; [reflexivity|]. split; [|congruence].
    destruct l; [|reflexivity]. exfalso. clear - Htg Ho Ha. revert t Ho Ha.
    induction h as [p| |r s fs IH|r m IH|h IH|n fs IH|l' h IH] using hty_ind'; intros t Ho Ha.
    + cbn [out_ty] in Ho. destruct p; cbn in *; try discriminate; injection Ho as <-; discriminate.
    + cbn [out_ty] in Ho. injection Ho as <-. discriminate.
    + destruct (easy_facts _ _ _ _ _ _ Ho) as [? [? [? [? [? [E1 _]]]]]].
      assert (H : forallb (fun n => match find_std L140 n with Some t => negb (alN L140 t =? 0) | None => true end) table_names = true)
        by (vm_compute; reflexivity).
      rewrite forallb_forall in H. specialize (H _ (find_std_names _ _ _ E1)). rewrite E1 in H.
      unfold alN in H. rewrite Ha in H. discriminate.
    + cbn [out_ty] in Ho. eauto.
    + cbn [out_ty] in Ho. destruct (out_ty tg L140 h) as [u|] eqn:E; [|discriminate]. injection Ho as <-.
      cbn [std_align] in Ha. destruct (std_align L140 u); [|discriminate]. injection Ha as Ha. rewrite max_spec in Ha. lia.
    + destruct (C17_size_and_alignment_proof tg L140 n fs t Htg Ho) as [ms [_ [A1 _]]].
      rewrite A1 in Ha. injection Ha as Ha. rewrite fold_max_base in Ha. lia.
    + destruct (out_ty_HOut _ _ _ _ _ Ho) as [A _]. eauto.
  - left. destruct (B6 Hn) as [P _]. exact P.
Qed.

(** C31.  "Must be a power of two" (documentation of [Std430::ALIGNMENT]) fails for the
    derived std430 struct without fields. *)
Lemma C31_power_of_two_refuted_proof :
  ~ (forall tg l h a, target_ok tg = true -> out_align tg l h = Some a -> exists k, a = 2 ^ k).
Proof.
  intros H. destruct (H x86_64 L430 (HStruct "Empty" []) 0 eq_refl) as [k Hk]; [vm_compute; reflexivity|].
  symmetry in Hk. apply N.pow_nonzero in Hk; [assumption|discriminate].
Qed.

(** C46.  The Rust alignment of a layout type divides its ALIGNMENT: a position aligned for
    the GPU is aligned for a Rust reference, on every target; and it divides the size. *)
Lemma C46_rust_alignment_proof : forall tg l h t a o,
  target_ok tg = true -> out_ty tg l h = Some t -> std_align l t = Some a -> aligned a o ->
  (align_of tg t | o) /\ (align_of tg t | size_of tg t) /\ exists k, align_of tg t = 2 ^ k.
Proof.
  intros tg l h t a o Htg Ho Ha Hal.
  pose proof (out_ty_good tg Htg h l t Ho) as [a' [B1 [B2 [B3 [B4 [B5 B6]]]]]].
  rewrite Ha in B1. injection B1 as <-. split; [|split; assumption].
  destruct (N.eq_dec a 0) as [->|Hn].
  - destruct (B5 eq_refl) as [E _]. rewrite E. apply N.divide_1_l.
  - destruct (B6 Hn) as [_ [_ D]]. destruct Hal as [->|[k ->]]; [contradiction|].
    now apply N.divide_mul_r.
Qed.

(** ** C32, C43 *)

(** C32.  std430 alignment, size and field offsets never exceed the std140 ones. *)
Lemma C32_std430_not_larger_proof : forall tg h a140 a430 n140 n430,
  target_ok tg = true ->
  out_align tg L140 h = Some a140 -> out_align tg L430 h = Some a430 ->
  std_size_static tg L140 h = Some n140 -> std_size_static tg L430 h = Some n430 ->
  a430 <= a140 /\ n430 <= n140
  /\ (forall name fs t140 t430 f o140 o430, h = HStruct name fs ->
        out_ty tg L140 h = Some t140 -> out_ty tg L430 h = Some t430 ->
        assoc f (field_offsets tg t140) = Some o140 -> assoc f (field_offsets tg t430) = Some o430 ->
        o430 <= o140).
Proof.
  intros tg h a1 a2 n1 n2 Htg Ha1 Ha2 Hn1 Hn2. unfold out_align, std_size_static in *.
  destruct (out_ty tg L140 h) as [t1|] eqn:E1; [|discriminate]. destruct (out_ty tg L430 h) as [t2|] eqn:E2; [|discriminate].
  injection Hn1 as <-. injection Hn2 as <-.
  destruct (layout_le tg Htg h t1 t2 E1 E2) as [A B]. apply le_al_le in A. unfold alN in A. rewrite Ha1, Ha2 in A.
  split; [assumption|]. split; [assumption|]. intros name fs u1 u2 f o1 o2 -> X1 X2 F1 F2.
  injection X1 as <-. injection X2 as <-. eapply (offsets_le tg name fs t1 t2 f); eassumption.
Qed.

(** C43.  Scalars, vectors and all matrices except [mat2] have the same bytes in both
    layouts. *)
Lemma C43_same_bytes_proof : forall tg h g v bs140 bs430,
  target_ok tg = true -> gty_of h = Some g -> layout_independent g = true -> hval_ok tg h v = true ->
  as_std_bytes tg L140 h v = Some bs140 -> as_std_bytes tg L430 h v = Some bs430 -> bs140 = bs430.
Proof.
  intros tg h g v b1 b2 Htg Hg Hi Hv H1 H2.
  destruct (out_ty tg L140 h) as [t1|] eqn:E1; [|unfold as_std_bytes in H1; rewrite E1 in H1; discriminate].
  destruct (out_ty tg L430 h) as [t2|] eqn:E2; [|unfold as_std_bytes in H2; rewrite E2 in H2; discriminate].
  destruct (as_bytes_facts tg L140 h t1 v Htg E1 Hv) as [s1 [A1 [_ [_ [A4 _]]]]].
  destruct (as_bytes_facts tg L430 h t2 v Htg E2 Hv) as [s2 [B1 [_ [_ [B4 _]]]]].
  rewrite A4 in H1. rewrite B4 in H2. injection H1 as <-. injection H2 as <-.
  assert (Hs : simple_gty g = true).
  { destruct g as [| |s c r| |]; try exact Hi; try discriminate. cbn [layout_independent simple_gty is_mat2] in *.
    destruct s; try reflexivity. destruct c as [|[|[|c]]]; try reflexivity. destruct r as [|[|[|r]]]; try reflexivity. discriminate. }
  destruct (same_layout tg Htg h g t1 t2 v Hg Hs E1 E2 Hv) as [Ee Es].
  assert (s1 = s2) by congruence. subst s2. now rewrite <- (flat_erase tg t1), <- (flat_erase tg t2), Ee.
Qed.

(** ** C33 *)

(** C33.  For every glam and nalgebra row, with the library's own conversions
    [into_mint] and [of_mint] left arbitrary: the [Output] is that of the mint type, the
    layout value is that of the converted value, and the round trip through the layout
    type gives back [x] whenever [of_mint (into_mint x) = x]. *)
Lemma C33_minty_types_proof : forall r, In r (glam_rows ++ nalgebra_rows)%list ->
  exists m, mint_hty (my_ty r) (my_elem r) = Some m /\ minty_hty r = Some (HMinty (my_rust r) m)
    /\ forall tg l, target_ok tg = true ->
       exists t, out_ty tg l m = Some t /\ out_ty tg l (HMinty (my_rust r) m) = Some t
       /\ forall (X : Type) (into_mint : X -> hval) (of_mint : hval -> X) (x : X),
            hval_ok tg m (into_mint x) = true ->
            exists s, minty_as into_mint tg l m x = Some s
              /\ as_std tg l (HMinty (my_rust r) m) (HVMinty (into_mint x)) = Some s
              /\ bytes_of tg t s = as_std_bytes tg l m (into_mint x)
              /\ minty_from of_mint tg l m s = Some (of_mint (into_mint x)).
Proof.
  intros r Hin.
  assert (H : exists m, mint_hty (my_ty r) (my_elem r) = Some m).
  { assert (H : forallb (fun r => match mint_hty (my_ty r) (my_elem r) with Some _ => true | None => false end) (glam_rows ++ nalgebra_rows) = true)
      by (vm_compute; reflexivity).
    rewrite forallb_forall in H. specialize (H _ Hin). destruct (mint_hty (my_ty r) (my_elem r)); [eauto|discriminate]. }
  destruct H as [m Hm]. exists m. unfold minty_hty. rewrite Hm. split; [reflexivity|]. split; [reflexivity|].
  intros tg l Htg.
  assert (Ho : exists t, out_ty tg l m = Some t).
  { assert (H : forallb (fun r => match mint_hty (my_ty r) (my_elem r) with
         | Some m => match out_ty tg l m with Some _ => true | None => false end | None => false end) (glam_rows ++ nalgebra_rows) = true).
    { clear - Htg. destruct l; all_targets tg Htg; vm_compute; reflexivity. }
    rewrite forallb_forall in H. specialize (H _ Hin). rewrite Hm in H. destruct (out_ty tg l m); [eauto|discriminate]. }
  destruct Ho as [t Ho]. exists t. split; [assumption|]. split; [exact Ho|].
  intros X into_mint of_mint x Hx.
  destruct (as_bytes_facts tg l m t (into_mint x) Htg Ho Hx) as [s [A1 [A2 [A3 [A4 A5]]]]].
  exists s. unfold minty_as, minty_from. cbn [as_std]. rewrite A1, A3, A4.
  repeat (split; [reflexivity|]).
  rewrite (bytes_of_flat tg t s); [auto| |assumption]. eapply good_nopad, out_ty_good; eassumption.
Qed.

(** C33.  Every cgmath type has the same layout type, layout values and read-back
    values as the mint type of the same shape (the public fields have the same names). *)
Lemma C33_cgmath_types_proof : forall r, In r cgmath_rows ->
  exists c m, cgmath_hty (er_ty r) (er_elem r) = Some c
    /\ mint_hty (mint_counterpart (er_ty r)) (er_elem r) = Some m
    /\ gty_of c = gty_of m
    /\ forall tg l, out_ty tg l c = out_ty tg l m
         /\ (forall v, hval_ok tg c v = hval_ok tg m v /\ as_std tg l c v = as_std tg l m v
                       /\ as_std_bytes tg l c v = as_std_bytes tg l m v)
         /\ (forall s, from_std tg l c s = from_std tg l m s).
Proof.
  intros r Hin. cbn [cgmath_rows In] in Hin.
  repeat (destruct Hin as [<-|Hin]; [do 2 eexists; split; [reflexivity|]; split; [reflexivity|]; split; [reflexivity|];
    intros tg l; split; [reflexivity|]; split; [intros v; split; [reflexivity|]; split; reflexivity|intros s; reflexivity]|]).
  contradiction.
Qed.

(** ** C34, C35 *)

Lemma names_NoDup tg l fin fs : forall idx cur,
  NoDup (map fst (gen_fields tg l fin idx cur fs)) <->
  NoDup (map fst fs) /\ forall i, (idx <= i < idx + length fs)%nat -> ~ In (pad_field_name i) (map fst fs).
Proof.
  assert (Hin : forall fs0 idx cur x, In x (map fst (gen_fields tg l fin idx cur fs0)) <->
     In x (map fst fs0) \/ exists i, (idx <= i < idx + length fs0)%nat /\ x = pad_field_name i).
  { induction fs0 as [|[f t] fs' IH]; intros idx cur x; cbn [gen_fields map fst In length].
    - split; [contradiction|]. intros [H|[i [H _]]]; [contradiction|lia].
    - rewrite IH. split.
      + intros [H|[H|[H|[i [H E]]]]]; auto.
        * right. exists idx. split; [lia|congruence].
        * right. exists i. split; [lia|congruence].
      + intros [[H|H]|[i [H E]]]; auto.
        destruct (Nat.eq_dec i idx) as [->|Hne]; [right; left; congruence|].
        right. right. right. exists i. split; [lia|assumption]. }
  induction fs as [|[f t] fs IH]; intros idx cur; cbn [gen_fields map fst length].
  - split; [|constructor]. intros _. split; [constructor|]. intros i Hi. lia.
  - split.
    + intros H. inversion H as [|? ? N1 N2]; subst. inversion N2 as [|? ? N3 N4]; subst.
      apply IH in N4. destruct N4 as [N4 N5]. split.
      * constructor; [|assumption]. intros Hf. apply N1. right. apply Hin. now left.
      * intros i Hi [E|E].
        { apply N1. destruct (Nat.eq_dec i idx) as [->|Hne]; [now left|].
          right. apply Hin. right. exists i. split; [lia|congruence]. }
        destruct (Nat.eq_dec i idx) as [->|Hne]; [apply N3, Hin; now left|].
        apply (N5 i); [lia|assumption].
    + intros [Hnd Hp]. inversion Hnd as [|? ? N1 N2]; subst. constructor.
      * intros [E|E].
        { apply (Hp idx); [lia|]. left. congruence. }
        apply Hin in E. destruct E as [E|[i [Hi E]]]; [contradiction|]. apply (Hp i); [lia|]. left. assumption.
      * constructor.
        { intros E. apply Hin in E. destruct E as [E|[i [Hi E]]].
          - apply (Hp idx); [lia|]. now right.
          - apply pad_field_name_inj in E. lia. }
        apply IH. split; [assumption|]. intros i Hi E. apply (Hp i); [lia|]. now right.
Qed.

(** the types a derive can be applied to, resolved: fields with their host types *)
Lemma HStruct_iff tg l name fs : target_ok tg = true ->
  (exists t, out_ty tg l (HStruct name fs) = Some t) <->
  (exists ms, field_metrics tg l fs = Some ms
     /\ next_aligned (extent 0 ms) (fold_right N.max (match l with L140 => 16 | L430 => 0 end) (map fst ms)) < t_obj tg)
  /\ NoDup (map fst fs)
  /\ (forall i, (i < length fs)%nat -> ~ In ("_pad" ++ dec i) (map fst fs))
  /\ (forall f h t, In (f, h) fs -> out_ty tg l h <> Some (TDyn t)).
Proof.
  intros Htg.
  assert (Hdyn : forall outs, out_fields tg l fs = Some outs ->
     (Forall (fun f => impl_debug (snd f) = true) outs <-> forall f h t, In (f, h) fs -> out_ty tg l h <> Some (TDyn t))).
  { intros outs E. apply out_fields_Forall2 in E. induction E as [|[f h] [g u] fs' outs' [E1 E2] _ IH].
    - split; [intros _ f h t []|constructor].
    - cbn [fst snd] in *. split.
      + intros H f' h' t [Hi|Hi]; [|apply (proj1 IH) with (f := f'); [now inversion H|assumption]].
        injection Hi as <- <-. inversion H as [|? ? D _]; subst. cbn [snd] in D. rewrite E2. intros X. injection X as ->. discriminate.
      + intros H. constructor.
        * cbn [snd]. destruct u; try reflexivity. exfalso. apply (H f h u); [now left|assumption].
        * apply IH. intros f' h' t Hi. apply (H f'). now right. }
  assert (Hsz : forall outs, out_fields tg l fs = Some outs ->
     size_of tg (derived tg l name outs)
     = next_aligned (extent 0 (mems tg l outs)) (fold_right N.max (match l with L140 => 16 | L430 => 0 end) (map fst (mems tg l outs)))).
  { intros outs E.
    assert (HG : Forall (fun f => good tg l (snd f)) outs).
    { clear Hdyn. apply out_fields_Forall2 in E. induction E as [|[f h] [g u] fs' outs' [E1 E2] _ IH]; constructor; [|assumption].
      cbn [snd] in *. eapply out_ty_good; eassumption. }
    destruct (derived_props tg l name outs HG) as [_ [Hs _]]. rewrite Hs.
    assert (EA : fold_right N.max match l with L140 => 16 | L430 => 0 end (map fst (mems tg l outs)) = struct_al l outs).
    { rewrite fold_max_base. unfold struct_al, mems. rewrite map_map. destruct l; reflexivity. }
    rewrite EA, <- (extent_gen tg l (struct_al l outs) outs 0 0 (head_aligned_0 _ _ _)). reflexivity. }
  rewrite out_ty_HStruct. split.
  - intros [t H]. destruct (out_fields tg l fs) as [outs|] eqn:E; [|discriminate].
    apply derive_output_iff in H; [|assumption]. destruct H as [Hal [Hnd [-> [Hs Hd]]]].
    split.
    { exists (mems tg l outs). split; [now apply field_metrics_mems|]. now rewrite <- (Hsz outs eq_refl). }
    unfold derived_fields in Hnd. rewrite names_NoDup in Hnd. destruct Hnd as [N1 N2].
    rewrite (out_fields_names _ _ _ _ E) in N1, N2.
    assert (Hl : length outs = length fs) by (unfold out_fields in E; now apply map_opt_Some_length in E).
    split; [assumption|]. split; [|now apply (Hdyn outs)].
    intros i Hi. apply (N2 i). lia.
  - intros [[ms [Hm Hs]] [N1 [N2 Hd]]].
    assert (E : exists outs, out_fields tg l fs = Some outs).
    { unfold out_fields. apply map_opt_total. unfold field_metrics in Hm. apply map_opt_Forall2 in Hm.
      clear - Hm. induction Hm as [|[f h] m fs ms E _ IH]; constructor; [|assumption].
      cbn [snd fst] in *. unfold out_align in E. destruct (out_ty tg l h); [eauto|discriminate]. }
    destruct E as [outs E]. rewrite E. exists (derived tg l name outs). apply derive_output_iff; [assumption|].
    rewrite (field_metrics_mems tg l fs outs Htg E) in Hm. injection Hm as <-.
    assert (Hl : length outs = length fs) by (unfold out_fields in E; now apply map_opt_Some_length in E).
    split; [now apply (out_fields_aligned tg l fs)|]. split.
    { unfold derived_fields. apply names_NoDup. rewrite (out_fields_names _ _ _ _ E). split; [assumption|].
      intros i Hi. apply N2. lia. }
    split; [reflexivity|]. rewrite (Hsz outs E). split; [assumption|]. now apply Hdyn.
Qed.

(** C34.  A named struct without generics is accepted exactly when every field type
    implements the trait, no field is (directly) a [DynamicUniform], no field is called
    [_pad<i>] with [i] below the number of fields (field names are distinct in any Rust
    struct), and the struct is not too large for the target. *)
Lemma C34_named_struct_accepted_iff_proof : forall tg l name fs, target_ok tg = true ->
  (exists t, out_ty tg l (HStruct name fs) = Some t) <->
  (exists ms, field_metrics tg l fs = Some ms
     /\ next_aligned (extent 0 ms) (fold_right N.max (match l with L140 => 16 | L430 => 0 end) (map fst ms)) < t_obj tg)
  /\ NoDup (map fst fs)
  /\ (forall f text i, In f (map fst fs) -> f = "_pad" ++ text -> numeral text = Some i -> N.of_nat (length fs) <= i)
  /\ (forall f h t, In (f, h) fs -> out_ty tg l h <> Some (TDyn t)).
Proof.
  intros tg l name fs Htg. rewrite (HStruct_iff tg l name fs Htg).
  assert (E : (forall i, (i < length fs)%nat -> ~ In ("_pad" ++ dec i) (map fst fs))
          <-> (forall f text i, In f (map fst fs) -> f = "_pad" ++ text -> numeral text = Some i -> N.of_nat (length fs) <= i)).
  { split.
    - intros H f text i Hin -> Hn. destruct (N.le_gt_cases (N.of_nat (length fs)) i) as [L|L]; [assumption|exfalso].
      apply (H (N.to_nat i)); [lia|]. rewrite <- (N2Nat.id i) in Hn. apply numeral_nat in Hn. now rewrite Hn in Hin.
    - intros H i Hi Hin. specialize (H _ (dec i) (N.of_nat i) Hin eq_refl). rewrite (proj2 (numeral_nat (dec i) i) eq_refl) in H.
      specialize (H eq_refl). lia. }
  rewrite E. reflexivity.
Qed.

(** C34.  The macro itself rejects exactly tuple structs, unit structs, enums and unions;
    the code it generates for a struct with generic parameters never compiles. *)
Lemma C34_macro_rejects_iff_proof : forall l input,
  (emit l input = None <-> forall fs, di_data input <> DNamed fs)
  /\ (forall tg g, emit l input = Some g -> di_generics input <> [] -> compile tg l g = None).
Proof.
  intros l [name gens data]. cbn [di_data di_generics].
  assert (Hnamed : forall fs, exists g, emit l (DeriveInput name gens (DNamed fs)) = Some g
      /\ g_generics g = gens /\ g_output g = (g_name g, [])).
  { intros fs. rewrite emit_eq. eexists. split; [reflexivity|]. split; reflexivity. }
  split.
  - split.
    + intros H fs ->. destruct (Hnamed fs) as [g [E _]]. congruence.
    + intros H. destruct data; try reflexivity. exfalso. now apply (H fs).
  - intros tg g Hg Hne. destruct data as [fs| | | |]; try discriminate.
    destruct (Hnamed fs) as [g' [E [E1 E2]]]. rewrite E in Hg. injection Hg as <-.
    unfold compile. rewrite E1, E2. cbn [fst snd length]. destruct gens as [|x gens]; [congruence|].
    cbn [length Nat.eqb]. rewrite andb_false_r. reflexivity.
Qed.

(** C34.  "Any struct which contains only fields that also implement AsStd140 can derive
    AsStd140" (documentation) is false, in four different ways: tuple structs, generic
    structs, a field called [_pad0], a [DynamicUniform] field. *)
Lemma C34_any_struct_can_derive_refuted_proof :
  (forall l, emit l (DeriveInput "Tuple" [] (DUnnamed [TPrim PF32])) = None)
  /\ (forall tg l, match emit l (DeriveInput "Generic" ["T"] (DNamed [("x", TPrim PF32)])) with
                   | Some g => compile tg l g | None => None end = None)
  /\ (forall tg l, target_ok tg = true -> out_ty tg l (HStruct "Padded" [("_pad0", HPrim PF32)]) = None)
  /\ (forall tg, target_ok tg = true -> out_ty tg L140 (HDyn (HPrim PF32)) <> None
        /\ out_ty tg L140 (HStruct "Dyn" [("x", HDyn (HPrim PF32))]) = None).
Proof.
  split; [intros l; reflexivity|]. split.
  { intros tg l. destruct (emit l _) as [g|] eqn:E; [|reflexivity].
    destruct (C34_macro_rejects_iff_proof l (DeriveInput "Generic" ["T"] (DNamed [("x", TPrim PF32)]))) as [_ H].
    apply (H tg g E). discriminate. }
  split.
  - intros tg l Htg. destruct (out_ty tg l (HStruct "Padded" [("_pad0", HPrim PF32)])) as [t|] eqn:E; [|reflexivity].
    exfalso. assert (H : exists t, out_ty tg l (HStruct "Padded" [("_pad0", HPrim PF32)]) = Some t) by eauto.
    apply HStruct_iff in H; [|assumption]. destruct H as [_ [_ [H _]]]. apply (H 0%nat); [cbn; lia|]. now left.
  - intros tg Htg. split; [discriminate|].
    destruct (out_ty tg L140 (HStruct "Dyn" [("x", HDyn (HPrim PF32))])) as [t|] eqn:E; [|reflexivity].
    exfalso. assert (H : exists t, out_ty tg L140 (HStruct "Dyn" [("x", HDyn (HPrim PF32))]) = Some t) by eauto.
    apply HStruct_iff in H; [|assumption]. destruct H as [_ [_ [_ H]]]. eapply H; [now left|]. reflexivity.
Qed.

(** C35.  Padding functions generated for different (struct, layout, field index)
    triples have different names, and so have the generated structs. *)
Lemma C35_names_distinct_proof :
  (forall l n i l' n' i', pad_fn_name l n i = pad_fn_name l' n' i' -> l = l' /\ n = n' /\ i = i')
  /\ (forall l l' n n' g g' fs fs', emit l (DeriveInput n [] (DNamed fs)) = Some g ->
        emit l' (DeriveInput n' [] (DNamed fs')) = Some g' -> g_name g = g_name g' -> l = l' /\ n = n')
  /\ (forall l l' n n' g g' fs fs' f, emit l (DeriveInput n [] (DNamed fs)) = Some g ->
        emit l' (DeriveInput n' [] (DNamed fs')) = Some g' ->
        In f (map fst (g_pads g)) -> In f (map fst (g_pads g')) -> l = l' /\ n = n')
  /\ (forall l n g fs, emit l (DeriveInput n [] (DNamed fs)) = Some g -> NoDup (map fst (g_pads g))).
Proof.
  split; [exact pad_fn_name_full_inj|]. split; [|split].
  - intros l l' n n' g g' fs fs' H H'. rewrite emit_eq in H, H'. injection H as <-. injection H' as <-. cbn [g_name].
    apply generated_name_inj.
  - intros l l' n n' g g' fs fs' f H H' Hin Hin'. destruct (derive_env _ _ _ _ H) as [E _], (derive_env _ _ _ _ H') as [E' _].
    rewrite E in Hin. rewrite E' in Hin'. unfold pad_env in *. rewrite map_map in Hin, Hin'. cbn [fst] in *.
    apply in_map_iff in Hin, Hin'. destruct Hin as [i [<- _]], Hin' as [i' [E2 _]].
    apply pad_fn_name_full_inj in E2. destruct E2 as [-> [-> _]]. auto.
  - intros l n g fs H. destruct (derive_env _ _ _ _ H) as [E _]. rewrite E. unfold pad_env. rewrite map_map. cbn [fst].
    apply NoDup_map_inj; [intros x y; apply pad_fn_name_inj|apply seq_NoDup].
Qed.

(** ** Non-vacuity examples *)

(** (splits conjunctions from the left and computes, so that existential witnesses are
    found by the first equation that mentions them) *)
Local Ltac compute_all := lazymatch goal with
  | |- ex _ => eexists; compute_all
  | |- _ /\ _ => split; [compute_all|compute_all]
  | |- _ => vm_compute; reflexivity
  end.

(** The offsets and sizes asserted by the crate's own tests
    (/repo/crevice-tests/src/lib.rs: mat3_padding,
    proper_offset_calculations_for_differing_member_sizes, bools_and_bool_vectors), and the
    hypotheses of C14-C17, C23, C24, C31, C32, C46 met by them on four targets. *)
Lemma C15_ex_proof : forall tg, In tg [x86_64; i686; powerpc64; avr_release] ->
  target_ok tg = true
  /\ (exists t g, out_ty tg L140 mat3_padding = Some t /\ gty_of mat3_padding = Some g
        /\ size_of tg t = 64 /\ std_align L140 t = Some 16
        /\ gpath_offset L140 g ["two"] = Some (48, GScalar GFloat)
        /\ path_offset tg t ["two"] = Some (48, TPrim PF32)
        /\ gpath_offset L140 g ["one"; "z"; "y"] = Some (36, GScalar GFloat)
        /\ path_offset tg t ["one"; "z"; "y"] = Some (36, TPrim PF32))
  /\ (exists t, out_ty tg L140 outer_s = Some t /\ size_of tg t = 48 /\ std_align L140 t = Some 16
        /\ path_offset tg t ["leading"; "second"; "x"] = Some (16, TPrim PF32)
        /\ path_offset tg t ["trailing"; "x"] = Some (32, TPrim PF32))
  /\ (exists t g o u, out_ty tg L140 scene = Some t /\ gty_of scene = Some g
        /\ gpath_offset L140 g ["light"; "color"; "z"] = Some (o, GScalar GFloat)
        /\ path_offset tg t ["light"; "color"; "z"] = Some (o, u) /\ o = 40).
Proof.
  intros tg Hin. split; [|split; [|split]]; cbn [In] in Hin;
  repeat (destruct Hin as [<-|Hin]; [compute_all|]); contradiction.
Qed.

(** std430: [y] of [ContainsBools] at 8, alignment 8 (crevice-tests), and a [mat2] that is
    tightly packed. *)
Lemma C16_ex_proof : forall tg, In tg [x86_64; i686; powerpc64; avr_release] ->
  (exists t g, out_ty tg L430 contains_bools = Some t /\ gty_of contains_bools = Some g
        /\ size_of tg t = 16 /\ std_align L430 t = Some 8
        /\ gpath_offset L430 g ["y"; "y"] = Some (12, GScalar GBool)
        /\ path_offset tg t ["y"; "y"] = Some (12, TPrim PBool))
  /\ (exists t g, out_ty tg L430 scene = Some t /\ gty_of scene = Some g
        /\ gpath_offset L430 g ["m"; "y"; "x"] = Some (56, GScalar GFloat)
        /\ path_offset tg t ["m"; "y"; "x"] = Some (56, TPrim PF32)).
Proof.
  intros tg Hin. split; cbn [In] in Hin;
  repeat (destruct Hin as [<-|Hin]; [compute_all|]); contradiction.
Qed.

(** C17, C18: the padding functions of [ContainsBools] in std140 return 4 and 0. *)
Lemma C18_ex_proof :
  exists t outs g, out_ty x86_64 L140 contains_bools = Some t
  /\ map_opt (fun nf => match out_ty x86_64 L140 (snd nf) with Some u => Some (fst nf, u) | None => None end)
       [("x", HBool); ("y", bvec2)] = Some outs
  /\ emit L140 (DeriveInput "ContainsBools" [] (DNamed outs)) = Some g
  /\ map (fun nf => assoc (fst nf) (field_offsets x86_64 t)) [("x", HBool); ("y", bvec2)] = [Some 0; Some 8]
  /\ ceval x86_64 L140 (g_pads g) 1 (CCall (pad_fn_name L140 "ContainsBools" 0)) = CVal 4
  /\ ceval x86_64 L140 (g_pads g) 2 (CCall (pad_fn_name L140 "ContainsBools" 1)) = CVal 0
  /\ size_of x86_64 t = 16 /\ struct_calls g = Some 3.
Proof. compute_all. Qed.

(** C19: the bytes after [x] of [ContainsBools], the fourth word of each column and the tail
    of [Outer] are padding, and they are zero. *)
Lemma C19_ex_proof :
  (exists g bs, gty_of contains_bools = Some g /\ no_raw contains_bools = true
     /\ as_std_bytes x86_64 L140 contains_bools (HVRec [("x", HVBool true); ("y", HVRec [("x", HVBool true); ("y", HVBool false)])])
        = Some bs
     /\ bs = [x01; x00; x00; x00; x00; x00; x00; x00; x01; x00; x00; x00; x00; x00; x00; x00]
     /\ map (gcovers L140 g) [3; 4; 7; 8] = [true; false; false; true])
  /\ (exists g bs, gty_of main_uniform = Some g /\ no_raw main_uniform = true
     /\ hval_ok x86_64 main_uniform main1 = true
     /\ as_std_bytes x86_64 L140 main_uniform main1 = Some bs /\ len bs = 64
     /\ gcovers L140 g 12 = false /\ gcovers L140 g 63 = true /\ byte_at bs 63 = Some x3f).
Proof. compute_all. Qed.

(** C19.  Without [no_raw] the claim is false: a [std140::Mat3] obtained from bytes (safe
    [bytemuck] code) keeps whatever its padding contained, and [as_std140] of a struct that
    has it as a field copies it. *)
Lemma C19_raw_values_keep_padding_refuted_proof :
  ~ (forall tg l h g v bs i, target_ok tg = true -> gty_of h = Some g -> hval_ok tg h v = true ->
       as_std_bytes tg l h v = Some bs -> i < len bs -> gcovers l g i = false -> byte_at bs i = Some x00).
Proof.
  intros H.
  destruct (from_bytes x86_64 (match find_std L140 "Mat3" with Some t => t | None => TPrim PU8 end) (repeat xff 48)) as [s|] eqn:E;
    [|vm_compute in E; discriminate].
  vm_compute in E. injection E as E.
  specialize (H x86_64 L140 raw_user (GStruct "RawUser" [("m", GMat GFloat 3 3)]) (HVRec [("m", HVOut s)])).
  specialize (H (repeat xff 48) 12 eq_refl eq_refl). rewrite <- E in H.
  assert (X : byte_at (repeat xff 48) 12 = Some x00) by (apply H; vm_compute; reflexivity).
  vm_compute in X. discriminate.
Qed.

(** C20, C23: a nested value with booleans, doubles and a matrix. *)
Lemma C20_ex_proof : forall l,
  hval_ok x86_64 scene scene1 = true
  /\ (exists t s bs, out_ty x86_64 l scene = Some t /\ as_std x86_64 l scene scene1 = Some s
        /\ from_std x86_64 l scene s = Some scene1
        /\ as_std_bytes x86_64 l scene scene1 = Some bs /\ bytes_of x86_64 t s = Some bs)
  /\ (exists g x bs, gty_of scene = Some g /\ gval_of x86_64 scene scene1 = Some x
        /\ as_std_bytes x86_64 l scene scene1 = Some bs /\ gread x86_64 l g bs 0 = Some x).
Proof. intros [|]; compute_all. Qed.

(** C21, C24: words a GPU may write ([xff] everywhere: boolean words that are neither 0 nor
    1, nonzero padding) decode, and are normalised when converted back. *)
Lemma C24_ex_proof :
  exists t s v s', out_ty x86_64 L140 contains_bools = Some t /\ size_of x86_64 t = 16
    /\ from_bytes x86_64 t (repeat xff 16) = Some s
    /\ from_std x86_64 L140 contains_bools s = Some v
    /\ v = HVRec [("x", HVBool true); ("y", HVRec [("x", HVBool true); ("y", HVBool true)])]
    /\ as_std x86_64 L140 contains_bools v = Some s'
    /\ bytes_of x86_64 t s' = Some [x01; x00; x00; x00; x00; x00; x00; x00; x01; x00; x00; x00; x01; x00; x00; x00].
Proof. compute_all. Qed.

(** C31, C32, C46 on a concrete struct. *)
Lemma C32_ex_proof :
  out_align i686 L140 scene = Some 32 /\ out_align i686 L430 scene = Some 32
  /\ out_align x86_64 L140 contains_bools = Some 16 /\ out_align x86_64 L430 contains_bools = Some 8
  /\ std_size_static x86_64 L140 contains_bools = Some 16 /\ std_size_static x86_64 L430 contains_bools = Some 16
  /\ std_size_static x86_64 L140 mat2f = Some 32 /\ std_size_static x86_64 L430 mat2f = Some 16
  /\ (exists t, out_ty i686 L140 scene = Some t /\ align_of i686 t = 4)
  /\ (exists t, out_ty x86_64 L140 scene = Some t /\ align_of x86_64 t = 8).
Proof. compute_all. Qed.

(** C43: a [dmat3] is layout independent, a [mat2] is not. *)
Lemma C43_ex_proof :
  layout_independent (GMat GDouble 3 3) = true /\ layout_independent (GMat GFloat 2 2) = false
  /\ as_std_bytes x86_64 L140 vec3f (v3 1 2 3) = as_std_bytes x86_64 L430 vec3f (v3 1 2 3)
  /\ as_std_bytes x86_64 L140 mat2f (HVRec [("x", v2 1 2); ("y", v2 3 4)])
     <> as_std_bytes x86_64 L430 mat2f (HVRec [("x", v2 1 2); ("y", v2 3 4)]).
Proof. split; [reflexivity|]. split; [reflexivity|]. split; vm_compute; [reflexivity|discriminate]. Qed.

(** C34: an accepted struct whose field [_pad7] is not one of the generated names, and one
    that is rejected because it is larger than a 16-bit target allows. *)
Lemma C34_ex_proof :
  (exists t, out_ty x86_64 L140 (HStruct "P" [("_pad7", HPrim PF32); ("_pad", HPrim PF32)]) = Some t)
  /\ out_ty x86_64 L140 (HStruct "P" [("a", HPrim PF32); ("_pad1", HPrim PF32)]) = None
  /\ out_ty x86_64 L140 (HStruct "P" [("a", HPrim PU8)]) = None
  /\ (exists ms, field_metrics x86_64 L140 [("x", HBool); ("y", bvec2)] = Some ms /\ ms = [(4, 4); (8, 8)]).
Proof. compute_all. Qed.

(** C14: the generated std140 struct of the scene has explicit padding fields, and its fields
    tile it; a value of it has no uninitialised byte. *)
Lemma C14_ex_proof :
  exists t s bs, out_ty x86_64 L140 scene = Some t /\ as_std x86_64 L140 scene scene1 = Some s
    /\ has_sty t s = true
    /\ field_offsets x86_64 t
       = [("enabled", 0); ("_pad0", 4); ("light", 16); ("_pad1", 48); ("m", 48); ("_pad2", 80); ("d", 96); ("_pad3", 120);
          ("flags", 128); ("_pad4", 140); ("n", 140); ("_pad5", 144)]
    /\ size_of x86_64 t = 160 /\ mem_of x86_64 t s = Some (map Some bs) /\ len bs = 160.
Proof.
  do 2 eexists. exists (match as_std_bytes x86_64 L140 scene scene1 with Some bs => bs | None => [] end).
  split; [vm_compute; reflexivity|]. split; [vm_compute; reflexivity|]. repeat split; vm_compute; reflexivity.
Qed.

(** C17: the metrics of the fields of the scene, and what follows from them. *)
Lemma C17_ex_proof :
  exists t g, out_ty i686 L430 scene = Some t /\ gty_of scene = Some g
    /\ field_metrics i686 L430 [("enabled", HBool); ("light", point_light); ("m", mat2f); ("d", dvec3); ("flags", bvec3); ("n", HPrim PI32)]
       = Some [(4, 4); (16, 32); (8, 16); (32, 24); (16, 12); (4, 4)]
    /\ starts 0 [(4, 4); (16, 32); (8, 16); (32, 24); (16, 12); (4, 4)] = [0; 16; 48; 64; 96; 108]
    /\ extent 0 [(4, 4); (16, 32); (8, 16); (32, 24); (16, 12); (4, 4)] = 112
    /\ size_of i686 t = 128 /\ std_align L430 t = Some 32 /\ gsize L430 g = 128 /\ base_align L430 g = 32.
Proof. compute_all. Qed.

(** C21: nonzero padding and boolean words other than 1 are normalised. *)
Lemma C21_ex_proof :
  exists t g s v s', out_ty x86_64 L140 contains_bools = Some t /\ gty_of contains_bools = Some g
    /\ no_raw contains_bools = true
    /\ from_bytes x86_64 t (repeat x07 16) = Some s /\ bytes_of x86_64 t s = Some (repeat x07 16)
    /\ from_std x86_64 L140 contains_bools s = Some v
    /\ as_std x86_64 L140 contains_bools v = Some s'
    /\ bytes_of x86_64 t s' = Some [x01; x00; x00; x00; x00; x00; x00; x00; x01; x00; x00; x00; x01; x00; x00; x00].
Proof. compute_all. Qed.

(** C22: any 16 bytes are a value of the generated struct. *)
Lemma C22_ex_proof :
  exists t s, out_ty powerpc64 L430 contains_bools = Some t
    /\ from_bytes powerpc64 t [x00; x01; x02; x03; x04; x05; x06; x07; x08; x09; x0a; x0b; x0c; x0d; x0e; x0f] = Some s
    /\ has_sty t s = true
    /\ bytes_of powerpc64 t s = Some [x00; x01; x02; x03; x04; x05; x06; x07; x08; x09; x0a; x0b; x0c; x0d; x0e; x0f]
    /\ from_bytes powerpc64 t [x00; x01] = None.
Proof. compute_all. Qed.

(** C23: a light in the middle of a larger buffer, as the shader sees it. *)
Lemma C23_ex_proof :
  exists t g bs, out_ty x86_64 L430 point_light = Some t /\ gty_of point_light = Some g
    /\ hval_ok x86_64 point_light light1 = true /\ as_std_bytes x86_64 L430 point_light light1 = Some bs
    /\ read_at (repeat xee 16 ++ bs ++ [xff])%list 16 (len bs) = Some bs
    /\ gread x86_64 L430 g (repeat xee 16 ++ bs ++ [xff])%list 16
       = Some (GVStruct [("position", GVVec [GVBits 1065353216; GVBits 2; GVBits 3]); ("color", GVVec [GVBits 4; GVBits 5; GVBits 6]);
                         ("brightness", GVBits 1065353216)]).
Proof. compute_all. Qed.

(** C25: the tables are not empty; some rows. *)
Lemma C25_ex_proof :
  In ("DMat3", GMat GDouble 3 3) std_names /\ In ("BVec3", GVec GBool 3) std_names
  /\ base_align L140 (GMat GDouble 3 3) = 32 /\ gsize L140 (GMat GDouble 3 3) = 96
  /\ gpath_offset L430 (GMat GDouble 3 3) ["y"] = Some (32, GVec GDouble 3)
  /\ (length std_names = 21)%nat.
Proof. repeat split; try (vm_compute; reflexivity); cbn; tauto. Qed.

(** C26: big-endian [true]; any nonzero word reads as [true]. *)
Lemma C26_ex_proof :
  as_std_bytes powerpc64 L140 HBool (HVBool true) = Some [x00; x00; x00; x01]
  /\ from_std powerpc64 L140 HBool (SBits 4294967295) = Some (HVBool true)
  /\ from_std powerpc64 L140 HBool (SBits 0) = Some (HVBool false).
Proof. compute_all. Qed.

(** C27: two words that both read as [true] but are not equal. *)
Lemma C27_ex_proof :
  pbits_ok PBool 1 = true /\ pbits_ok PBool 2 = true /\ Bool_eq 1 2 = false
  /\ bool_from_Bool 1 = true /\ bool_from_Bool 2 = true.
Proof. compute_all. Qed.

(** C31: the largest alignment of a built-in type, a [DynamicUniform], and the empty struct. *)
Lemma C31_ex_proof :
  out_align x86_64 L430 scene = Some 32 /\ out_align x86_64 L140 (HDyn scene) = Some 256
  /\ out_align x86_64 L430 (HStruct "Empty" []) = Some 0 /\ std_size_static x86_64 L430 (HStruct "Empty" []) = Some 0
  /\ out_align x86_64 L140 (HStruct "Empty" []) = Some 16.
Proof. compute_all. Qed.

(** C33: a glam, a nalgebra and a cgmath row. *)
Lemma C33_ex_proof :
  existsb (fun r => String.eqb (my_rust r) "glam::Vec3") glam_rows = true
  /\ (0 < length nalgebra_rows)%nat
  /\ existsb (fun r => String.eqb (er_ty r) "Matrix3" && elem_eqb (er_elem r) EF32) cgmath_rows = true
  /\ hval_ok x86_64 vec3f (v3 1 2 3) = true.
Proof. split; [vm_compute; reflexivity|]. split; [vm_compute; repeat constructor|]. split; vm_compute; reflexivity. Qed.

(** C35: the names of the helpers of one derive. *)
Lemma C35_ex_proof :
  exists g, emit L140 (DeriveInput "Foo" [] (DNamed [("x", TPrim PF32); ("y", TPrim PF32)])) = Some g
    /\ g_name g = "Std140Foo"
    /\ map fst (g_pads g) = ["_Foo__Std140Pad0"; "_Foo__Std140Pad1"].
Proof. compute_all. Qed.

(** C44. *)
Lemma C44_ex_proof : max_arr [4; 16; 8] = Some 16 /\ max_arr [] = Some 0 /\ Internal.max 3 3 = 3.
Proof. compute_all. Qed.

(** C45: the padding functions of a struct of twelve floats. *)
Lemma C45_ex_proof :
  exists g, emit L430 (DeriveInput "T" [] (DNamed (map (fun i => (dec i, TPrim PF32)) (seq 0 12)))) = Some g
    /\ struct_calls g = Some 4095.
Proof. compute_all. Qed.

(** C46: the Rust alignment of the scene is 8 on x86-64, 4 on i686, 1 on AVR. *)
Lemma C46_ex_proof :
  (exists t, out_ty x86_64 L140 scene = Some t /\ std_align L140 t = Some 32 /\ align_of x86_64 t = 8 /\ size_of x86_64 t = 160)
  /\ (exists t, out_ty i686 L140 scene = Some t /\ align_of i686 t = 4)
  /\ (exists t, out_ty avr_release L140 scene = Some t /\ align_of avr_release t = 1).
Proof. compute_all. Qed.
