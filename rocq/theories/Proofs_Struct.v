(** * Proofs of the properties relating structs and field-by-field writing (C49) *)

From Coq Require Import NArith String Bool List Lia ZArith.
From Coq Require Import ZifyBool ZifyN ZifyNat.
From Coq Require Import Strings.Byte.
From Verif Require Import Rust Internal Prims Derive Host Rows Buffer SpecBuf SpecGlsl SpecHost SpecTypes
  Arith RustFacts DeriveFacts TypeFacts HostFacts GlslFacts PadFacts BufferFacts WriterFacts Samples
  Proofs_Buffer Proofs_Types.
Import ListNotations.
Local Open Scope string_scope.
Local Open Scope N_scope.

Lemma flat_zero_pad tg p : flat tg (TArray PU8 p) (zeroed (TArray PU8 p)) = zeros p.
Proof.
  cbn [zeroed flat]. unfold zeros. induction (N.to_nat p) as [|n IH]; [reflexivity|].
  cbn [repeat flat_map]. rewrite IH. unfold enc_prim. destruct tg as [? ? ? [] ?]; reflexivity.
Qed.

(** the leaf parts of the fields *)
Lemma conv_parts tg l fs vs outs ss : target_ok tg = true -> conv tg l fs vs outs ss ->
  parts_list tg l (map leaf (combine (map snd fs) (map snd vs)))
  = Some (combine (map (fun o => alN l (snd o)) outs) (map (fun p => flat tg (fst p) (snd p)) (combine (map snd outs) (map snd ss)))).
Proof.
  intros Htg. induction 1 as [|f h w t s fs vs outs ss Ho Hv Ha Hs Hf _ IH]; [reflexivity|].
  cbn [map combine leaf fst snd parts_list]. change (leaf (h, w)) with (WLeaf h w).
  destruct (leaf_parts _ _ _ _ _ Htg Ho Hv) as [s' [E1 [_ [E3 _]]]]. rewrite Ha in E1. injection E1 as <-.
  rewrite E3, IH. reflexivity.
Qed.

Definition fparts tg l (outs : list (string * sty)) (ss : list (string * sval)) : list part :=
  combine (map (fun o => alN l (snd o)) outs) (map (fun p => flat tg (fst p) (snd p)) (combine (map snd outs) (map snd ss))).

Lemma ha_zero a c : a = 0 \/ (a | c) -> align_offset c a = 0.
Proof. intros [->|D]; [apply align_offset_0|now apply align_offset_aligned]. Qed.

Lemma flat_gen tg l fin inits outs : forall ss idx cur,
  head_aligned l fin cur outs ->
  Forall2 (fun o s => fst o = fst s /\ nopad tg (snd o) = true /\ has_sty (snd o) (snd s) = true) outs ss ->
  (forall f s, In (f, s) ss -> assoc f inits = Some s) ->
  (forall i, assoc (pad_field_name (idx + i)) inits = None \/ (length outs <= i)%nat) ->
  flat_fields tg (gen_fields tg l fin idx cur outs) (updated (gen_fields tg l fin idx cur outs) inits)
  = (render cur (fparts tg l outs ss)
     ++ zeros (match outs with [] => 0 | _ => align_offset (end_of cur (fparts tg l outs ss)) fin end))%list.
Proof.
  induction outs as [|[f t] outs IH]; intros ss idx cur Hh HF Hin Hpad; inversion HF as [|? [f' s] ? ss' [Hn [Hnp Hs]] HF']; subst.
  - reflexivity.
  - cbn [fst snd] in *. subst f'.
    cbn [gen_fields updated map flat_fields fst snd]. rewrite (Hin f s (or_introl eq_refl)).
    destruct (Hpad 0%nat) as [P|P]; [|cbn in P; lia]. rewrite Nat.add_0_r in P. rewrite P, flat_zero_pad.
    set (p := align_offset (cur + size_of tg t) match outs with [] => fin | (_, u) :: _ => alN l u end).
    cbn [fparts map combine fst snd render end_of]. fold (fparts tg l outs ss').
    assert (A0 : align_offset cur (alN l t) = 0) by (apply ha_zero; exact Hh).
    rewrite A0. cbn [zeros N.to_nat repeat app]. rewrite N.add_0_r.
    assert (El : len (flat tg t s) = size_of tg t) by (now apply len_flat). rewrite El.
    fold (updated (gen_fields tg l fin (S idx) (cur + size_of tg t + p) outs) inits).
    rewrite <- app_assoc. f_equal.
    rewrite (IH ss' (S idx) (cur + size_of tg t + p)); [| |assumption| |].
    + destruct outs as [|[f2 t2] outs].
      * inversion HF'; subst. cbn. rewrite app_nil_r. reflexivity.
      * inversion HF' as [|? [f2' s2] ? ss2 [Hn2 [Hnp2 Hs2]] HF2]; subst. cbn [fparts map combine fst snd render end_of].
        rewrite app_assoc. f_equal.
        -- assert (A1 : align_offset (cur + size_of tg t + p) (alN l t2) = 0).
           { unfold p. pose proof (head_aligned_next l fin (cur + size_of tg t) ((f2, t2) :: outs)) as HN. apply ha_zero; exact HN. }
           rewrite A1. cbn [zeros N.to_nat repeat app]. unfold p. rewrite N.add_0_r. reflexivity.
        -- f_equal. f_equal. unfold p.
           assert (A1 : align_offset (cur + size_of tg t + align_offset (cur + size_of tg t) (alN l t2)) (alN l t2) = 0).
           { apply ha_zero. exact (head_aligned_next l fin (cur + size_of tg t) ((f2, t2) :: outs)). }
           rewrite A1, N.add_0_r. reflexivity.
    + apply head_aligned_next.
    + intros g v Hgv. apply Hin. now right.
    + intros i. destruct (Hpad (S i)) as [Q|Q]; [left|right; cbn in Q; lia]. now rewrite Nat.add_succ_l, <- Nat.add_succ_r.
Qed.

Lemma pad_in_gen tg l fin : forall outs idx cur i, (i < length outs)%nat ->
  In (pad_field_name (idx + i)) (map fst (gen_fields tg l fin idx cur outs)).
Proof.
  induction outs as [|[f u] outs IH]; intros idx cur i Hi; [cbn in Hi; lia|]. cbn [gen_fields map fst].
  destruct i as [|i]; [rewrite Nat.add_0_r; right; left; reflexivity|]. right. right.
  replace (idx + S i)%nat with (S idx + i)%nat by lia. apply IH. cbn in Hi. lia.
Qed.

(** C49.  Writing the fields of a derived struct one by one through a fresh [Writer] puts
    each at its offset in the generated struct and produces the struct's [as_bytes()]
    without the trailing padding, which is zero; the bytes of the struct at a field's
    offset are the field's own [as_stdN().as_bytes()]. *)
Lemma C49_fieldwise_writing_proof : forall tg l name fs t vs bs,
  target_ok tg = true -> out_ty tg l (HStruct name fs) = Some t ->
  hval_ok tg (HStruct name fs) (HVRec vs) = true ->
  as_std_bytes tg l (HStruct name fs) (HVRec vs) = Some bs ->
  exists w offs,
    write_vals tg l vec_sink (map leaf (combine (map snd fs) (map snd vs))) (writer_new []) = (w, (offs, None))
    /\ map (fun nf => assoc (fst nf) (field_offsets tg t)) fs = map Some offs
    /\ bs = (w_inner w ++ repeat x00 (N.to_nat (size_of tg t - len (w_inner w))))%list
    /\ (forall i f h v o, nth_error fs i = Some (f, h) -> nth_error (map snd vs) i = Some v -> nth_error offs i = Some o ->
          exists b, as_std_bytes tg l h v = Some b /\ read_at bs o (len b) = Some b).
Proof.
  intros tg l name fs t vs bs Htg Ho Hv Hb.
  rewrite hval_ok_struct in Hv.
  destruct (as_std_struct_detail tg l name fs vs t Htg Ho Hv) as [outs [inits [E [-> [Hnd [HG [HC Ha]]]]]]].
  destruct (derived_props tg l name outs HG) as [G [Hsz _]]. cbn zeta in *.
  pose proof (conv_parts tg l _ _ _ _ Htg HC) as HP. fold (fparts tg l outs inits) in HP.
  assert (HF : Forall2 (fun o s => fst o = fst s /\ nopad tg (snd o) = true /\ has_sty (snd o) (snd s) = true) outs inits).
  { clear -HC HG. induction HC; [constructor|]. inversion HG as [|? ? G1 G2]; subst. constructor; [|auto].
    cbn [fst snd] in *. split; [reflexivity|]. split; [eapply good_nopad; exact G1|assumption]. }
  destruct (conv_names _ _ _ _ _ _ HC) as [Nv [No Ns]].
  assert (NDi : NoDup (map fst inits)).
  { rewrite Ns, <- No. eapply gen_fields_NoDup_sub. exact Hnd. }
  assert (Hin : forall f s, In (f, s) inits -> assoc f inits = Some s).
  { intros f s. now apply assoc_nodup. }
  assert (Hpad : forall i, assoc (pad_field_name (0 + i)) inits = None \/ (length outs <= i)%nat).
  { intros i. destruct (Nat.lt_ge_cases i (length outs)) as [Hi|Hi]; [left|now right].
    destruct (assoc (pad_field_name (0 + i)) inits) as [s|] eqn:Q; [|reflexivity]. exfalso.
    apply assoc_in in Q. apply (in_map fst) in Q. cbn [fst] in Q. rewrite Ns, <- No in Q.
    clear -Hnd Q Hi. unfold derived_fields in Hnd. revert Hnd. generalize (struct_al l outs) as fin.
    assert (K : forall fin outs idx cur i, (i < length outs)%nat -> In (pad_field_name (idx + i)) (map fst outs) ->
      ~ NoDup (map fst (gen_fields tg l fin idx cur outs))).
    { clear. induction outs as [|[f u] outs IH]; intros idx cur i Hi Q ND; [cbn in Hi; lia|].
      cbn [gen_fields map fst] in ND. inversion ND as [|? ? N1 N2]; subst. inversion N2 as [|? ? N3 N4]; subst.
      destruct Q as [Q|Q].
      - cbn [fst] in Q. subst f. apply N1. destruct i as [|i]; [rewrite Nat.add_0_r; now left|]. right.
        replace (idx + S i)%nat with (S idx + i)%nat by lia. apply pad_in_gen. cbn in Hi. lia.
      - destruct i as [|i].
        + rewrite Nat.add_0_r in Q. apply N3. apply in_map_iff in Q. destruct Q as [[g v] [Eg Q]]. cbn [fst] in Eg. subst g.
          apply (gen_fields_sub tg l fin _ (S idx) (cur + size_of tg u + align_offset (cur + size_of tg u) match outs with [] => fin | (_, u) :: _ => alN l u end)) in Q.
          apply (in_map fst) in Q. exact Q.
        + apply (IH (S idx) _ i ltac:(cbn in Hi; lia)) in N4; [assumption|].
          replace (S idx + i)%nat with (idx + S i)%nat by lia. assumption. }
    intros fin ND. eapply K; eassumption. }
  pose proof (flat_gen tg l (struct_al l outs) inits outs inits 0 0 (head_aligned_0 _ _ _) HF Hin Hpad) as FG.
  fold (derived_fields tg l outs) in FG.
  set (ps := fparts tg l outs inits) in *.
  (* the bytes of the struct *)
  assert (Eb : bs = flat_fields tg (derived_fields tg l outs) (updated (derived_fields tg l outs) inits)).
  { unfold as_std_bytes in Hb. rewrite Ho, Ha in Hb. unfold derived in Hb. rewrite bytes_of_flat in Hb.
    - rewrite flat_struct in Hb. now injection Hb.
    - apply good_nopad in G. exact G.
    - destruct (conv_total tg Htg _ _ _ Ho) as [Hc _]. destruct (Hc (HVRec vs)) as [s' [Q1 [Q2 _]]]; [now rewrite hval_ok_struct|].
      rewrite Ha in Q1. injection Q1 as <-. exact Q2. }
  rewrite FG in Eb. clear FG.
  assert (Hlen : len bs = size_of tg (derived tg l name outs)).
  { destruct (leaf_parts _ _ _ _ _ Htg Ho (eq_trans (hval_ok_struct _ _ _ _) Hv)) as [s' [_ [_ [_ [_ [Q5 [_ [Q7 _]]]]]]]].
    rewrite Hb in Q5. injection Q5 as ->. exact Q7. }
  pose proof (size_lt_umod tg Htg _ _ _ Ho) as Hlt.
  assert (Hend : end_of 0 ps = len (render 0 ps)) by (rewrite end_of_render; lia).
  assert (Hty : typed_all tg l (combine (map snd fs) (map snd vs))).
  { clear -HC. induction HC as [|f h w t s fs vs outs ss Ho Hv Ha Hs Hf _ IH]; [constructor|]. constructor; [|exact IH]. cbn [fst snd]. eauto. }
  assert (HPs : parts tg l (WSeq (map leaf (combine (map snd fs) (map snd vs)))) = Some ps) by (now rewrite parts_WSeq).
  pose proof (parts_uals tg l Htg _ _ (typed_all_ok _ _ _ Hty) HPs) as Hu.
  pose proof (run1_offs tg vec_sink vec_infallible ps (writer_new [])) as R. cbn [writer_new w_offset] in R.
  assert (Hle : len (render 0 ps) <= size_of tg (derived tg l name outs)).
  { rewrite <- Hlen, Eb, len_app. lia. }
  rewrite offs_ok in R; [|assumption|pose proof (umod_pos tg); lia|lia].
  destruct R as [i' R].
  destruct (run1_spec tg vec_sink (fun v => v) vec_lawful ps (writer_new []) _ _ None 0 Hu (at_pos_0 tg) R) as [_ [_ [_ D]]].
  cbn [writer_new w_inner app] in D.
  exists (Writer i' (end_of 0 ps)), (map fst (placements 0 ps)).
  split; [rewrite (write_vals_run1 tg l vec_sink Htg _ _ ps Hty HPs); exact R|].
  cbn [w_inner]. rewrite D. split; [|split].
  - pose proof (C17_size_and_alignment_proof tg l name fs _ Htg Ho) as [ms [Em [_ [S1 _]]]].
    rewrite (field_metrics_mems tg l fs outs Htg E) in Em. injection Em as <-. rewrite S1. f_equal.
    clear -HF. unfold ps, mems. generalize 0 as cur. induction HF as [|[f u] [f' s] outs inits [_ [Hn Hs]] _ IH]; intros cur; [reflexivity|].
    cbn [map fparts combine fst snd placements starts]. rewrite !next_aligned_eq. cbn [fst snd] in *.
    assert (El : len (flat tg u s) = size_of tg u) by (now apply len_flat). rewrite El. f_equal. apply IH.
  - rewrite Eb at 1. f_equal. unfold zeros. f_equal. f_equal. rewrite <- Hlen, Eb, len_app, len_zeros. lia.
  - intros i f h v o H1 H2 H3.
    assert (Hnth : exists b al, as_std_bytes tg l h v = Some b /\ nth_error ps i = Some (al, b)).
    { clear -Htg HC H1 H2. unfold ps. revert i H1 H2. induction HC as [|f' h' w t s fs vs outs ss Ho Hv Ha Hs Hf _ IH]; intros i H1 H2; [now destruct i|].
      destruct i as [|i]; [|now apply IH].
      cbn [nth_error map snd] in H1, H2. injection H1 as <- <-. injection H2 as <-.
      destruct (leaf_parts _ _ _ _ _ Htg Ho Hv) as [s' [Q1 [_ [_ [_ [Q5 _]]]]]]. rewrite Ha in Q1. injection Q1 as <-.
      do 2 eexists. split; [exact Q5|reflexivity]. }
    destruct Hnth as [b [al [Q1 Q2]]]. exists b. split; [exact Q1|].
    assert (Hpl : In (o, b) (placements 0 ps)).
    { clear -H3 Q2. revert i H3 Q2. generalize 0 as cur. generalize ps. clear.
      induction ps as [|[a c] ps IH]; intros cur i H3 Q2; [now destruct i|]. destruct i as [|i]; cbn [placements map nth_error fst] in *.
      - injection H3 as <-. injection Q2 as <- <-. now left.
      - right. eapply IH; eassumption. }
    destruct (render_is_image ps) as [I1 [I2 _]]. specialize (I2 _ _ Hpl).
    rewrite Eb. rewrite read_at_app_l; [exact I2|].
    pose proof (increasing_in _ _ _ _ _ (increasing_placements ps 0) Hpl) as [_ Q]. lia.
Qed.

(** [C49]: a struct with trailing padding (std140) *)
Lemma C49_ex_proof :
  out_ty x86_64 L140 scene <> None /\ hval_ok x86_64 scene scene1 = true
  /\ (exists fs vs w offs, scene = HStruct "Scene" fs /\ scene1 = HVRec vs
       /\ write_vals x86_64 L140 vec_sink (map leaf (combine (map snd fs) (map snd vs))) (writer_new []) = (w, (offs, None))
       /\ length offs = length fs).
Proof.
  split; [vm_compute; discriminate|]. split; [vm_compute; reflexivity|].
  do 4 eexists. split; [reflexivity|]. split; [reflexivity|]. split; [vm_compute; reflexivity|reflexivity].
Qed.
