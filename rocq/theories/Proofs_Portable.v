(** * Layouts on different targets (C50) *)

From Coq Require Import NArith String Bool List Lia ZArith.
From Coq Require Import ZifyBool ZifyN ZifyNat.
From Coq Require Import Strings.Byte.
From Verif Require Import Rust Internal Prims Derive Host Rows SpecBuf SpecGlsl SpecHost SpecTypes
  Arith RustFacts DeriveFacts TypeFacts HostFacts GlslFacts PadFacts Samples Proofs_Types.
Import ListNotations.
Local Open Scope string_scope.
Local Open Scope N_scope.

Lemma size_port tg1 tg2 : forall t, nopad tg1 t = true -> nopad tg2 t = true -> size_of tg1 t = size_of tg2 t.
Proof.
  induction t as [p|p n|l n al fs IH|t IH] using sty_ind'; intros H1 H2; try reflexivity.
  - rewrite !nopad_size_of by assumption. apply nopad_all in H1, H2. clear -IH H1 H2.
    induction fs as [|[f t] fs IHf]; [reflexivity|]. inversion IH; inversion H1; inversion H2; subst. cbn [sizes snd] in *.
    rewrite IHf by assumption. f_equal. auto.
  - cbn [nopad] in *. exact (IH H1 H2).
Qed.

Lemma good_size_port tg1 tg2 l1 l2 t : good tg1 l1 t -> good tg2 l2 t -> size_of tg1 t = size_of tg2 t.
Proof. intros G1 G2. apply size_port; eapply good_nopad; eassumption. Qed.

Lemma gen_port tg1 tg2 l fin fs : Forall (fun f => good tg1 l (snd f)) fs -> Forall (fun f => good tg2 l (snd f)) fs ->
  forall idx cur, gen_fields tg1 l fin idx cur fs = gen_fields tg2 l fin idx cur fs.
Proof.
  induction fs as [|[f t] fs IH]; intros H1 H2 idx cur; [reflexivity|]. inversion H1; inversion H2; subst. cbn [gen_fields snd] in *.
  rewrite (good_size_port tg1 tg2 l l t) by assumption. rewrite IH by assumption. reflexivity.
Qed.

Lemma derived_port tg1 tg2 l name fs : Forall (fun f => good tg1 l (snd f)) fs -> Forall (fun f => good tg2 l (snd f)) fs ->
  derived tg1 l name fs = derived tg2 l name fs.
Proof. intros H1 H2. unfold derived, derived_fields. f_equal. now apply gen_port. Qed.

(** a type accepted on a target is accepted, with the same [Output], on every target with
    room for larger types *)
Lemma out_port tg1 tg2 : target_ok tg1 = true -> target_ok tg2 = true -> t_obj tg1 <= t_obj tg2 ->
  forall h l t, out_ty tg1 l h = Some t -> out_ty tg2 l h = Some t.
Proof.
  intros T1 T2 Hobj. induction h as [p| |r s fs IH|r m IH|h IH|n fs IH|l' h IH] using hty_ind'; intros l t H.
  - exact H.
  - exact H.
  - rewrite out_ty_HEasy in *. destruct (find_std l s) as [u|]; [|discriminate].
    destruct (out_fields tg1 l fs) as [outs|] eqn:E; [|discriminate].
    assert (E2 : out_fields tg2 l fs = Some outs).
    { apply out_fields_Forall2 in E. apply out_fields_Forall2. clear -IH E.
      induction E as [|[f h] [g u] fs outs [E1 E2] _ IHE]; constructor; inversion IH; subst; cbn [fst snd] in *; auto. }
    now rewrite E2.
  - cbn [out_ty] in *. now apply IH.
  - cbn [out_ty] in *. destruct l; [|discriminate]. destruct (out_ty tg1 L140 h) as [u|] eqn:E; [|discriminate].
    now rewrite (IH _ _ E).
  - destruct (out_ty_HStruct_inv _ _ _ _ _ T1 H) as [outs [E [G1 [Hnd [-> Hs]]]]].
    rewrite out_ty_HStruct in H. rewrite E in H. apply derive_output_iff in H; [|assumption]. destruct H as [A1 [_ [_ [_ A5]]]].
    assert (E2 : out_fields tg2 l fs = Some outs).
    { apply out_fields_Forall2 in E. apply out_fields_Forall2. clear -IH E.
      induction E as [|[f h] [g u] fs outs [E1 E2] _ IHE]; constructor; inversion IH; subst; cbn [fst snd] in *; auto. }
    assert (G2 : Forall (fun f => good tg2 l (snd f)) outs).
    { apply out_fields_Forall2 in E2. clear -E2 T2. induction E2 as [|? ? ? ? [_ A] _ IH2]; constructor; [eapply out_ty_good; eassumption|assumption]. }
    rewrite out_ty_HStruct, E2. apply derive_output_iff; [assumption|].
    assert (Eg : derived_fields tg1 l outs = derived_fields tg2 l outs) by (apply gen_port; assumption).
    split; [exact A1|]. split; [now rewrite <- Eg|]. split; [now apply derived_port|]. split; [|exact A5].
    rewrite <- (good_size_port tg1 tg2 l l); [lia|apply derived_props; assumption|].
    rewrite (derived_port tg1 tg2) by assumption. apply derived_props; assumption.
  - cbn [out_ty] in *. destruct (out_ty tg1 l' h) as [u|] eqn:E; [|discriminate]. now rewrite (IH _ _ E).
Qed.

Lemma out_same tg1 tg2 l h t1 t2 : target_ok tg1 = true -> target_ok tg2 = true ->
  out_ty tg1 l h = Some t1 -> out_ty tg2 l h = Some t2 -> t1 = t2.
Proof.
  intros T1 T2 H1 H2. destruct (N.le_ge_cases (t_obj tg1) (t_obj tg2)) as [L|L].
  - apply (out_port _ _ T1 T2 L) in H1. congruence.
  - apply (out_port _ _ T2 T1 L) in H2. congruence.
Qed.

Definition both tg1 tg2 l h := exists t, out_ty tg1 l h = Some t /\ out_ty tg2 l h = Some t.

Lemma both_fields tg1 tg2 l fs outs : out_fields tg1 l fs = Some outs -> out_fields tg2 l fs = Some outs ->
  Forall (fun nf => both tg1 tg2 l (snd nf)) fs.
Proof.
  rewrite !out_fields_Forall2. intros H. revert outs H. induction fs as [|[f h] fs IH]; intros outs H1 H2; [constructor|].
  inversion H1 as [|? ? ? ? [A1 A2] A3]; inversion H2 as [|? ? ? ? [B1 B2] B3]; subst.
  match goal with H : _ :: _ = _ :: _ |- _ => injection H as -> -> end.
  constructor; [|eapply IH; eassumption]. exists (snd y). auto.
Qed.

Lemma both_struct tg1 tg2 l name fs : target_ok tg1 = true -> target_ok tg2 = true -> both tg1 tg2 l (HStruct name fs) ->
  Forall (fun nf => both tg1 tg2 l (snd nf)) fs /\ NoDup (map fst fs)
  /\ exists outs, out_fields tg1 l fs = Some outs /\ out_fields tg2 l fs = Some outs.
Proof.
  intros T1 T2 [t [H1 H2]].
  destruct (struct_facts _ _ _ _ _ T1 H1) as [o1 [E1 [N1 _]]]. destruct (struct_facts _ _ _ _ _ T2 H2) as [o2 [E2 _]].
  assert (o1 = o2).
  { apply out_fields_Forall2 in E1, E2. clear -E1 E2 T1 T2. revert o2 E2. induction E1 as [|[f h] [g u] fs o1 [A B] _ IH]; intros o2 E2;
      inversion E2 as [|? [g2 u2] ? o2' [A2 B2] E2']; subst; [reflexivity|]. cbn [fst snd] in *. f_equal; [|auto].
    f_equal; [congruence|eapply out_same; [exact T1|exact T2|eassumption|eassumption]]. }
  subst o2. split; [eapply both_fields; eassumption|]. split; [assumption|]. eauto.
Qed.

Lemma both_easy tg1 tg2 l r s fs : target_ok tg1 = true -> target_ok tg2 = true -> both tg1 tg2 l (HEasy r s fs) ->
  Forall (fun nf => both tg1 tg2 l (snd nf)) fs.
Proof.
  intros T1 T2 [t [H1 H2]]. rewrite out_ty_HEasy in H1, H2. destruct (find_std l s); [|discriminate].
  destruct (out_fields tg1 l fs) as [o1|] eqn:E1; [|discriminate]. destruct (out_fields tg2 l fs) as [o2|] eqn:E2; [|discriminate].
  assert (o1 = o2).
  { apply out_fields_Forall2 in E1, E2. clear -E1 E2 T1 T2. revert o2 E2. induction E1 as [|[f h] [g u] fs o1 [A B] _ IH]; intros o2 E2;
      inversion E2 as [|? [g2 u2] ? o2' [A2 B2] E2']; subst; [reflexivity|]. cbn [fst snd] in *. f_equal; [|auto].
    f_equal; [congruence|eapply out_same; [exact T1|exact T2|eassumption|eassumption]]. }
  subst o2. eapply both_fields; eassumption.
Qed.

Lemma both_out tg1 tg2 l l' h : target_ok tg1 = true -> target_ok tg2 = true -> both tg1 tg2 l (HOut l' h) -> both tg1 tg2 l' h.
Proof.
  intros T1 T2 [t [H1 H2]]. apply out_ty_HOut in H1, H2. destruct H1 as [_ [H1 _]], H2 as [_ [H2 _]]. now exists t.
Qed.

Lemma hval_port tg1 tg2 : target_ok tg1 = true -> target_ok tg2 = true -> forall h l v, both tg1 tg2 l h ->
  hval_ok tg1 h v = hval_ok tg2 h v.
Proof.
  intros T1 T2. induction h as [p| |r s fs IH|r m IH|h IH|n fs IH|l' h IH] using hty_ind'; intros l v B.
  - reflexivity.
  - reflexivity.
  - destruct v as [| |vs| | |]; try reflexivity. rewrite !hval_ok_easy. pose proof (both_easy _ _ _ _ _ _ T1 T2 B) as BF. clear B.
    revert vs. induction fs as [|[f h] fs IHf]; intros [|[g w] vs]; try reflexivity. cbn [hfields_ok].
    inversion IH as [|? ? A1 A2]; inversion BF as [|? ? B1 B2]; subst. cbn [snd] in *. rewrite IHf by assumption.
    now rewrite (A1 l w B1).
  - destruct v; try reflexivity. cbn [hval_ok]. apply (IH l). exact B.
  - destruct v; try reflexivity. cbn [hval_ok]. destruct B as [t [B1 B2]]. cbn [out_ty] in *. destruct l; [|discriminate].
    destruct (out_ty tg1 L140 h) as [u1|] eqn:E1; [|discriminate]. destruct (out_ty tg2 L140 h) as [u2|] eqn:E2; [|discriminate].
    apply (IH L140). exists u1. split; [assumption|congruence].
  - destruct v as [| |vs| | |]; try reflexivity. rewrite !hval_ok_struct. destruct (both_struct _ _ _ _ _ T1 T2 B) as [BF _]. clear B.
    revert vs. induction fs as [|[f h] fs IHf]; intros [|[g w] vs]; try reflexivity. cbn [hfields_ok].
    inversion IH as [|? ? A1 A2]; inversion BF as [|? ? B1 B2]; subst. cbn [snd] in *. rewrite IHf by assumption.
    now rewrite (A1 l w B1).
  - destruct v; try reflexivity. cbn [hval_ok]. apply (both_out _ _ _ _ _ T1 T2) in B. destruct B as [t [B1 B2]]. now rewrite B1, B2.
Qed.

Lemma as_port tg1 tg2 : target_ok tg1 = true -> target_ok tg2 = true -> forall h l v, both tg1 tg2 l h ->
  as_std tg1 l h v = as_std tg2 l h v.
Proof.
  intros T1 T2. induction h as [p| |r s fs IH|r m IH|h IH|n fs IH|l' h IH] using hty_ind'; intros l v B.
  - reflexivity.
  - reflexivity.
  - rewrite !as_std_HEasy. pose proof (both_easy _ _ _ _ _ _ T1 T2 B) as BF. clear B.
    assert (E : as_inits tg1 l fs v = as_inits tg2 l fs v); [|now rewrite E].
    unfold as_inits. revert BF. induction fs as [|[f h] fs IHf]; intros BF; [reflexivity|]. cbn [map_opt fst snd].
    inversion IH as [|? ? A1 A2]; inversion BF as [|? ? B1 B2]; subst. cbn [snd] in *. rewrite IHf by assumption.
    destruct (hfield f v) as [w|]; [|reflexivity]. now rewrite (A1 l w B1).
  - destruct v; try reflexivity. cbn [as_std]. apply (IH l). exact B.
  - destruct v; try reflexivity. cbn [as_std]. destruct B as [t [B1 B2]]. cbn [out_ty] in *. destruct l; [|discriminate].
    destruct (out_ty tg1 L140 h) as [u1|] eqn:E1; [|discriminate]. destruct (out_ty tg2 L140 h) as [u2|] eqn:E2; [|discriminate].
    rewrite (IH L140); [reflexivity|]. exists u1. split; [assumption|congruence].
  - destruct (both_struct _ _ _ _ _ T1 T2 B) as [BF [ND _]]. destruct B as [t [B1 B2]].
    rewrite !as_std_HStruct, B1, B2 by assumption. clear B1 B2 ND.
    assert (E : as_inits tg1 l fs v = as_inits tg2 l fs v); [|now rewrite E].
    unfold as_inits. revert BF. induction fs as [|[f h] fs IHf]; intros BF; [reflexivity|]. cbn [map_opt fst snd].
    inversion IH as [|? ? A1 A2]; inversion BF as [|? ? B1 B2]; subst. cbn [snd] in *. rewrite IHf by assumption.
    destruct (hfield f v) as [w|]; [|reflexivity]. now rewrite (A1 l w B1).
  - reflexivity.
Qed.

Lemma from_port tg1 tg2 : target_ok tg1 = true -> target_ok tg2 = true -> forall h l s, both tg1 tg2 l h ->
  from_std tg1 l h s = from_std tg2 l h s.
Proof.
  intros T1 T2. induction h as [p| |r s fs IH|r m IH|h IH|n fs IH|l' h IH] using hty_ind'; intros l v B.
  - reflexivity.
  - reflexivity.
  - rewrite !from_std_HEasy. pose proof (both_easy _ _ _ _ _ _ T1 T2 B) as BF. clear B.
    assert (E : from_inits tg1 l fs v = from_inits tg2 l fs v); [|now rewrite E].
    unfold from_inits. revert BF. induction fs as [|[f h] fs IHf]; intros BF; [reflexivity|]. cbn [map_opt fst snd].
    inversion IH as [|? ? A1 A2]; inversion BF as [|? ? B1 B2]; subst. cbn [snd] in *. rewrite IHf by assumption.
    destruct (sfield f v) as [w|]; [|reflexivity]. now rewrite (A1 l w B1).
  - cbn [from_std]. rewrite (IH l); [reflexivity|exact B].
  - destruct v; try reflexivity. cbn [from_std]. destruct B as [t [B1 B2]]. cbn [out_ty] in *. destruct l; [|discriminate].
    destruct (out_ty tg1 L140 h) as [u1|] eqn:E1; [|discriminate]. destruct (out_ty tg2 L140 h) as [u2|] eqn:E2; [|discriminate].
    rewrite (IH L140); [reflexivity|]. exists u1. split; [assumption|congruence].
  - destruct (both_struct _ _ _ _ _ T1 T2 B) as [BF [ND [outs [E1 E2]]]].
    rewrite (from_std_HStruct _ _ _ _ _ _ ND E1), (from_std_HStruct _ _ _ _ _ _ ND E2). clear B E1 E2 ND.
    assert (E : from_inits tg1 l fs v = from_inits tg2 l fs v); [|now rewrite E].
    unfold from_inits. revert BF. induction fs as [|[f h] fs IHf]; intros BF; [reflexivity|]. cbn [map_opt fst snd].
    inversion IH as [|? ? A1 A2]; inversion BF as [|? ? B1 B2]; subst. cbn [snd] in *. rewrite IHf by assumption.
    destruct (sfield f v) as [w|]; [|reflexivity]. now rewrite (A1 l w B1).
  - reflexivity.
Qed.

Lemma flat_port tg1 tg2 : t_big tg1 = t_big tg2 -> forall t s, flat tg1 t s = flat tg2 t s.
Proof.
  intros E. assert (P : forall p n, enc_prim tg1 p n = enc_prim tg2 p n) by (intros; unfold enc_prim; now rewrite E).
  induction t as [p|p n|l n al fs IH|t IH] using sty_ind'; intros s.
  - destruct s; try reflexivity. apply P.
  - destruct s as [|ns| |]; try reflexivity. cbn [flat]. induction ns as [|x ns IHn]; [reflexivity|]. cbn [flat_map]. now rewrite P, IHn.
  - destruct s as [| |vs|]; try reflexivity. rewrite !flat_struct. revert vs.
    induction fs as [|[f t] fs IHf]; intros [|[g s] vs]; try reflexivity. cbn [flat_fields]. inversion IH as [|? ? A1 A2]; subst.
    cbn [snd] in A1. now rewrite A1, IHf.
  - destruct s; try reflexivity. cbn [flat]. apply IH.
Qed.

Lemma offsets_port tg1 tg2 al1 al2 : forall fs cur, nopad_fields tg1 al1 cur fs = true -> nopad_fields tg2 al2 cur fs = true ->
  repr_c_offsets cur (map (fun nf => layout_of tg1 (snd nf)) fs) = repr_c_offsets cur (map (fun nf => layout_of tg2 (snd nf)) fs).
Proof.
  induction fs as [|[f t] fs IH]; intros cur H1 H2; [reflexivity|]. cbn [nopad_fields] in *. rewrite !andb_true_iff in *.
  destruct H1 as [[A1 A2] A3], H2 as [[B1 B2] B3]. apply N.eqb_eq in A1, B1. cbn [map repr_c_offsets snd]. rewrite !layout_of_eq, A1, B1.
  pose proof (size_port tg1 tg2 t A2 B2) as Es. rewrite <- Es in B3 |- *. rewrite !N.add_0_r. f_equal. now apply IH.
Qed.

Lemma field_offsets_port tg1 tg2 t : nopad tg1 t = true -> nopad tg2 t = true -> field_offsets tg1 t = field_offsets tg2 t.
Proof.
  destruct t as [| |l n al fs|]; try reflexivity. rewrite !nopad_struct. intros H1 H2. cbn [field_offsets]. f_equal.
  eapply offsets_port; eassumption.
Qed.

Lemma path_port tg1 tg2 : forall path t, nopad tg1 t = true -> nopad tg2 t = true -> path_offset tg1 t path = path_offset tg2 t path.
Proof.
  induction path as [|f path IH]; intros t H1 H2; [reflexivity|]. cbn [path_offset]. destruct t as [| |l n al fs|]; try reflexivity.
  rewrite (field_offsets_port tg1 tg2) by assumption. destruct (assoc f (field_offsets _ _)) as [o|]; [|reflexivity].
  destruct (assoc f fs) as [u|] eqn:E; [|reflexivity]. apply assoc_in in E. apply nopad_all in H1, H2.
  unfold all_nopad in *. rewrite Forall_forall in H1, H2. specialize (H1 _ E). specialize (H2 _ E). cbn [snd] in *. now rewrite (IH u).
Qed.

(** C50.  Size, ALIGNMENT and every (nested) field offset of [Output] are the same on all
    targets. *)
Lemma C50_layout_portable_proof : forall tg1 tg2 l h t1 t2,
  target_ok tg1 = true -> target_ok tg2 = true ->
  out_ty tg1 l h = Some t1 -> out_ty tg2 l h = Some t2 ->
  std_size_static tg1 l h = std_size_static tg2 l h
  /\ out_align tg1 l h = out_align tg2 l h
  /\ field_offsets tg1 t1 = field_offsets tg2 t2
  /\ (forall path, path_offset tg1 t1 path = path_offset tg2 t2 path).
Proof.
  intros tg1 tg2 l h t1 t2 T1 T2 H1 H2. pose proof (out_same _ _ _ _ _ _ T1 T2 H1 H2) as E. subst t2.
  assert (N1 : nopad tg1 t1 = true) by (eapply good_nopad, out_ty_good; eassumption).
  assert (N2 : nopad tg2 t1 = true) by (eapply good_nopad, out_ty_good; eassumption).
  unfold std_size_static, out_align. rewrite H1, H2. split; [f_equal; now apply size_port|]. split; [reflexivity|].
  split; [now apply field_offsets_port|]. intros path. now apply path_port.
Qed.

(** C50.  A type that has a layout version on one target has one on every target on which
    types may be at least as large; the build mode does not matter. *)
Lemma C50_acceptance_portable_proof : forall tg1 tg2 l h t1,
  target_ok tg1 = true -> target_ok tg2 = true -> t_obj tg1 <= t_obj tg2 ->
  out_ty tg1 l h = Some t1 -> exists t2, out_ty tg2 l h = Some t2.
Proof. intros tg1 tg2 l h t1 T1 T2 Hle H. exists t1. now apply (out_port tg1 tg2). Qed.

(** C50.  Targets of the same endianness produce the same bytes, and bytes produced on one
    are read back as the same value on the other. *)
Lemma C50_bytes_portable_proof : forall tg1 tg2 l h t1 t2 v,
  target_ok tg1 = true -> target_ok tg2 = true -> t_big tg1 = t_big tg2 ->
  out_ty tg1 l h = Some t1 -> out_ty tg2 l h = Some t2 -> hval_ok tg1 h v = true ->
  exists bs s, as_std_bytes tg1 l h v = Some bs /\ as_std_bytes tg2 l h v = Some bs
    /\ from_bytes tg2 t2 bs = Some s /\ from_std tg2 l h s = Some v.
Proof.
  intros tg1 tg2 l h t1 t2 v T1 T2 Eb H1 H2 Hv. pose proof (out_same _ _ _ _ _ _ T1 T2 H1 H2) as E. subst t2.
  assert (B : both tg1 tg2 l h) by (exists t1; auto).
  assert (N1 : nopad tg1 t1 = true) by (eapply good_nopad, out_ty_good; eassumption).
  assert (N2 : nopad tg2 t1 = true) by (eapply good_nopad, out_ty_good; eassumption).
  destruct (C20_round_trip_proof tg1 l h t1 v T1 H1 Hv) as [s [A1 [A2 A3]]].
  pose proof (as_port tg1 tg2 T1 T2 h l v B) as Ea. pose proof (from_port tg1 tg2 T1 T2 h l s B) as Ef.
  exists (flat tg1 t1 s), s. unfold as_std_bytes. rewrite H1, H2, <- Ea, A1, !bytes_of_flat by assumption.
  rewrite (flat_port tg2 tg1) by auto. split; [reflexivity|]. split; [reflexivity|].
  split; [|now rewrite <- Ef]. rewrite (flat_port tg1 tg2) by auto. now apply from_bytes_flat.
Qed.

(** C50.  Without the assumption on endianness this is false: a big-endian host produces bytes
    a little-endian reader (every common GPU) misreads. *)
Lemma C50_endianness_matters_refuted_proof :
  ~ (forall tg1 tg2 l h t1 t2 v bs1 bs2,
       target_ok tg1 = true -> target_ok tg2 = true ->
       out_ty tg1 l h = Some t1 -> out_ty tg2 l h = Some t2 -> hval_ok tg1 h v = true ->
       as_std_bytes tg1 l h v = Some bs1 -> as_std_bytes tg2 l h v = Some bs2 -> bs1 = bs2).
Proof.
  intros H. specialize (H x86_64 powerpc64 L140 (HPrim PU32) (TPrim PU32) (TPrim PU32) (bits 1)
    [x01; x00; x00; x00] [x00; x00; x00; x01] eq_refl eq_refl eq_refl eq_refl eq_refl eq_refl eq_refl). discriminate H.
Qed.

(** [C50]: four targets; on i686 and avr an [f64] has a smaller Rust alignment. *)
Lemma C50_ex_proof :
  (forall tg, In tg [x86_64; i686; i686_release; avr_release] ->
     target_ok tg = true /\ t_big tg = t_big x86_64 /\ hval_ok tg scene scene1 = true
     /\ (exists t, out_ty tg L140 scene = Some t /\ size_of tg t = 160)
     /\ as_std_bytes tg L140 scene scene1 = as_std_bytes x86_64 L140 scene scene1)
  /\ palign x86_64 PF64 = 8 /\ palign i686 PF64 = 4 /\ palign avr_release PF64 = 1.
Proof.
  split; [|repeat split].
  intros tg [<-|[<-|[<-|[<-|[]]]]]; (split; [reflexivity|]; split; [reflexivity|]; split; [vm_compute; reflexivity|];
    split; [eexists; split; vm_compute; reflexivity|vm_compute; reflexivity]).
Qed.
