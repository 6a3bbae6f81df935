(** * Proofs: values that are already converted (C75) *)

From Coq Require Import NArith String Bool List Lia ZArith PeanoNat.
From Coq Require Import ZifyBool ZifyN ZifyNat.
From Coq Require Import Strings.Byte.
From Verif Require Import Rust Internal Prims Derive Host Rows Buffer SpecGlsl SpecHost SpecTypes SpecBuf SpecUse SpecGpu SpecConv
  Arith RustFacts DeriveFacts TypeFacts HostFacts GlslFacts PadFacts BufferFacts Proofs_Types Proofs_Use GpuFacts Proofs_Gpu Samples.
Import ListNotations.
Local Open Scope string_scope.
Local Open Scope N_scope.

Scheme converted_mut := Minimality for converted Sort Prop
  with converted_fields_mut := Minimality for converted_fields Sort Prop.

Lemma conv_deterministic tg l fs vs outs ss : conv tg l fs vs outs ss -> forall outs' ss', conv tg l fs vs outs' ss' ->
  outs' = outs /\ ss' = ss.
Proof.
  induction 1 as [|f h w t s fs vs outs ss H1 H2 H3 H4 H5 H IH]; intros outs' ss' H'; inversion H'; subst; [auto|].
  match goal with K : conv _ _ fs vs _ _ |- _ => destruct (IH _ _ K) as [-> ->] end.
  split; congruence.
Qed.

Lemma converted_facts tg l : target_ok tg = true -> forall h v h' v', converted tg l h v h' v' ->
  forall t, out_ty tg l h = Some t -> hval_ok tg h v = true ->
  out_ty tg l h' = Some t /\ hval_ok tg h' v' = true /\ as_std tg l h' v' = as_std tg l h v.
Proof.
  intros Htg.
  apply (converted_mut tg l
    (fun h v h' v' => forall t, out_ty tg l h = Some t -> hval_ok tg h v = true ->
       out_ty tg l h' = Some t /\ hval_ok tg h' v' = true /\ as_std tg l h' v' = as_std tg l h v)
    (fun fs vs fs' vs' => forall outs, out_fields tg l fs = Some outs -> hfields_ok tg fs vs = true ->
       out_fields tg l fs' = Some outs /\ hfields_ok tg fs' vs' = true
       /\ forall ss, conv tg l fs vs outs ss -> conv tg l fs' vs' outs ss)).
  - auto.
  - intros h v h1 v1 s _ IH Hs t Ht Hv. destruct (IH t Ht Hv) as [A [B C]].
    destruct (conv_total tg Htg h1 l t A) as [T _]. destruct (T v1 B) as [s' [E1 [E2 _]]].
    assert (s' = s) as -> by congruence. cbn [out_ty hval_ok as_std]. rewrite A. rewrite E2.
    destruct (out_ty_good tg Htg h1 l t A) as [a [Ha _]]. rewrite Ha.
    split; [reflexivity|]. split; [reflexivity|congruence].
  - intros h v h' v' _ IH t Ht Hv. cbn [out_ty hval_ok as_std] in *. destruct l; [|discriminate].
    destruct (out_ty tg L140 h) as [u|]; [|discriminate]. destruct (IH u eq_refl Hv) as [A [B C]].
    rewrite A, C. auto.
  - intros name fs vs fs' vs' _ IH t Ht Hv. rewrite hval_ok_struct in *.
    destruct (as_std_struct_detail tg l name fs vs t Htg Ht Hv) as [outs [inits [E1 [E2 [_ [_ [E3 E4]]]]]]].
    destruct (IH outs E1 Hv) as [A [B C]].
    assert (Ht' : out_ty tg l (HStruct name fs') = Some t) by (rewrite out_ty_HStruct, A; rewrite out_ty_HStruct, E1 in Ht; exact Ht).
    split; [assumption|]. split; [assumption|].
    destruct (as_std_struct_detail tg l name fs' vs' t Htg Ht' B) as [outs' [inits' [F1 [F2 [_ [_ [F3 F4]]]]]]].
    assert (outs' = outs) as -> by congruence.
    destruct (conv_deterministic _ _ _ _ _ _ (C _ E3) _ _ F3) as [_ ->]. congruence.
  - auto.
  - intros f h v h' v' fs vs fs' vs' _ IHh _ IHf outs Ho Hv.
    unfold out_fields in Ho |- *. rewrite map_opt_cons in Ho |- *. cbn [fst snd] in Ho |- *.
    destruct (out_ty tg l h) as [u|] eqn:Eu; [|discriminate].
    fold (out_fields tg l fs) in Ho. fold (out_fields tg l fs'). destruct (out_fields tg l fs) as [ofs|]; [|discriminate]. injection Ho as <-.
    cbn [hfields_ok] in *. rewrite !andb_true_iff in Hv. destruct Hv as [[_ Hv] Hvs].
    destruct (IHh u eq_refl Hv) as [A [B C]]. destruct (IHf ofs eq_refl Hvs) as [A' [B' C']].
    rewrite A, A', B, B', String.eqb_refl. split; [reflexivity|]. split; [reflexivity|].
    intros ss Hc. inversion Hc; subst.
    destruct (conv_total tg Htg h' l u A) as [T _]. destruct (T v' B) as [s' [E1 [E2 E3]]].
    assert (s' = s) as -> by congruence. constructor; auto.
Qed.

Lemma converted_gty tg l : forall h v h' v', converted tg l h v h' v' -> gty_of h' = gty_of h.
Proof.
  apply (converted_mut tg l (fun h v h' v' => gty_of h' = gty_of h)
    (fun fs vs fs' vs' => map_opt (fun nf => match gty_of (snd nf) with Some g => Some (fst nf, g) | None => None end) fs'
                        = map_opt (fun nf => match gty_of (snd nf) with Some g => Some (fst nf, g) | None => None end) fs)).
  - reflexivity.
  - intros h v h1 v1 s _ IH _. cbn [gty_of]. exact IH.
  - intros h v h' v' _ IH. cbn [gty_of]. first [exact IH|reflexivity].
  - intros name fs vs fs' vs' Hc IH. cbn [gty_of]. rewrite IH. now destruct Hc.
  - reflexivity.
  - intros f h v h' v' fs vs fs' vs' _ IHh _ IHf. rewrite !map_opt_cons. cbn [fst snd]. now rewrite IHh, IHf.
Qed.

(** C75.  A value some parts of which have already been converted (a field of type [Output]
    instead of the host type, say) can be used in place of the original: same [Output] type,
    same bytes, same offsets from a [Sizer], same effect on any [Writer], same GLSL value.
    [writer.write(&x)] and [writer.write_std140(&x.as_std140())] are the same operation. *)
Lemma C75_interchangeable_proof : forall W tg l (wi : write_impl W) h v h' v' t,
  target_ok tg = true -> out_ty tg l h = Some t -> hval_ok tg h v = true -> converted tg l h v h' v' ->
  out_ty tg l h' = Some t /\ hval_ok tg h' v' = true
  /\ as_std_bytes tg l h' v' = as_std_bytes tg l h v
  /\ (forall s, sizer_add tg l h' s = sizer_add tg l h s)
  /\ (forall w, writer_write tg l wi w (WLeaf h' v') = writer_write tg l wi w (WLeaf h v))
  /\ (forall s, as_std tg l h v = Some s -> forall w, write_std tg l wi t s w = writer_write tg l wi w (WLeaf h v))
  /\ (forall g, gty_of h = Some g -> gty_of h' = Some g /\ gval_of tg h' v' = gval_of tg h v).
Proof.
  intros W tg l wi h v h' v' t Htg Ht Hv Hc.
  destruct (converted_facts tg l Htg h v h' v' Hc t Ht Hv) as [A [B C]].
  assert (D : as_std_bytes tg l h' v' = as_std_bytes tg l h v) by (unfold as_std_bytes; now rewrite A, Ht, C).
  split; [assumption|]. split; [assumption|]. split; [assumption|]. split; [|split; [|split]].
  - intros s. unfold sizer_add, sizer_add_std. now rewrite A, Ht.
  - intros w. unfold writer_write. cbn [write_val]. unfold write_leaf. now rewrite A, Ht, C.
  - intros s Hs w. unfold writer_write. cbn [write_val]. unfold write_leaf. now rewrite Ht, Hs.
  - intros g Hg. assert (Hg' : gty_of h' = Some g) by (rewrite <- Hg; eapply converted_gty; eassumption). split; [assumption|].
    destruct (conv_total tg Htg h l t Ht) as [T _]. destruct (T v Hv) as [s [E1 [E2 _]]].
    destruct (C22_pod_bijection_proof tg l h t Htg Ht) as [_ P]. destruct (P s E2) as [bs [P1 _]].
    assert (Hb : as_std_bytes tg l h v = Some bs) by (unfold as_std_bytes; now rewrite Ht, E1).
    destruct (C23_gpu_reads_host_value_proof tg l h t g v bs bs 0 Htg Ht Hg Hv Hb) as [x [X1 X2]].
    { apply read_at_all. }
    destruct (C23_gpu_reads_host_value_proof tg l h' t g v' bs bs 0 Htg A Hg' B) as [x' [X1' X2']].
    { congruence. } { apply read_at_all. }
    congruence.
Qed.

(** C75.  Outputs of the two layouts cannot be confused: an [Output] of one layout is accepted
    where the other layout is required only if it is a scalar. *)
Lemma C75_layouts_do_not_mix_proof : forall tg l l' h t,
  target_ok tg = true -> l <> l' -> out_ty tg l' h = Some t ->
  (out_ty tg l (HOut l' h) = Some t <-> exists p, t = TPrim p)
  /\ (out_ty tg l (HOut l' h) = None <-> forall p, t <> TPrim p).
Proof.
  intros tg l l' h t Htg Hne Ht.
  assert (K : match t with TPrim p => out_ty tg l (HOut l' h) = Some (TPrim p) | _ => out_ty tg l (HOut l' h) = None end).
  { destruct (out_ty tg l (HOut l' h)) as [u|] eqn:E.
    - destruct (out_ty_HOut tg l l' h u E) as [_ [E2 [E3|[p ->]]]]; [congruence|]. assert (t = TPrim p) as -> by congruence. reflexivity.
    - destruct t as [p| | | ]; try reflexivity. exfalso. cbn [out_ty] in E. rewrite Ht in E.
      destruct (out_ty_good tg Htg h l' _ Ht) as [a [Ha _]]. destruct (std_align l (TPrim p)) eqn:E2; [discriminate|].
      destruct l, l', p; cbn in Ha, E2; congruence. }
  destruct t as [p| | | ]; rewrite K; split; split; try discriminate; try (intros [q Hq]; congruence); eauto.
  intros H. exfalso. now apply (H p).
Qed.

(** C75: [Scene]-like struct with the nested light given as its [Output], and the whole as its
    [Output]; a [Std430] vector in a std140 struct is rejected, a scalar is not. *)
Lemma C75_ex_proof :
  exists s s2 t,
    as_std x86_64 L140 point_light light1 = Some s
    /\ converted x86_64 L140 (HStruct "S" [("n", HPrim PU32); ("p", point_light)]) (HVRec [("n", bits 7); ("p", light1)])
                             (HStruct "S" [("n", HPrim PU32); ("p", HOut L140 point_light)]) (HVRec [("n", bits 7); ("p", HVOut s)])
    /\ out_ty x86_64 L140 (HStruct "S" [("n", HPrim PU32); ("p", point_light)]) = Some t
    /\ hval_ok x86_64 (HStruct "S" [("n", HPrim PU32); ("p", point_light)]) (HVRec [("n", bits 7); ("p", light1)]) = true
    /\ size_of x86_64 t = 48
    /\ converted x86_64 L140 (HStruct "S" [("n", HPrim PU32); ("p", point_light)]) (HVRec [("n", bits 7); ("p", light1)])
         (HOut L140 (HStruct "S" [("n", HPrim PU32); ("p", HOut L140 point_light)])) (HVOut s2)
    /\ out_ty x86_64 L140 (HStruct "T" [("v", HOut L430 vec3f)]) = None
    /\ (exists u, out_ty x86_64 L430 vec3f = Some u /\ forall p, u <> TPrim p)
    /\ (exists u, out_ty x86_64 L140 (HStruct "T" [("v", HOut L430 (HPrim PF32))]) = Some u).
Proof.
  do 3 eexists. split; [vm_compute; reflexivity|].
  assert (C : forall s, as_std x86_64 L140 point_light light1 = Some s ->
    converted x86_64 L140 (HStruct "S" [("n", HPrim PU32); ("p", point_light)]) (HVRec [("n", bits 7); ("p", light1)])
                             (HStruct "S" [("n", HPrim PU32); ("p", HOut L140 point_light)]) (HVRec [("n", bits 7); ("p", HVOut s)])).
  { intros s Hs. apply conv_record. apply conv_field; [apply conv_not|]. apply conv_field; [|apply conv_no_field].
    eapply conv_done; [apply conv_not|exact Hs]. }
  split; [apply C; vm_compute; reflexivity|]. split; [vm_compute; reflexivity|]. split; [vm_compute; reflexivity|].
  split; [vm_compute; reflexivity|].
  split; [eapply conv_done; [apply C; vm_compute; reflexivity|vm_compute; reflexivity]|].
  split; [vm_compute; reflexivity|]. split; eexists; [split; [vm_compute; reflexivity|discriminate]|vm_compute; reflexivity].
Qed.
