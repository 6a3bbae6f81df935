(** * Facts about conversions *)

From Coq Require Import NArith String Bool List Lia ZArith.
From Coq Require Import ZifyBool ZifyN ZifyNat.
From Coq Require Import Strings.Byte.
From Verif Require Import Rust Internal Prims Derive Host SpecGlsl SpecHost Arith RustFacts DeriveFacts TypeFacts.
Import ListNotations.
Local Open Scope string_scope.
Local Open Scope N_scope.

(** ** Generic facts *)

Lemma assoc_reorder {A} (xs : list (string * A)) : NoDup (map fst xs) ->
  map_opt (fun f => match assoc f xs with Some s => Some (f, s) | None => None end) (map fst xs) = Some xs.
Proof.
  intros H. apply map_opt_Forall2.
  assert (Hin : forall x, In x xs -> assoc (fst x) xs = Some (snd x)).
  { intros [f s] Hx. now apply assoc_nodup. }
  revert Hin. generalize xs at 2 3 as full. clear H.
  induction xs as [|[f s] xs IH]; intros full Hin; cbn [map]; constructor.
  - rewrite (Hin (f, s)) by (now left). reflexivity.
  - apply IH. intros x Hx. apply Hin. now right.
Qed.

Fixpoint hfields_ok (tg : target) (fs : list (string * hty)) (vs : list (string * hval)) : bool :=
  match fs, vs with
  | [], [] => true
  | (f, hf) :: fs', (g, w) :: vs' => String.eqb f g && hval_ok tg hf w && hfields_ok tg fs' vs'
  | _, _ => false
  end.

Lemma hval_ok_struct tg n fs vs : hval_ok tg (HStruct n fs) (HVRec vs) = hfields_ok tg fs vs.
Proof.
  cbn [hval_ok]. revert vs. induction fs as [|[f h] fs IH]; intros [|[g w] vs]; try reflexivity.
  cbn [hfields_ok]. rewrite <- IH. reflexivity.
Qed.
Lemma hval_ok_easy tg r s fs vs : hval_ok tg (HEasy r s fs) (HVRec vs) = hfields_ok tg fs vs.
Proof.
  cbn [hval_ok]. revert vs. induction fs as [|[f h] fs IH]; intros [|[g w] vs]; try reflexivity.
  cbn [hfields_ok]. rewrite <- IH. reflexivity.
Qed.

Lemma hfields_ok_names tg fs : forall vs, hfields_ok tg fs vs = true -> map fst vs = map fst fs.
Proof.
  induction fs as [|[f h] fs IH]; intros [|[g w] vs] H; try discriminate H; [reflexivity|].
  cbn [hfields_ok] in H. rewrite !andb_true_iff in H. destruct H as [[H1 _] H2].
  apply String.eqb_eq in H1. cbn [map fst]. now rewrite H1, (IH _ H2).
Qed.

(** parallel lists: host fields, host values, output types, layout values *)
Inductive conv (tg : target) (l : lay) :
  list (string * hty) -> list (string * hval) -> list (string * sty) -> list (string * sval) -> Prop :=
| conv_nil : conv tg l [] [] [] []
| conv_cons f h w t s fs vs outs ss :
    out_ty tg l h = Some t -> hval_ok tg h w = true -> as_std tg l h w = Some s -> has_sty t s = true ->
    from_std tg l h s = Some w -> conv tg l fs vs outs ss ->
    conv tg l ((f, h) :: fs) ((f, w) :: vs) ((f, t) :: outs) ((f, s) :: ss).

Definition conv_ok (tg : target) (h : hty) : Prop := forall l t, out_ty tg l h = Some t ->
  (forall v, hval_ok tg h v = true ->
     exists s, as_std tg l h v = Some s /\ has_sty t s = true /\ from_std tg l h s = Some v)
  /\ (forall s, has_sty t s = true -> exists v, from_std tg l h s = Some v /\ hval_ok tg h v = true).

Definition as_inits (tg : target) (l : lay) (fs : list (string * hty)) (v : hval) : option (list (string * sval)) :=
  map_opt (fun nf =>
            match hfield (fst nf) v with
            | Some w =>
              match as_std tg l (snd nf) w with
              | Some s => Some (fst nf, s)
              | None => None
              end
            | None => None
            end) fs.

Definition from_inits (tg : target) (l : lay) (fs : list (string * hty)) (s : sval) : option (list (string * hval)) :=
  map_opt (fun nf =>
            match sfield (fst nf) s with
            | Some w =>
              match from_std tg l (snd nf) w with
              | Some v => Some (fst nf, v)
              | None => None
              end
            | None => None
            end) fs.

Lemma as_std_HEasy tg l r std fs v :
  as_std tg l (HEasy r std fs) v
  = match find_std l std, as_inits tg l fs v with
    | Some t, Some inits => struct_update t inits | _, _ => None end.
Proof. reflexivity. Qed.
Lemma from_std_HEasy tg l r std fs s :
  from_std tg l (HEasy r std fs) s
  = match from_inits tg l fs s with Some vs => Some (HVRec vs) | None => None end.
Proof. reflexivity. Qed.

Lemma as_std_HStruct tg l name fs v :
  NoDup (map fst fs) ->
  as_std tg l (HStruct name fs) v
  = match out_ty tg l (HStruct name fs), as_inits tg l fs v with
    | Some t, Some inits => struct_update t inits | _, _ => None end.
Proof.
  intros Hnd. rewrite out_ty_HStruct. cbn [as_std]. fold (out_fields tg l fs). fold (as_inits tg l fs v).
  destruct (out_fields tg l fs) as [outs|] eqn:E; [|reflexivity].
  destruct (derive_output tg l name outs) as [t|]; [|reflexivity].
  destruct (as_inits tg l fs v) as [inits|] eqn:E2; [|reflexivity].
  rewrite derive_inits_eq, (out_fields_names _ _ _ _ E).
  assert (En : map fst inits = map fst fs).
  { unfold as_inits in E2. apply map_opt_Forall2 in E2.
    clear -E2. induction E2 as [|[f h] [g s] fs inits E _ IH]; [reflexivity|].
    cbn [map fst snd] in *. destruct (hfield f v); [|discriminate].
    destruct (as_std tg l h _); [|discriminate]. injection E as -> ->. now rewrite IH. }
  rewrite <- En, assoc_reorder by (now rewrite En). reflexivity.
Qed.

Lemma from_std_HStruct tg l name fs s outs :
  NoDup (map fst fs) -> out_fields tg l fs = Some outs ->
  from_std tg l (HStruct name fs) s
  = match from_inits tg l fs s with Some vs => Some (HVRec vs) | None => None end.
Proof.
  intros Hnd E. cbn [from_std]. fold (out_fields tg l fs). fold (from_inits tg l fs s). rewrite E.
  destruct (from_inits tg l fs s) as [vs|] eqn:E2; [|reflexivity].
  rewrite derive_from_eq, (out_fields_names _ _ _ _ E).
  assert (En : map fst vs = map fst fs).
  { unfold from_inits in E2. apply map_opt_Forall2 in E2.
    clear -E2. induction E2 as [|[f h] [g w] fs vs E _ IH]; [reflexivity|].
    cbn [map fst snd] in *. destruct (sfield f s); [|discriminate].
    destruct (from_std tg l h _); [|discriminate]. injection E as -> ->. now rewrite IH. }
  rewrite <- En, assoc_reorder by (now rewrite En). reflexivity.
Qed.

(** host side to layout side *)
Lemma as_inits_conv tg l fs vs full outs :
  Forall (fun nf => conv_ok tg (snd nf)) fs ->
  out_fields tg l fs = Some outs ->
  hfields_ok tg fs vs = true ->
  (forall f w, In (f, w) vs -> assoc f full = Some w) ->
  exists inits, as_inits tg l fs (HVRec full) = Some inits /\ conv tg l fs vs outs inits.
Proof.
  intros HF Ho. apply out_fields_Forall2 in Ho. revert vs HF.
  induction Ho as [|[f h] [g t] fs outs [E1 E2] _ IH]; intros vs HF Hok Hin.
  - destruct vs; [|discriminate]. exists []. split; [reflexivity|constructor].
  - destruct vs as [|[f' w] vs]; [discriminate|]. cbn [hfields_ok] in Hok.
    rewrite !andb_true_iff in Hok. destruct Hok as [[H1 H2] H3].
    apply String.eqb_eq in H1. cbn [fst snd] in *. subst f' g.
    inversion HF as [|? ? Hc HF']; subst. cbn [snd] in Hc.
    destruct (Hc l t E2) as [Ha _]. destruct (Ha w H2) as [s [A1 [A2 A3]]].
    destruct (IH vs HF' H3) as [inits [B1 B2]].
    { intros f0 w0 H0. apply Hin. now right. }
    exists ((f, s) :: inits). split.
    + unfold as_inits in *. rewrite map_opt_cons. cbn [fst snd].
      change (hfield f (HVRec full)) with (assoc f full).
      rewrite (Hin f w) by (now left). rewrite A1, B1. reflexivity.
    + now constructor.
Qed.

Lemma conv_out tg l fs vs outs ss : conv tg l fs vs outs ss -> out_fields tg l fs = Some outs.
Proof.
  intros H. apply out_fields_Forall2. induction H; constructor; auto.
Qed.
Lemma conv_names tg l fs vs outs ss : conv tg l fs vs outs ss ->
  map fst vs = map fst fs /\ map fst outs = map fst fs /\ map fst ss = map fst fs.
Proof.
  induction 1 as [|? ? ? ? ? ? ? ? ? ? ? ? ? ? H [E1 [E2 E3]]]; [auto|]. cbn [map fst].
  rewrite E1, E2, E3. auto.
Qed.

(** reading converted values back *)
Lemma from_inits_conv tg l fs vs outs ss full :
  conv tg l fs vs outs ss ->
  (forall f s, In (f, s) ss -> assoc f full = Some s) ->
  from_inits tg l fs (SRec full) = Some vs.
Proof.
  induction 1 as [|f h w t s fs vs outs ss H1 H2 H3 H4 H5 H IH]; intros Hin; [reflexivity|].
  unfold from_inits in *. rewrite map_opt_cons. cbn [fst snd].
  change (sfield f (SRec full)) with (assoc f full).
  rewrite (Hin f s) by (now left). rewrite H5, IH; [reflexivity|].
  intros f0 s0 H0. apply Hin. now right.
Qed.

(** ** struct update *)

Definition updated (decl : list (string * sty)) (inits : list (string * sval)) : list (string * sval) :=
  map (fun nf => (fst nf, match assoc (fst nf) inits with Some v => v | None => zeroed (snd nf) end)) decl.

Lemma struct_update_eq l n al decl inits :
  NoDup (map fst inits) -> (forall f, In f (map fst inits) -> In f (map fst decl)) ->
  struct_update (TStruct l n al decl) inits = Some (SRec (updated decl inits)).
Proof.
  intros Hn Hin. unfold struct_update. cbn [zeroed].
  replace (forallb _ inits) with true.
  - apply nodupb_NoDup in Hn. rewrite Hn. cbn [andb]. unfold updated. rewrite map_map. reflexivity.
  - symmetry. apply forallb_forall. intros [f s] H. apply existsb_eqb_in. apply Hin.
    apply in_map_iff. exists (f, s). auto.
Qed.

Lemma updated_ok decl inits :
  (forall f t s, In (f, t) decl -> assoc f inits = Some s -> has_sty t s = true) ->
  fields_ok decl (updated decl inits) = true.
Proof.
  intros H. unfold updated. induction decl as [|[f t] decl IH]; [reflexivity|].
  cbn [map fields_ok fst snd]. rewrite String.eqb_refl. cbn [andb].
  rewrite IH by (intros f0 t0 s0 H0; apply H; now right). rewrite andb_true_r.
  destruct (assoc f inits) as [s|] eqn:E; [|apply has_sty_zeroed].
  apply (H f t s); [now left|assumption].
Qed.

Lemma updated_names decl inits : map fst (updated decl inits) = map fst decl.
Proof. unfold updated. rewrite map_map. reflexivity. Qed.

Lemma updated_assoc decl inits f s : NoDup (map fst decl) -> In f (map fst decl) ->
  assoc f inits = Some s -> assoc f (updated decl inits) = Some s.
Proof.
  intros Hn Hin E. apply assoc_nodup; [now rewrite updated_names|].
  unfold updated. apply in_map_iff in Hin. destruct Hin as [[f' t] [<- Hin]]. cbn [fst] in *.
  apply in_map_iff. exists (f', t). cbn [fst snd]. rewrite E. auto.
Qed.

Lemma fields_ok_names fs : forall ss, fields_ok fs ss = true -> map fst ss = map fst fs.
Proof.
  induction fs as [|[f t] fs IH]; intros [|[g s] ss] H; try discriminate H; [reflexivity|].
  cbn [fields_ok] in H. rewrite !andb_true_iff in H. destruct H as [[H1 _] H2].
  apply String.eqb_eq in H1. cbn [map fst]. now rewrite H1, (IH _ H2).
Qed.

Lemma fields_ok_assoc fs : forall ss f t, NoDup (map fst fs) -> fields_ok fs ss = true -> In (f, t) fs ->
  exists s, assoc f ss = Some s /\ has_sty t s = true.
Proof.
  induction fs as [|[f' t'] fs IH]; intros [|[g s'] ss] f t Hn Hok Hin; try discriminate Hok; [contradiction|].
  cbn [fields_ok] in Hok. rewrite !andb_true_iff in Hok. destruct Hok as [[H1 H2] H3].
  apply String.eqb_eq in H1. subst g. rewrite assoc_cons.
  cbn [map fst] in Hn. inversion Hn as [|? ? Hx Hn']; subst.
  destruct Hin as [E|Hin].
  - injection E as -> ->. rewrite String.eqb_refl. eauto.
  - destruct (String.eqb_spec f f') as [->|Hne].
    + exfalso. apply Hx. apply in_map_iff. exists (f', t). auto.
    + eapply IH; eassumption.
Qed.

(** the common core of [easy_impl!] and derived structs *)
Lemma conv_struct tg l fs outs ln n al decl :
  Forall (fun nf => conv_ok tg (snd nf)) fs ->
  out_fields tg l fs = Some outs ->
  NoDup (map fst fs) -> NoDup (map fst decl) ->
  (forall f t, In (f, t) outs -> assoc f decl = Some t) ->
  let t := TStruct ln n al decl in
  (forall vs, hfields_ok tg fs vs = true ->
     exists inits, as_inits tg l fs (HVRec vs) = Some inits
     /\ conv tg l fs vs outs inits
     /\ struct_update t inits = Some (SRec (updated decl inits))
     /\ has_sty t (SRec (updated decl inits)) = true
     /\ from_inits tg l fs (SRec (updated decl inits)) = Some vs)
  /\ (forall s, has_sty t s = true ->
        exists vs, from_inits tg l fs s = Some vs /\ hfields_ok tg fs vs = true).
Proof.
  intros HF Ho Hn Hnd Hdecl t. split.
  - intros vs Hok.
    destruct (as_inits_conv tg l fs vs vs outs HF Ho Hok) as [inits [A1 A2]].
    { intros f w Hin. apply assoc_nodup; [|assumption]. now rewrite (hfields_ok_names _ _ _ Hok). }
    exists inits. split; [assumption|]. split; [assumption|].
    destruct (conv_names _ _ _ _ _ _ A2) as [_ [N2 N3]].
    assert (Hty : forall f s, assoc f inits = Some s -> exists u, In (f, u) outs /\ has_sty u s = true).
    { intros f s H. apply assoc_in in H. clear -A2 H. induction A2 as [|f0 h w u s0 fs vs outs ss H1 H2 H3 H4 H5 _ IH]; [contradiction|].
      destruct H as [H|H]; [injection H as <- <-; exists u; split; [now left|assumption]|].
      destruct (IH H) as [u' [? ?]]. exists u'. split; [now right|assumption]. }
    assert (Hdin : forall f, In f (map fst inits) -> In f (map fst decl)).
    { intros f Hin. rewrite N3, <- N2 in Hin. apply in_map_iff in Hin. destruct Hin as [[f' u] [<- Hin]].
      apply Hdecl, assoc_in in Hin. apply in_map_iff. exists (f', u). auto. }
    split; [apply struct_update_eq; [now rewrite N3|assumption]|].
    split.
    + unfold t. rewrite has_sty_struct. apply updated_ok. intros f u s Hin E.
      destruct (Hty f s E) as [u' [Hu Hs]]. apply Hdecl in Hu.
      rewrite (assoc_nodup f u decl Hnd Hin) in Hu. injection Hu as <-. exact Hs.
    + apply (from_inits_conv tg l fs vs outs inits); [assumption|].
      intros f s Hin. apply updated_assoc; [assumption| |].
      * apply Hdin. apply in_map_iff. exists (f, s). auto.
      * apply assoc_nodup; [now rewrite N3|assumption].
  - intros s Hs. destruct s as [| |ss|]; try discriminate Hs. unfold t in Hs. rewrite has_sty_struct in Hs.
    apply out_fields_Forall2 in Ho. clear t Hn.
    revert HF Hdecl. induction Ho as [|[f h] [g u] fs outs [E1 E2] _ IH]; intros HF Hdecl.
    + exists []. split; reflexivity.
    + cbn [fst snd] in *. subst g. inversion HF as [|? ? Hc HF']; subst. cbn [snd] in Hc.
      destruct IH as [vs [B1 B2]]; [assumption|intros f0 t0 H0; apply Hdecl; now right|].
      destruct (fields_ok_assoc decl ss f u Hnd Hs) as [s0 [S1 S2]].
      { apply assoc_in. apply Hdecl. now left. }
      destruct (Hc l u E2) as [_ Hb]. destruct (Hb s0 S2) as [w [W1 W2]].
      exists ((f, w) :: vs). split.
      * unfold from_inits in *. rewrite map_opt_cons. cbn [fst snd].
        change (sfield f (SRec ss)) with (assoc f ss). rewrite S1, W1, B1. reflexivity.
      * cbn [hfields_ok]. rewrite String.eqb_refl, W2, B2. reflexivity.
Qed.

(** what [easy_typechecks] and derive acceptance give *)
Lemma easy_typechecks_inv t outs : easy_typechecks t outs = true ->
  exists l n al decl, t = TStruct l n al decl /\ NoDup (map fst outs)
  /\ (forall f u, In (f, u) outs -> assoc f decl = Some u).
Proof.
  destruct t as [| |l n al decl|]; try discriminate. cbn [easy_typechecks].
  rewrite andb_true_iff. intros [H1 H2]. exists l, n, al, decl. split; [reflexivity|].
  split; [now apply nodupb_NoDup|]. intros f u Hin. rewrite forallb_forall in H2. specialize (H2 _ Hin).
  cbn [fst snd] in H2. destruct (assoc f decl) as [u'|]; [|discriminate].
  apply sty_eqb_eq in H2. now subst.
Qed.

Lemma gen_fields_sub tg l fin fs : forall idx cur f t, In (f, t) fs -> In (f, t) (gen_fields tg l fin idx cur fs).
Proof.
  induction fs as [|[g u] fs IH]; intros idx cur f t H; [contradiction|].
  cbn [gen_fields In]. destruct H as [H|H]; [now left|right; right; now apply IH].
Qed.

Lemma gen_fields_NoDup_sub tg l fin fs : forall idx cur,
  NoDup (map fst (gen_fields tg l fin idx cur fs)) -> NoDup (map fst fs).
Proof.
  induction fs as [|[g u] fs IH]; intros idx cur H; [constructor|].
  cbn [gen_fields map fst] in *. inversion H as [|? ? H1 H2]; subst. inversion H2 as [|? ? H3 H4]; subst.
  constructor; [|eapply IH; eassumption].
  intros Hin. apply H1. right. apply in_map_iff in Hin. destruct Hin as [[f' t'] [E Hin]].
  apply in_map_iff. exists (f', t'). split; [assumption|]. now apply gen_fields_sub.
Qed.

Lemma table_NoDup l name ln n al decl : find_std l name = Some (TStruct ln n al decl) -> NoDup (map fst decl).
Proof.
  intros H. apply nodupb_NoDup.
  assert (Hall : forallb (fun nm => match find_std l nm with
     | Some (TStruct _ _ _ d) => nodupb (map fst d) | _ => false end) table_names = true)
    by (destruct l; vm_compute; reflexivity).
  rewrite forallb_forall in Hall. specialize (Hall _ (find_std_names _ _ _ H)). rewrite H in Hall. exact Hall.
Qed.

Lemma struct_facts tg l name fs t : target_ok tg = true -> out_ty tg l (HStruct name fs) = Some t ->
  exists outs, out_fields tg l fs = Some outs
  /\ NoDup (map fst fs)
  /\ NoDup (map fst (derived_fields tg l outs))
  /\ (forall f u, In (f, u) outs -> assoc f (derived_fields tg l outs) = Some u)
  /\ Forall (fun f => good tg l (snd f)) outs
  /\ t = derived tg l name outs.
Proof.
  intros Htg H. destruct (out_ty_HStruct_inv _ _ _ _ _ Htg H) as [outs [E [G [Hn [-> _]]]]].
  exists outs. split; [assumption|]. split.
  { rewrite <- (out_fields_names _ _ _ _ E). eapply gen_fields_NoDup_sub. exact Hn. }
  split; [assumption|]. split; [|auto].
  intros f u Hin. apply assoc_nodup; [assumption|]. now apply gen_fields_sub.
Qed.

Lemma easy_facts tg l r std fs t : out_ty tg l (HEasy r std fs) = Some t ->
  exists outs ln n al decl, find_std l std = Some t /\ out_fields tg l fs = Some outs
  /\ t = TStruct ln n al decl /\ NoDup (map fst fs) /\ NoDup (map fst decl)
  /\ (forall f u, In (f, u) outs -> assoc f decl = Some u).
Proof.
  rewrite out_ty_HEasy. intros H. destruct (find_std l std) as [u|] eqn:E; [|discriminate].
  destruct (out_fields tg l fs) as [outs|] eqn:E2; [|discriminate].
  destruct (easy_typechecks u outs) eqn:E3; [|discriminate]. injection H as ->.
  destruct (easy_typechecks_inv _ _ E3) as [ln [n [al [decl [-> [H1 H2]]]]]].
  exists outs, ln, n, al, decl. split; [reflexivity|]. split; [reflexivity|]. split; [reflexivity|].
  split; [now rewrite <- (out_fields_names _ _ _ _ E2)|]. split; [|assumption].
  eapply table_NoDup; eassumption.
Qed.

(** ** conversions are total, typed, and round trip *)
Theorem conv_total tg : target_ok tg = true -> forall h, conv_ok tg h.
Proof.
  intros Htg. induction h as [p| |r s fs IH|r m IH|h IH|n fs IH|l' h IH] using hty_ind'; intros l t H.
  - cbn [out_ty] in H. destruct (std_align l (TPrim p)); [|discriminate]. injection H as <-.
    split.
    + intros v Hv. destruct v as [x| | | | |]; try discriminate. exists (SBits x). repeat split. exact Hv.
    + intros s Hs. destruct s as [x| | |]; try discriminate. exists (HVBits x). split; [reflexivity|exact Hs].
  - cbn [out_ty] in H. injection H as <-. split.
    + intros v Hv. destruct v as [|b| | | |]; try discriminate. exists (SBits (Bool_from_bool b)). destruct b; repeat split.
    + intros s Hs. destruct s; try discriminate. eexists. split; [reflexivity|reflexivity].
  - destruct (easy_facts _ _ _ _ _ _ H) as [outs [ln [n [al [decl [E1 [E2 [-> [Hn [Hnd Hd]]]]]]]]]].
    destruct (conv_struct tg l fs outs ln n al decl IH E2 Hn Hnd Hd) as [Ha Hb]. split.
    + intros v Hv. destruct v as [| |vs| | |]; try discriminate. rewrite hval_ok_easy in Hv.
      destruct (Ha vs Hv) as [inits [A1 [A2 [A3 [A4 A5]]]]].
      exists (SRec (updated decl inits)). rewrite as_std_HEasy, E1, A1, from_std_HEasy, A5. auto.
    + intros s0 Hs. destruct (Hb s0 Hs) as [vs [B1 B2]]. exists (HVRec vs).
      rewrite from_std_HEasy, B1, hval_ok_easy. auto.
  - cbn [out_ty] in H. destruct (IH l t H) as [Ha Hb]. split.
    + intros v Hv. destruct v; try discriminate. cbn [hval_ok as_std from_std] in *.
      destruct (Ha v Hv) as [s [A1 [A2 A3]]]. exists s. rewrite A3. auto.
    + intros s Hs. destruct (Hb s Hs) as [v [B1 B2]]. exists (HVMinty v). cbn [from_std hval_ok]. rewrite B1. auto.
  - cbn [out_ty] in H. destruct l; [|discriminate]. destruct (out_ty tg L140 h) as [u|] eqn:E; [|discriminate].
    injection H as <-. destruct (IH L140 u E) as [Ha Hb]. split.
    + intros v Hv. destruct v; try discriminate. cbn [hval_ok as_std from_std] in *.
      destruct (Ha v Hv) as [s [A1 [A2 A3]]]. exists (SNew s). rewrite A1, A3. auto.
    + intros s Hs. destruct s; try discriminate. cbn [has_sty from_std] in *.
      destruct (Hb s Hs) as [v [B1 B2]]. exists (HVDyn v). rewrite B1. auto.
  - destruct (struct_facts _ _ _ _ _ Htg H) as [outs [E [Hn [Hnd [Hd [_ ->]]]]]].
    destruct (conv_struct tg l fs outs l (trait_name l ++ n) (struct_al l outs) (derived_fields tg l outs) IH E Hn Hnd Hd) as [Ha Hb].
    split.
    + intros v Hv. destruct v as [| |vs| | |]; try discriminate. rewrite hval_ok_struct in Hv.
      destruct (Ha vs Hv) as [inits [A1 [A2 [A3 [A4 A5]]]]].
      exists (SRec (updated (derived_fields tg l outs) inits)).
      rewrite as_std_HStruct, H, A1, (from_std_HStruct _ _ _ _ _ _ Hn E), A5 by assumption. auto.
    + intros s0 Hs. destruct (Hb s0 Hs) as [vs [B1 B2]]. exists (HVRec vs).
      rewrite (from_std_HStruct _ _ _ _ _ _ Hn E), B1, hval_ok_struct. auto.
  - destruct (out_ty_HOut _ _ _ _ _ H) as [_ [E _]]. split.
    + intros v Hv. destruct v; try discriminate. cbn [hval_ok as_std from_std] in *. rewrite E in Hv. eauto.
    + intros s Hs. exists (HVOut s). cbn [hval_ok from_std]. rewrite E. auto.
Qed.

(** more detail for structs: what [as_std] produces *)
Lemma as_std_struct_detail tg l name fs vs t : target_ok tg = true ->
  out_ty tg l (HStruct name fs) = Some t -> hfields_ok tg fs vs = true ->
  exists outs inits, out_fields tg l fs = Some outs /\ t = derived tg l name outs
  /\ NoDup (map fst (derived_fields tg l outs))
  /\ Forall (fun f => good tg l (snd f)) outs
  /\ conv tg l fs vs outs inits
  /\ as_std tg l (HStruct name fs) (HVRec vs) = Some (SRec (updated (derived_fields tg l outs) inits)).
Proof.
  intros Htg H Hok. destruct (struct_facts _ _ _ _ _ Htg H) as [outs [E [Hn [Hnd [Hd [HG ->]]]]]].
  assert (IH : Forall (fun nf => conv_ok tg (snd nf)) fs).
  { apply Forall_forall. intros nf _. now apply conv_total. }
  destruct (conv_struct tg l fs outs l (trait_name l ++ name) (struct_al l outs) (derived_fields tg l outs) IH E Hn Hnd Hd) as [Ha _].
  destruct (Ha vs Hok) as [inits [A1 [A2 [A3 [A4 A5]]]]].
  exists outs, inits. rewrite as_std_HStruct, H, A1 by assumption. repeat (split; [assumption || reflexivity|]). assumption.
Qed.

Lemma as_std_easy_detail tg l r std fs vs t : target_ok tg = true ->
  out_ty tg l (HEasy r std fs) = Some t -> hfields_ok tg fs vs = true ->
  exists outs inits ln n al decl, find_std l std = Some t /\ t = TStruct ln n al decl /\ out_fields tg l fs = Some outs
  /\ NoDup (map fst fs) /\ NoDup (map fst decl)
  /\ (forall f u, In (f, u) outs -> assoc f decl = Some u)
  /\ conv tg l fs vs outs inits
  /\ as_std tg l (HEasy r std fs) (HVRec vs) = Some (SRec (updated decl inits)).
Proof.
  intros Htg H Hok. destruct (easy_facts _ _ _ _ _ _ H) as [outs [ln [n [al [decl [E1 [E2 [-> [Hn [Hnd Hd]]]]]]]]]].
  assert (IH : Forall (fun nf => conv_ok tg (snd nf)) fs).
  { apply Forall_forall. intros nf _. now apply conv_total. }
  destruct (conv_struct tg l fs outs ln n al decl IH E2 Hn Hnd Hd) as [Ha _].
  destruct (Ha vs Hok) as [inits [A1 [A2 [A3 [A4 A5]]]]].
  exists outs, inits, ln, n, al, decl. rewrite as_std_HEasy, E1, A1.
  repeat (split; [assumption || reflexivity|]). assumption.
Qed.
