(** * Hand-written implementations of AsStdN (C85) *)

From Coq Require Import NArith String Bool List Lia ZArith PeanoNat.
From Coq Require Import ZifyBool ZifyN ZifyNat.
From Coq Require Import Strings.Byte.
From Verif Require Import Rust Internal Prims Derive Host Rows Buffer Custom SpecGlsl SpecHost SpecTypes SpecBuf SpecUse SpecGpu SpecCustom
  Arith RustFacts DeriveFacts TypeFacts HostFacts GlslFacts PadFacts BufferFacts Proofs_Types Proofs_Use GpuFacts Proofs_Gpu Samples.
Import ListNotations.
Local Open Scope string_scope.
Local Open Scope N_scope.

Section XtyInd.
  Variable X : Type.
  Variable P : xty X -> Prop.
  Hypothesis Hh : forall h, P (XHost h).
  Hypothesis Hu : forall u, P (XUser u).
  Hypothesis Hd : forall T, P T -> P (XDyn T).
  Hypothesis Hs : forall n fs, Forall (fun nf => P (snd nf)) fs -> P (XStruct n fs).
  Fixpoint xty_ind' (T : xty X) : P T :=
    match T with
    | XHost h => Hh h
    | XUser u => Hu u
    | XDyn T' => Hd T' (xty_ind' T')
    | XStruct n fs => Hs n fs ((fix go fs : Forall (fun nf => P (snd nf)) fs :=
        match fs with [] => Forall_nil _ | nf :: r => Forall_cons nf (xty_ind' (snd nf)) (go r) end) fs)
    end.
End XtyInd.

Section Custom.
Context {X : Type}.
Implicit Types (T : xty X) (v : xval X) (fs : list (string * xty X)) (vs : list (string * xval X)).

Definition x_outs tg l fs := map_opt (fun nf : string * xty X => match x_out tg l (snd nf) with Some t => Some (fst nf, t) | None => None end) fs.
Definition plain_fs l fs : list (string * hty) := map (fun nf => (fst nf, plain_ty l (snd nf))) fs.
Fixpoint x_fields_ok tg fs vs : bool :=
  match fs, vs with
  | [], [] => true
  | (f, T') :: fs', (g, w) :: vs' => String.eqb f g && x_ok tg T' w && x_fields_ok tg fs' vs'
  | _, _ => false
  end.
Fixpoint plain_vs fs vs : option (list (string * hval)) :=
  match fs, vs with
  | [], [] => Some []
  | (f, T') :: fs', (_, w) :: vs' =>
    match plain_val T' w, plain_vs fs' vs' with Some p, Some ps => Some ((f, p) :: ps) | _, _ => None end
  | _, _ => None
  end.
Fixpoint user_vs fs (vs : list (string * hval)) : option (list (string * xval X)) :=
  match fs, vs with
  | [], [] => Some []
  | (f, T') :: fs', (_, w) :: vs' =>
    match user_val T' w, user_vs fs' vs' with Some p, Some ps => Some ((f, p) :: ps) | _, _ => None end
  | _, _ => None
  end.
Fixpoint parts_vs fs vs : list (user_impl X * X) :=
  match fs, vs with
  | (_, T') :: fs', (_, w) :: vs' => (user_parts T' w ++ parts_vs fs' vs')%list
  | _, _ => []
  end.

Lemma x_ok_struct tg n fs vs : x_ok tg (XStruct n fs) (XVRec vs) = x_fields_ok tg fs vs.
Proof. cbn [x_ok]. revert vs. induction fs as [|[f T] fs IH]; intros [|[g w] vs]; try reflexivity. cbn [x_fields_ok]. now rewrite <- IH. Qed.
Lemma plain_val_struct n fs vs : plain_val (XStruct n fs) (XVRec vs) = match plain_vs fs vs with Some ps => Some (HVRec ps) | None => None end.
Proof.
  cbn [plain_val]. match goal with |- context [match ?f fs vs with _ => _ end] => assert (E : f fs vs = plain_vs fs vs) end; [|now rewrite E].
  revert vs. induction fs as [|[f T] fs IH]; intros [|[g w] vs]; reflexivity.
Qed.
Lemma user_val_struct n fs (vs : list (string * hval)) : user_val (XStruct n fs) (HVRec vs) = match user_vs fs vs with Some ps => Some (XVRec ps) | None => None end.
Proof.
  cbn [user_val]. match goal with |- context [match ?f fs vs with _ => _ end] => assert (E : f fs vs = user_vs fs vs) end; [|now rewrite E].
  revert vs. induction fs as [|[f T] fs IH]; intros [|[g w] vs]; reflexivity.
Qed.
Lemma parts_struct n fs vs : user_parts (XStruct n fs) (XVRec vs) = parts_vs fs vs.
Proof. cbn [user_parts]. revert vs. induction fs as [|[f T] fs IH]; intros [|[g w] vs]; reflexivity. Qed.

Lemma x_fields_ok_names tg fs : forall vs, x_fields_ok tg fs vs = true -> map fst vs = map fst fs.
Proof.
  induction fs as [|[f T] fs IH]; intros [|[g w] vs] H; try discriminate; [reflexivity|]. cbn [x_fields_ok] in H.
  rewrite !andb_true_iff in H. destruct H as [[H1 _] H2]. apply String.eqb_eq in H1. subst g. cbn [map fst]. now rewrite (IH vs H2).
Qed.

(** Output *)
Lemma x_out_plain tg l T : x_out tg l T = out_ty tg l (plain_ty l T).
Proof.
  revert l. induction T as [h|u|T IH|n fs IH] using xty_ind'; intros l; [reflexivity|reflexivity| |].
  - cbn [x_out plain_ty out_ty]. rewrite IH. now destruct l.
  - cbn [x_out plain_ty out_ty].
    match goal with |- match ?a with _ => _ end = match ?b with _ => _ end => assert (E : a = b) end; [|now rewrite E].
    induction IH as [|[f T] fs H _ IHf]; [reflexivity|]. cbn [map]. rewrite !map_opt_cons. cbn [fst snd] in *. now rewrite H, IHf.
Qed.

Lemma x_outs_plain tg l fs : x_outs tg l fs = out_fields tg l (plain_fs l fs).
Proof.
  unfold x_outs, out_fields, plain_fs. induction fs as [|[f T] fs IH]; [reflexivity|]. cbn [map]. rewrite !map_opt_cons. cbn [fst snd].
  now rewrite x_out_plain, IH.
Qed.

Lemma plain_fs_names l fs : map fst (plain_fs l fs) = map fst fs.
Proof. unfold plain_fs. now rewrite map_map. Qed.

(** looking the fields up by name is going through them in order *)
Lemma lookup_fields {A B C} (g : string * A -> B -> option C) (fs : list (string * A)) (vs : list (string * B)) :
  map fst vs = map fst fs -> NoDup (map fst fs) ->
  map_opt (fun nf => match assoc (fst nf) vs with Some w => g nf w | None => None end) fs
  = map_opt (fun p => g (fst p) (snd (snd p))) (combine fs vs).
Proof.
  intros Hn Hd.
  assert (K : forall (fs0 : list (string * A)) (vs0 : list (string * B)), map fst vs0 = map fst fs0 -> (forall nf w, In (nf, w) (combine fs0 vs0) -> assoc (fst nf) vs = Some (snd w)) ->
    map_opt (fun nf => match assoc (fst nf) vs with Some w => g nf w | None => None end) fs0
    = map_opt (fun p => g (fst p) (snd (snd p))) (combine fs0 vs0)).
  { induction fs0 as [|[f a] fs0 IH]; intros [|[f' w] vs0] E H; try discriminate; [reflexivity|].
    cbn [combine]. rewrite !map_opt_cons. cbn [fst snd]. pose proof (H (f, a) (f', w) (or_introl eq_refl)) as E1. cbn [fst snd] in E1. rewrite E1.
    rewrite (IH vs0); [reflexivity|cbn [map] in E; congruence|]. intros nf w' Hin. apply H. now right. }
  apply K; [assumption|]. intros nf w Hin.
  assert (E : fst nf = fst w).
  { clear -Hn Hin. revert vs Hn Hin. induction fs as [|a fs IH]; intros [|b vs] Hn Hin; cbn [map combine In] in *; try contradiction.
    destruct Hin as [E|Hin]; [injection E as <- <-; congruence|]. apply (IH vs); [congruence|assumption]. }
  rewrite E. apply assoc_nodup; [now rewrite Hn|]. apply in_combine_r in Hin. now destruct w.
Qed.

Definition x_inits tg l fs (v : xval X) :=
  map_opt (fun nf : string * xty X =>
    match xfield (fst nf) v with
    | Some w => match x_as tg l (snd nf) w with Some s => Some (fst nf, s) | None => None end
    | None => None
    end) fs.

Definition bind_val T v {B} (k : hval -> option B) : option B := match plain_val T v with Some p => k p | None => None end.

Lemma x_inits_plain tg l fs vs :
  Forall (fun nf => forall v, x_ok tg (snd nf) v = true -> x_as tg l (snd nf) v = match plain_val (snd nf) v with Some p => as_std tg l (plain_ty l (snd nf)) p | None => None end) fs ->
  x_fields_ok tg fs vs = true -> NoDup (map fst fs) ->
  x_inits tg l fs (XVRec vs) = match plain_vs fs vs with Some ps => as_inits tg l (plain_fs l fs) (HVRec ps) | None => None end.
Proof.
  intros IH Hok Hnd. unfold x_inits, xfield. pose proof (x_fields_ok_names _ _ _ Hok) as Hn.
  rewrite (lookup_fields (fun nf w => match x_as tg l (snd nf) w with Some s => Some (fst nf, s) | None => None end) fs vs Hn Hnd).
  assert (E : forall ps, plain_vs fs vs = Some ps -> map fst ps = map fst fs).
  { clear. revert vs. induction fs as [|[f T] fs IH]; intros [|[g w] vs] ps E; cbn [plain_vs] in E; try discriminate; [now injection E as <-|].
    destruct (plain_val T w); [|discriminate]. destruct (plain_vs fs vs) eqn:E2; [|discriminate]. injection E as <-. cbn [map fst]. f_equal. now apply (IH vs). }
  transitivity (match plain_vs fs vs with
    | Some ps => map_opt (fun p => match as_std tg l (snd (fst p)) (snd (snd p)) with Some s => Some (fst (fst p), s) | None => None end) (combine (plain_fs l fs) ps)
    | None => None end).
  - clear E Hn Hnd. revert vs Hok. induction IH as [|[f T] fs H _ IHf]; intros [|[g w] vs] Hok; try discriminate; [reflexivity|].
    cbn [x_fields_ok] in Hok. rewrite !andb_true_iff in Hok. destruct Hok as [[_ H1] H2].
    cbn [combine plain_vs]. rewrite map_opt_cons. cbn [fst snd] in *. rewrite (H w H1), (IHf vs H2).
    destruct (plain_val T w) as [p|]; [|reflexivity]. destruct (plain_vs fs vs) as [ps|].
    + cbn [plain_fs map combine]. rewrite map_opt_cons. cbn [fst snd]. reflexivity.
    + destruct (as_std tg l (plain_ty l T) p); reflexivity.
  - destruct (plain_vs fs vs) as [ps|]; [|reflexivity]. unfold as_inits, hfield. symmetry.
    apply (lookup_fields (fun nf w => match as_std tg l (snd nf) w with Some s => Some (fst nf, s) | None => None end)).
    + rewrite plain_fs_names. now apply E.
    + now rewrite plain_fs_names.
Qed.

Lemma x_as_plain tg l T : target_ok tg = true -> forall t v, x_out tg l T = Some t -> x_ok tg T v = true ->
  x_as tg l T v = match plain_val T v with Some p => as_std tg l (plain_ty l T) p | None => None end.
Proof.
  intros Htg. revert l. induction T as [h|u|T IH|n fs IH] using xty_ind'; intros l t v Ho Hv.
  - destruct v; try discriminate. reflexivity.
  - destruct v; try discriminate. cbn [x_as plain_val plain_ty as_std]. now destruct (ui_as u x).
  - destruct v as [| |v|]; try discriminate. cbn [x_out] in Ho. destruct l; [|discriminate]. destruct (x_out tg L140 T) as [u|] eqn:E; [|discriminate].
    cbn [x_as plain_val plain_ty]. rewrite (IH L140 u v E Hv). destruct (plain_val T v); reflexivity.
  - destruct v as [| | |vs]; try discriminate. rewrite x_ok_struct in Hv. rewrite plain_val_struct.
    pose proof Ho as Ho'. rewrite x_out_plain in Ho'. cbn [plain_ty] in Ho' |- *. fold (plain_fs l fs) in *.
    destruct (struct_facts _ _ _ _ _ Htg Ho') as [outs [Eo [Hnd _]]]. rewrite plain_fs_names in Hnd.
    assert (IH' : Forall (fun nf => forall v, x_ok tg (snd nf) v = true ->
      x_as tg l (snd nf) v = match plain_val (snd nf) v with Some p => as_std tg l (plain_ty l (snd nf)) p | None => None end) fs).
    { rewrite Forall_forall in *. intros nf Hin v Hvf.
      destruct (x_out tg l (snd nf)) as [u|] eqn:Eu; [eapply IH; eassumption|]. exfalso. rewrite <- x_outs_plain in Eo. unfold x_outs in Eo.
      apply map_opt_Forall2 in Eo. clear -Eo Hin Eu. induction Eo as [|a b fs outs E _ IHE]; [contradiction|]. destruct Hin as [->|Hin]; [|auto]. rewrite Eu in E. discriminate. }
    cbn [x_as]. fold (x_outs tg l fs). fold (x_inits tg l fs (XVRec vs)). rewrite x_outs_plain, Eo.
    rewrite (x_inits_plain tg l fs vs IH' Hv Hnd).
    destruct (plain_vs fs vs) as [ps|].
    + cbn [as_std]. fold (out_fields tg l (plain_fs l fs)). fold (as_inits tg l (plain_fs l fs) (HVRec ps)). rewrite Eo. reflexivity.
    + now destruct (derive_output tg l n outs).
Qed.

(** from *)
Definition x_back tg l fs s := map_opt (fun nf : string * xty X =>
              match sfield (fst nf) s with
              | Some w => match x_from tg l (snd nf) w with Some v => Some (fst nf, v) | None => None end
              | None => None
              end) fs.

Lemma x_from_plain tg l T : target_ok tg = true -> forall t s, x_out tg l T = Some t ->
  x_from tg l T s = match from_std tg l (plain_ty l T) s with Some p => user_val T p | None => None end.
Proof.
  intros Htg. revert l. induction T as [h|u|T IH|n fs IH] using xty_ind'; intros l t s Ho.
  - cbn [x_from plain_ty user_val]. reflexivity.
  - reflexivity.
  - cbn [x_out] in Ho. destruct l; [|discriminate]. destruct (x_out tg L140 T) as [u|] eqn:E; [|discriminate].
    cbn [x_from plain_ty from_std]. destruct s; try reflexivity. rewrite (IH L140 u s E). destruct (from_std tg L140 (plain_ty L140 T) s); reflexivity.
  - pose proof Ho as Ho'. rewrite x_out_plain in Ho'. cbn [plain_ty] in Ho' |- *. fold (plain_fs l fs) in *.
    destruct (struct_facts _ _ _ _ _ Htg Ho') as [outs [Eo [Hnd _]]].
    rewrite (from_std_HStruct tg l n _ s outs Hnd Eo). rewrite plain_fs_names in Hnd.
    assert (IH' : Forall (fun nf => forall s, x_from tg l (snd nf) s = match from_std tg l (plain_ty l (snd nf)) s with Some p => user_val (snd nf) p | None => None end) fs).
    { rewrite Forall_forall in *. intros nf Hin w.
      destruct (x_out tg l (snd nf)) as [u|] eqn:Eu; [eapply IH; eassumption|]. exfalso. rewrite <- x_outs_plain in Eo. unfold x_outs in Eo.
      apply map_opt_Forall2 in Eo. clear -Eo Hin Eu. induction Eo as [|a b fs outs E _ IHE]; [contradiction|]. destruct Hin as [->|Hin]; [|auto]. rewrite Eu in E. discriminate. }
    assert (E : x_back tg l fs s = match from_inits tg l (plain_fs l fs) s with Some ps => user_vs fs ps | None => None end).
    { clear -IH'. unfold x_back, from_inits, plain_fs. induction IH' as [|[f T] fs H _ IHf]; [reflexivity|].
      cbn [map]. rewrite !map_opt_cons. cbn [fst snd] in *. destruct (sfield f s) as [w|]; [|reflexivity].
      rewrite H, IHf. destruct (from_std tg l (plain_ty l T) w) as [p|]; [|reflexivity].
      match goal with |- context [match map_opt ?g ?xs with _ => _ end] => destruct (map_opt g xs) as [ps|] end.
      - cbn [user_vs]. destruct (user_val T p), (user_vs fs ps); reflexivity.
      - now destruct (user_val T p). }
    cbn [x_from]. fold (x_outs tg l fs). fold (x_back tg l fs s). rewrite x_outs_plain, Eo, E.
    destruct (from_inits tg l (plain_fs l fs) s) as [ps|]; [|reflexivity]. rewrite user_val_struct.
    destruct (user_vs fs ps) as [us|] eqn:Eus; [|reflexivity].
    rewrite derive_from_eq, (out_fields_names _ _ _ _ Eo), plain_fs_names.
    assert (En : map fst us = map fst fs).
    { clear -Eus. revert ps us Eus. induction fs as [|[f T] fs IH]; intros [|[g w] ps] us E; cbn [user_vs] in E; try discriminate; [now injection E as <-|].
      destruct (user_val T w); [|discriminate]. destruct (user_vs fs ps) eqn:E2; [|discriminate]. injection E as <-. cbn [map fst]. f_equal. eauto. }
    rewrite <- En, assoc_reorder by (now rewrite En). reflexivity.
Qed.

(** typing of the replaced value *)
Lemma returns_output_field tg l n fs nf : returns_output tg l (XStruct n fs) -> In nf fs -> returns_output tg l (snd nf).
Proof. intros H Hin u x s t Hu. apply H. cbn [user_impls]. apply in_flat_map. eauto. Qed.

Lemma plain_val_ok tg l T : target_ok tg = true -> forall t v p, x_out tg l T = Some t -> returns_output tg l T -> x_ok tg T v = true ->
  plain_val T v = Some p -> hval_ok tg (plain_ty l T) p = true.
Proof.
  intros Htg. revert l. induction T as [h|u|T IH|n fs IH] using xty_ind'; intros l t v p Ho Hr Hv Hp.
  - destruct v; try discriminate. injection Hp as <-. exact Hv.
  - destruct v; try discriminate. cbn [plain_val] in Hp. destruct (ui_as u x) as [s|] eqn:E; [|discriminate]. injection Hp as <-.
    cbn [x_out] in Ho. cbn [plain_ty hval_ok]. destruct (out_ty tg l (ui_out u)) as [t'|] eqn:Et; [|discriminate].
    eapply Hr; [left; reflexivity|exact E|exact Et].
  - destruct v as [| |v|]; try discriminate. cbn [plain_val] in Hp. destruct (plain_val T v) as [q|] eqn:E; [|discriminate]. injection Hp as <-.
    cbn [x_out] in Ho. destruct l; [|discriminate]. destruct (x_out tg L140 T) as [u|] eqn:Eu; [|discriminate].
    cbn [plain_ty hval_ok]. eapply IH; eassumption.
  - destruct v as [| | |vs]; try discriminate. rewrite x_ok_struct in Hv. rewrite plain_val_struct in Hp.
    destruct (plain_vs fs vs) as [ps|] eqn:Ep; [|discriminate]. injection Hp as <-. cbn [plain_ty]. rewrite hval_ok_struct.
    cbn [x_out] in Ho. fold (x_outs tg l fs) in Ho. destruct (x_outs tg l fs) as [outs|] eqn:Eo; [|discriminate].
    unfold x_outs in Eo. apply map_opt_Forall2 in Eo. clear Ho.
    assert (Hr' : Forall (fun nf => returns_output tg l (snd nf)) fs) by (apply Forall_forall; intros nf; now apply (returns_output_field tg l n fs)).
    clear Hr. revert vs ps Hv Ep Hr' IH. induction Eo as [|[f T] [f' t'] fs outs E _ IHE]; intros [|[g w] vs] ps Hv Ep Hr' IH; try discriminate.
    + injection Ep as <-. reflexivity.
    + cbn [x_fields_ok plain_vs fst snd] in *. rewrite !andb_true_iff in Hv. destruct Hv as [[_ H1] H2].
      destruct (plain_val T w) as [q|] eqn:Eq; [|discriminate]. destruct (plain_vs fs vs) as [qs|] eqn:Eqs; [|discriminate]. injection Ep as <-.
      inversion_clear Hr'. inversion_clear IH as [|? ? I1 I2]. cbn [fst snd] in *.
      destruct (x_out tg l T) as [u|] eqn:Eu; [|discriminate].
      cbn [map fst snd hfields_ok]. rewrite String.eqb_refl, (I1 l u w q Eu) by assumption. cbn. eapply IHE; eassumption.
Qed.

(** the only way to fail is a user's function *)
Lemma plain_val_None tg T : forall v, x_ok tg T v = true ->
  (plain_val T v = None <-> exists u x, In (u, x) (user_parts T v) /\ ui_as u x = None).
Proof.
  induction T as [h|u|T IH|n fs IH] using xty_ind'; intros v Hv.
  - destruct v; try discriminate. cbn. split; [discriminate|]. intros [? [? [[] _]]].
  - destruct v; try discriminate. cbn [plain_val user_parts]. split.
    + intros H. exists u, x. split; [left; reflexivity|]. now destruct (ui_as u x).
    + intros [u' [x' [[E|[]] H]]]. injection E as <- <-. now rewrite H.
  - destruct v as [| |v|]; try discriminate. cbn [plain_val user_parts]. rewrite <- (IH v Hv). destruct (plain_val T v); split; congruence.
  - destruct v as [| | |vs]; try discriminate. rewrite x_ok_struct in Hv. rewrite plain_val_struct, parts_struct.
    transitivity (plain_vs fs vs = None); [destruct (plain_vs fs vs); split; congruence|].
    revert vs Hv. induction IH as [|[f T] fs H _ IHf]; intros [|[g w] vs] Hv; try discriminate.
    + cbn. split; [discriminate|]. intros [? [? [[] _]]].
    + cbn [x_fields_ok plain_vs parts_vs fst snd] in *. rewrite !andb_true_iff in Hv. destruct Hv as [[_ H1] H2].
      specialize (H w H1). specialize (IHf vs H2). split.
      * intros E. destruct (plain_val T w) as [p|].
        -- destruct (plain_vs fs vs) as [ps|]; [discriminate|]. destruct (proj1 IHf eq_refl) as [u [x [A B]]]. exists u, x. split; [apply in_or_app; now right|assumption].
        -- destruct (proj1 H eq_refl) as [u [x [A B]]]. exists u, x. split; [apply in_or_app; now left|assumption].
      * intros [u [x [A B]]]. apply in_app_or in A. destruct A as [A|A].
        -- rewrite (proj2 H); [reflexivity|eauto].
        -- rewrite (proj2 IHf) by eauto. now destruct (plain_val T w).
Qed.

(** undoing the replacement *)
Lemma user_val_back tg T : forall v p, x_ok tg T v = true -> plain_val T v = Some p ->
  (user_val T p = Some v <-> forall u x, In (u, x) (user_parts T v) -> exists s, ui_as u x = Some s /\ ui_from u s = Some x).
Proof.
  induction T as [h|u|T IH|n fs IH] using xty_ind'; intros v p Hv Hp.
  - destruct v; try discriminate. injection Hp as <-. cbn. split; [intros _ ? ? []|reflexivity].
  - destruct v; try discriminate. cbn [plain_val user_parts] in *. destruct (ui_as u x) as [s|] eqn:E; [|discriminate]. injection Hp as <-.
    cbn [user_val]. split.
    + intros H u' x' [E'|[]]. injection E' as <- <-. exists s. split; [assumption|]. destruct (ui_from u s); congruence.
    + intros H. destruct (H u x (or_introl eq_refl)) as [s' [A B]]. assert (s' = s) as -> by congruence. now rewrite B.
  - destruct v as [| |v|]; try discriminate. cbn [plain_val user_parts] in *. destruct (plain_val T v) as [q|] eqn:E; [|discriminate]. injection Hp as <-.
    cbn [user_val]. rewrite <- (IH v q Hv E). destruct (user_val T q); split; congruence.
  - destruct v as [| | |vs]; try discriminate. rewrite x_ok_struct in Hv. rewrite plain_val_struct in Hp. rewrite parts_struct.
    destruct (plain_vs fs vs) as [ps|] eqn:Ep; [|discriminate]. injection Hp as <-. rewrite user_val_struct.
    transitivity (user_vs fs ps = Some vs); [destruct (user_vs fs ps); split; congruence|].
    revert vs ps Hv Ep. induction IH as [|[f T] fs H _ IHf]; intros [|[g w] vs] ps Hv Ep; try discriminate.
    + injection Ep as <-. cbn. split; [intros _ ? ? []|reflexivity].
    + cbn [x_fields_ok plain_vs parts_vs fst snd] in *. rewrite !andb_true_iff in Hv. destruct Hv as [[Hf H1] H2]. apply String.eqb_eq in Hf. subst g.
      destruct (plain_val T w) as [q|] eqn:Eq; [|discriminate]. destruct (plain_vs fs vs) as [qs|] eqn:Eqs; [|discriminate]. injection Ep as <-.
      cbn [user_vs]. specialize (H w q H1 Eq). specialize (IHf vs qs H2 Eqs). split.
      * intros E. destruct (user_val T q) as [w'|]; [|discriminate]. destruct (user_vs fs qs) as [vs'|]; [|discriminate]. injection E as -> ->.
        intros u x A. apply in_app_or in A. destruct A as [A|A]; [apply (proj1 H eq_refl)|apply (proj1 IHf eq_refl)]; assumption.
      * intros K. rewrite (proj2 H), (proj2 IHf); [reflexivity| |]; intros u x A; apply K; apply in_or_app; auto.
Qed.

End Custom.

(** C85.  The layout depends on the user's code only through the [Output] types. *)
Lemma C85_layout_proof : forall X tg l (T : xty X), x_out tg l T = out_ty tg l (plain_ty l T).
Proof. intros. apply x_out_plain. Qed.

(** C85.  Bytes and writing: as if every part of a user type had been replaced by what the
    user's function returns; a panic in it happens before the writer is touched, and nothing
    else can go wrong. *)
Lemma C85_bytes_proof : forall X W tg l (wi : write_impl W) (T : xty X) t v,
  target_ok tg = true -> x_out tg l T = Some t -> returns_output tg l T -> x_ok tg T v = true ->
  (forall p, plain_val T v = Some p ->
     hval_ok tg (plain_ty l T) p = true
     /\ (exists s bs, x_as tg l T v = Some s /\ has_sty t s = true /\ x_bytes tg l T v = Some bs /\ len bs = size_of tg t)
     /\ x_bytes tg l T v = as_std_bytes tg l (plain_ty l T) p
     /\ forall w, x_write tg l wi T v w = writer_write tg l wi w (WLeaf (plain_ty l T) p))
  /\ (plain_val T v = None <-> exists u x, In (u, x) (user_parts T v) /\ ui_as u x = None)
  /\ (plain_val T v = None -> x_as tg l T v = None /\ forall w, x_write tg l wi T v w = (w, WPanic)).
Proof.
  intros X W tg l wi T t v Htg Ho Hr Hv. split; [|split].
  - intros p Hp. pose proof (plain_val_ok tg l T Htg t v p Ho Hr Hv Hp) as Hok.
    pose proof (x_as_plain tg l T Htg t v Ho Hv) as Ha. rewrite Hp in Ha.
    pose proof Ho as Ho'. rewrite x_out_plain in Ho'.
    destruct (conv_total tg Htg (plain_ty l T) l t Ho') as [TT _]. destruct (TT p Hok) as [s [E1 [E2 _]]].
    destruct (C22_pod_bijection_proof tg l (plain_ty l T) t Htg Ho') as [_ P]. destruct (P s E2) as [bs [P1 P2]].
    split; [assumption|]. split; [|split].
    + exists s, bs. split; [congruence|]. split; [assumption|]. unfold x_bytes. rewrite Ho, Ha, E1. split; [assumption|]. apply P2.
    + unfold x_bytes, as_std_bytes. now rewrite Ho, Ho', Ha.
    + intros w. unfold x_write, writer_write. cbn [write_val]. unfold write_leaf. now rewrite Ho, Ho', Ha, E1.
  - now apply (plain_val_None tg).
  - intros Hp. pose proof (x_as_plain tg l T Htg t v Ho Hv) as Ha. rewrite Hp in Ha. split; [assumption|].
    intros w. unfold x_write. now rewrite Ho, Ha.
Qed.

(** C85.  A shader reads the replaced values. *)
Lemma C85_shader_proof : forall X tg l (T : xty X) t g v bs buf off,
  target_ok tg = true -> x_out tg l T = Some t -> returns_output tg l T -> x_ok tg T v = true ->
  gty_of (plain_ty l T) = Some g -> x_bytes tg l T v = Some bs -> read_at buf off (len bs) = Some bs ->
  exists p x, plain_val T v = Some p /\ gval_of tg (plain_ty l T) p = Some x /\ gread tg l g buf off = Some x.
Proof.
  intros X tg l T t g v bs buf off Htg Ho Hr Hv Hg Hb Hread.
  pose proof (x_as_plain tg l T Htg t v Ho Hv) as Ha.
  destruct (plain_val T v) as [p|] eqn:Hp; [|unfold x_bytes in Hb; rewrite Ho, Ha in Hb; discriminate].
  pose proof (plain_val_ok tg l T Htg t v p Ho Hr Hv Hp) as Hok. pose proof Ho as Ho'. rewrite x_out_plain in Ho'.
  assert (Hb' : as_std_bytes tg l (plain_ty l T) p = Some bs) by (unfold x_bytes in Hb; unfold as_std_bytes; now rewrite Ho, Ha in Hb; rewrite Ho').
  destruct (C23_gpu_reads_host_value_proof tg l (plain_ty l T) t g p bs buf off Htg Ho' Hg Hok Hb' Hread) as [x [A B]]. exists p, x. auto.
Qed.

(** C85.  The derived [from_stdN] undoes the derived [as_stdN] on a value exactly when the user's
    functions do so on its parts. *)
Lemma C85_round_trip_proof : forall X tg l (T : xty X) t v s,
  target_ok tg = true -> x_out tg l T = Some t -> returns_output tg l T -> x_ok tg T v = true ->
  x_as tg l T v = Some s ->
  (x_from tg l T s = Some v
   <-> forall u x, In (u, x) (user_parts T v) -> exists s', ui_as u x = Some s' /\ ui_from u s' = Some x).
Proof.
  intros X tg l T t v s Htg Ho Hr Hv Hs.
  pose proof (x_as_plain tg l T Htg t v Ho Hv) as Ha. rewrite Hs in Ha. destruct (plain_val T v) as [p|] eqn:Hp; [|discriminate].
  pose proof (plain_val_ok tg l T Htg t v p Ho Hr Hv Hp) as Hok. pose proof Ho as Ho'. rewrite x_out_plain in Ho'.
  destruct (conv_total tg Htg (plain_ty l T) l t Ho') as [TT _]. destruct (TT p Hok) as [s' [E1 [_ E3]]].
  assert (s' = s) as -> by congruence. rewrite (x_from_plain tg l T Htg t s Ho), E3. now apply (user_val_back tg).
Qed.

(** C85.  What a shader has written comes back as the user's [from_stdN] of the parts. *)
Lemma C85_read_back_proof : forall X tg l (T : xty X) t s,
  target_ok tg = true -> x_out tg l T = Some t -> has_sty t s = true ->
  exists p, from_std tg l (plain_ty l T) s = Some p /\ hval_ok tg (plain_ty l T) p = true /\ x_from tg l T s = user_val T p.
Proof.
  intros X tg l T t s Htg Ho Hs. pose proof Ho as Ho'. rewrite x_out_plain in Ho'.
  destruct (conv_total tg Htg (plain_ty l T) l t Ho') as [_ TT]. destruct (TT s Hs) as [p [E1 E2]].
  exists p. split; [assumption|]. split; [assumption|]. now rewrite (x_from_plain tg l T Htg t s Ho), E1.
Qed.

(** C85.  Slices and iterators of user values: as the replaced values, one by one; if the
    conversion of an item panics, the items before it have been written as usual. *)
Lemma C85_slices_proof : forall X W tg l (wi : write_impl W) (items : list (xty X * xval X)) ps w,
  target_ok tg = true ->
  Forall2 (fun Tv p => x_out tg l (fst Tv) <> None /\ returns_output tg l (fst Tv) /\ x_ok tg (fst Tv) (snd Tv) = true
                       /\ fst p = plain_ty l (fst Tv) /\ plain_val (fst Tv) (snd Tv) = Some (snd p)) items ps ->
  x_write_seq tg l wi items w = writer_write tg l wi w (WSeq (map (fun p => WLeaf (fst p) (snd p)) ps))
  /\ forall T v post, x_out tg l T <> None -> returns_output tg l T -> x_ok tg T v = true -> plain_val T v = None ->
     x_write_seq tg l wi (items ++ (T, v) :: post)%list w
     = match writer_write tg l wi w (WSeq (map (fun p => WLeaf (fst p) (snd p)) ps)) with
       | (w', WOk _) => (w', WPanic)
       | r => r
       end.
Proof.
  intros X W tg l wi items ps w Htg H.
  assert (One : forall Tv p w, x_out tg l (fst Tv) <> None /\ returns_output tg l (fst Tv) /\ x_ok tg (fst Tv) (snd Tv) = true
                       /\ fst p = plain_ty l (fst Tv) /\ plain_val (X := X) (fst Tv) (snd Tv) = Some (snd p) ->
     x_write tg l wi (fst Tv) (snd Tv) w = write_val tg l wi (WLeaf (fst p) (snd p)) w).
  { intros [T v] [h p] w0 [H1 [H2 [H3 [H4 H5]]]]. cbn [fst snd] in *. subst h. destruct (x_out tg l T) as [t|] eqn:E; [|congruence].
    destruct (C85_bytes_proof X W tg l wi T t v Htg E H2 H3) as [A _]. apply A. assumption. }
  assert (Bad : forall (T : xty X) v w, x_out tg l T <> None -> returns_output tg l T -> x_ok tg T v = true -> plain_val T v = None ->
     x_write tg l wi T v w = (w, WPanic)).
  { intros T v w0 H1 H2 H3 H4. destruct (x_out tg l T) as [t|] eqn:E; [|congruence].
    destruct (C85_bytes_proof X W tg l wi T t v Htg E H2 H3) as [_ [_ A]]. now apply A. }
  unfold writer_write, x_write_seq. cbn [write_val]. inversion H as [|Tv p items' ps' Hp Hps]; subst; clear H.
  - cbn [map app]. split; [reflexivity|]. intros T v post H1 H2 H3 H4. now rewrite Bad.
  - specialize (One Tv p) as O1. cbn [map app]. destruct Tv as [T0 v0], p as [h0 p0]. cbn [fst snd] in *.
    rewrite (O1 w Hp). destruct (write_val tg l wi (WLeaf h0 p0) w) as [w1 [o|e| |]]; (split; [|intros T v post H1 H2 H3 H4]); try reflexivity.
    + revert w1. induction Hps as [|Tv p items'' ps'' Hq Hqs IH]; intros w1; [reflexivity|].
      specialize (One Tv p w1 Hq). destruct Tv as [T1 v1], p as [h1 p1]. cbn [map fst snd] in *. rewrite One.
      destruct (write_val tg l wi (WLeaf h1 p1) w1) as [w2 [o2|e2| |]]; try reflexivity. apply IH.
    + revert w1. induction Hps as [|Tv p items'' ps'' Hq Hqs IH]; intros w1; [cbn [app map]; now rewrite Bad|].
      specialize (One Tv p w1 Hq). destruct Tv as [T1 v1], p as [h1 p1]. cbn [map app fst snd] in *. rewrite One.
      destruct (write_val tg l wi (WLeaf h1 p1) w1) as [w2 [o2|e2| |]]; try reflexivity. apply IH.
Qed.

(** C85: angles in degrees, stored as u32; [as_stdN] panics from 360 on *)
Definition angle : user_impl N :=
  UserImpl (HPrim PU32) (fun d => if d <? 360 then Some (SBits d) else None)
    (fun s => match s with SBits n => Some (n mod 360) | _ => None end).
Definition lamp : xty N := XStruct "Lamp" [("position", XHost vec3f); ("angle", XUser angle); ("cone", XStruct "Cone" [("inner", XUser angle); ("outer", XUser angle)])].
Definition lamp_v (d : N) : xval N :=
  XVRec [("position", XVHost (v3 1 2 3)); ("angle", XVUser d); ("cone", XVRec [("inner", XVUser 10); ("outer", XVUser 20)])].
Lemma C85_ex_proof :
  (forall l, returns_output x86_64 l lamp)
  /\ (exists t, x_out x86_64 L140 lamp = Some t /\ size_of x86_64 t = 32)
  /\ x_ok x86_64 lamp (lamp_v 90) = true /\ user_parts lamp (lamp_v 90) = [(angle, 90); (angle, 10); (angle, 20)]
  /\ (exists s, x_as x86_64 L140 lamp (lamp_v 90) = Some s /\ x_from x86_64 L140 lamp s = Some (lamp_v 90))
  /\ x_as x86_64 L140 lamp (lamp_v 360) = None.
Proof.
  conjs; try (vm_compute; reflexivity); [|eexists; split; vm_compute; reflexivity|eexists; split; vm_compute; reflexivity].
  intros l u x s t Hu Hs Ht. assert (E : u = angle) by (cbn in Hu; intuition). subst u. cbn [angle ui_as ui_out] in *.
  destruct (N.ltb_spec x 360) as [H|H]; [|discriminate]. injection Hs as <-. cbn [out_ty] in Ht.
  assert (t = TPrim PU32) as -> by (destruct l; cbn in Ht; congruence). cbn [has_sty]. unfold pbits_ok. apply N.ltb_lt. change (2 ^ (8 * psize PU32)) with 4294967296. lia.
Qed.

(** C85: a lossy user implementation *)
Definition half : user_impl N := UserImpl (HPrim PU32) (fun d => Some (SBits (d / 2 mod 2 ^ 32))) (fun s => match s with SBits n => Some (2 * n) | _ => None end).
Lemma C85_ex_lossy_proof :
  let T := XStruct "S" [("a", XUser half); ("b", XUser half)] in
  exists s, x_as x86_64 L430 T (XVRec [("a", XVUser 4); ("b", XVUser 5)]) = Some s
  /\ x_from x86_64 L430 T s = Some (XVRec [("a", XVUser 4); ("b", XVUser 4)]).
Proof. cbv zeta. eexists. split; vm_compute; reflexivity. Qed.

(** C85: two lamps, and a lamp the conversion of which panics between them *)
Lemma C85_ex_slices_proof :
  (exists w, x_write_seq x86_64 L140 vec_sink [(lamp, lamp_v 90); (lamp, lamp_v 180)] (writer_new []) = (w, WOk 0) /\ writer_len w = 64)
  /\ (exists w, x_write_seq x86_64 L140 vec_sink [(lamp, lamp_v 90); (lamp, lamp_v 360); (lamp, lamp_v 180)] (writer_new []) = (w, WPanic) /\ writer_len w = 32).
Proof. split; (eexists; split; vm_compute; reflexivity). Qed.
