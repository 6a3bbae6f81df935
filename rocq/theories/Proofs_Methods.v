(** * The method the derived as_stdN calls (C91) *)

From Coq Require Import NArith String Bool List Lia ZArith PeanoNat.
From Coq Require Import ZifyBool ZifyN ZifyNat.
From Coq Require Import Strings.Byte.
From Verif Require Import Rust Internal Prims Derive Host Buffer Custom CustomAny Methods SpecGlsl SpecHost SpecTypes SpecBuf SpecLayout SpecCustom SpecAny SpecMethods
  Arith RustFacts DeriveFacts TypeFacts LayoutFacts HostFacts GlslFacts PadFacts BufferFacts WriterFacts Proofs_Buffer Proofs_Types Proofs_Use
  Proofs_Custom Proofs_Layout Proofs_Any Samples.
Import ListNotations.
Local Open Scope string_scope.
Local Open Scope N_scope.

Lemma filter_one {A} (P : A -> bool) l m :
  filter P l = [m] <-> exists l1 l2, l = (l1 ++ m :: l2)%list /\ P m = true /\ forall c, In c (l1 ++ l2)%list -> P c = false.
Proof.
  split.
  - induction l as [|x l IH]; cbn [filter]; [discriminate|]. destruct (P x) eqn:E.
    + intros H. injection H as -> H. exists [], l. split; [reflexivity|]. split; [assumption|]. intros c Hc. cbn [app] in Hc.
      destruct (P c) eqn:Ec; [|reflexivity]. assert (In c (filter P l)) by (apply filter_In; auto). rewrite H in *. contradiction.
    + intros H. destruct (IH H) as [l1 [l2 [-> [H1 H2]]]]. exists (x :: l1), l2. split; [reflexivity|]. split; [assumption|].
      intros c [<-|Hc]; [assumption|now apply H2].
  - intros [l1 [l2 [-> [H1 H2]]]]. rewrite filter_app. cbn [filter]. rewrite H1.
    assert (K : forall l', (forall c, In c l' -> P c = false) -> filter P l' = []).
    { clear. induction l' as [|x l' IH]; intros H; [reflexivity|]. cbn [filter]. rewrite (H x) by now left. apply IH. intros; apply H; now right. }
    rewrite (K l1), (K l2); [reflexivity| |]; intros; apply H2, in_or_app; auto.
Qed.
Lemma filter_none {A} (P : A -> bool) l : filter P l = [] <-> forall c, In c l -> P c = false.
Proof.
  induction l as [|x l IH]; cbn [filter]; [split; [intros _ ? []|reflexivity]|]. destruct (P x) eqn:E.
  - split; [discriminate|]. intros H. rewrite (H x) in E; [discriminate|now left].
  - rewrite IH. split; [intros H c [<-|Hc]; auto|intros H c Hc; apply H; now right].
Qed.

Section Methods.
Context {X : Type}.
Implicit Types (F : ftype X) (m : method X).

Definition traits_of imported F : list (method X) := ((if imported : bool then [trait_method (ft_impl F)] else []) ++ ft_others F)%list.
Lemma candidates_eq imported F : candidates imported F
  = (match ft_inherent F with Some m => [(true, m)] | None => [] end ++ map (pair false) (traits_of imported F))%list.
Proof. unfold candidates, traits_of. rewrite map_app. now destruct imported. Qed.

Lemma eqb_t m : Bool.eqb (me_by_value m) true = me_by_value m.
Proof. now destruct (me_by_value m). Qed.
Lemma eqb_f m : Bool.eqb (me_by_value m) false = negb (me_by_value m).
Proof. now destruct (me_by_value m). Qed.

Lemma map_split {A B} (f : A -> B) l b1 x b2 : map f l = (b1 ++ x :: b2)%list ->
  exists l1 y l2, l = (l1 ++ y :: l2)%list /\ b1 = map f l1 /\ x = f y /\ b2 = map f l2.
Proof.
  revert l. induction b1 as [|b b1 IH]; intros [|y l] H; try discriminate.
  - injection H as <- <-. exists [], y, l. auto.
  - injection H as <- H. destruct (IH _ H) as [l1 [z [l2 [-> [-> [-> ->]]]]]]. exists (y :: l1), z, l2. auto.
Qed.

Lemma trait_called traits m (l1 l2 : list (method X)) : traits = (l1 ++ m :: l2)%list ->
  (forall c, In c (map (pair false) l1 ++ map (pair false) l2)%list -> preferred (false, m) c) ->
  traits = [m] \/ (me_by_value m = true /\ forall c, In c (l1 ++ l2)%list -> me_by_value c = false).
Proof.
  intros -> H. destruct (l1 ++ l2)%list as [|c0 r] eqn:E.
  - apply app_eq_nil in E. destruct E as [-> ->]. now left.
  - right. assert (K : forall c, In c (c0 :: r) -> me_by_value m = true /\ me_by_value c = false).
    { intros c Hc. rewrite <- E in Hc. destruct (H (false, c)) as [K|[_ [K _]]]; [|exact K|discriminate K].
      rewrite <- map_app. now apply in_map. }
    split; [apply (K c0); now left|]. intros c Hc. now apply K.
Qed.

Lemma resolve_called imported F m : resolve imported F = Some m <-> called imported F m.
Proof.
  unfold resolve. fold (traits_of imported F). unfold called. rewrite candidates_eq. set (ts := traits_of imported F). clearbody ts.
  unfold method_at. destruct (ft_inherent F) as [i|]; cbn [filter app].
  - rewrite eqb_t, eqb_f. destruct (me_by_value i) eqn:Ei; cbn [negb].
    + split.
      * intros H. injection H as <-. exists true, [], (map (pair false) ts). split; [reflexivity|]. cbn [app]. intros c Hc.
        apply in_map_iff in Hc. destruct Hc as [c' [<- _]]. destruct (me_by_value c') eqn:Ec; [right|left]; cbn [fst snd]; [|auto]. rewrite Ei, Ec. auto.
      * intros [b [[|x before] [after [E H]]]].
        -- injection E as <- <- _. reflexivity.
        -- injection E as <- E. exfalso. destruct (map_split _ _ _ _ _ E) as [l1 [y [l2 [_ [_ [Ey _]]]]]]. injection Ey as -> ->.
           destruct (H (true, i)) as [K|K]; [now left| |]; cbn [fst snd] in K; destruct K as [? [? ?]] || destruct K; congruence.
    + destruct (filter (fun m0 => Bool.eqb (me_by_value m0) true) ts) as [|x [|y r]] eqn:Ef.
      * rewrite filter_none in Ef. split.
        -- intros H. injection H as <-. exists true, [], (map (pair false) ts). split; [reflexivity|]. cbn [app]. intros c Hc.
           apply in_map_iff in Hc. destruct Hc as [c' [<- Hc]]. right. cbn [fst snd]. rewrite Ei. specialize (Ef c' Hc). rewrite eqb_t in Ef. auto.
        -- intros [b [[|x before] [after [E H]]]].
           ++ injection E as <- <- _. reflexivity.
           ++ injection E as <- E. exfalso. destruct (map_split _ _ _ _ _ E) as [l1 [y [l2 [-> [_ [Ey _]]]]]]. injection Ey as -> ->.
              assert (Iy : In y (l1 ++ y :: l2)) by (apply in_or_app; right; now left).
              specialize (Ef y Iy). rewrite eqb_t in Ef.
              destruct (H (true, i)) as [[K1 K2]|[K1 [K2 K3]]]; [now left| |]; cbn [fst snd] in *; congruence.
      * apply filter_one in Ef. destruct Ef as [l1 [l2 [-> [H1 H2]]]]. rewrite eqb_t in H1. split.
        -- intros H. injection H as <-. exists false, ((true, i) :: map (pair false) l1), (map (pair false) l2).
           split; [rewrite map_app; reflexivity|]. intros c Hc. left. split; [exact H1|].
           destruct Hc as [<-|Hc]; [exact Ei|]. rewrite <- map_app in Hc. apply in_map_iff in Hc. destruct Hc as [c' [<- Hc]].
           specialize (H2 c' Hc). rewrite eqb_t in H2. exact H2.
        -- intros [b [[|z before] [after [E H]]]].
           ++ injection E as <- <- E. exfalso. destruct (H (false, x)) as [K|K].
              { cbn [app]. rewrite <- E. apply in_map, in_or_app. right. now left. }
              all: cbn [fst snd] in K; destruct K as [? [? ?]] || destruct K; congruence.
           ++ injection E as <- E. destruct (map_split _ _ _ _ _ E) as [k1 [y [k2 [Ek [-> [Ey ->]]]]]]. injection Ey as -> ->.
              destruct (H (true, i)) as [K|[_ [K _]]]; [now left| |discriminate K]. cbn [fst snd] in K. destruct K as [K1 K2].
              destruct (trait_called _ y k1 k2 Ek) as [Q|[Q1 Q2]].
              { intros c Hc. apply H. now right. }
              { destruct l1 as [|? [|? ?]], l2; try discriminate Q. now injection Q as ->. }
              f_equal. assert (Hf : filter (fun c => me_by_value c) (l1 ++ x :: l2) = [x]).
              { apply filter_one. exists l1, l2. split; [reflexivity|]. split; [assumption|]. intros c Hc. specialize (H2 c Hc). now rewrite eqb_t in H2. }
              assert (Hg : filter (fun c => me_by_value c) (l1 ++ x :: l2) = [y]).
              { apply filter_one. exists k1, k2. auto. }
              congruence.
      * split; [discriminate|]. intros [b [[|z before] [after [E H]]]].
        -- exfalso. injection E as <- <- E.
           assert (Ix : In x (filter (fun c => Bool.eqb (me_by_value c) true) ts)) by (rewrite Ef; now left). apply filter_In in Ix.
           destruct Ix as [Ix Bx]. rewrite eqb_t in Bx. destruct (H (false, x)) as [K|K].
           { cbn [app]. rewrite <- E. now apply in_map. }
           all: cbn [fst snd] in K; destruct K as [? [? ?]] || destruct K; congruence.
        -- exfalso. injection E as <- E. destruct (map_split _ _ _ _ _ E) as [k1 [w [k2 [Ek [-> [Ey ->]]]]]]. injection Ey as -> ->.
           destruct (H (true, i)) as [K|[_ [K _]]]; [now left| |discriminate K]. cbn [fst snd] in K. destruct K as [K1 K2].
           destruct (trait_called _ w k1 k2 Ek) as [Q|[Q1 Q2]].
           { intros c Hc. apply H. now right. }
           { rewrite Q in Ef. cbn [filter] in Ef. destruct (Bool.eqb _ _); discriminate Ef. }
           assert (Hg : filter (fun c => Bool.eqb (me_by_value c) true) ts = [w]).
           { apply filter_one. exists k1, k2. rewrite eqb_t. split; [assumption|]. split; [assumption|]. intros c Hc. rewrite eqb_t. now apply Q2. }
           congruence.
  - assert (R : (exists b before after, map (pair false) ts = (before ++ (b, m) :: after)%list
                   /\ forall c, In c (before ++ after)%list -> preferred (b, m) c)
       <-> (ts = [m] \/ (me_by_value m = true /\ filter (fun c => Bool.eqb (me_by_value c) true) ts = [m]))).
    { split.
      - intros [b [before [after [E H]]]]. destruct (map_split _ _ _ _ _ E) as [k1 [y [k2 [Ek [-> [Ey ->]]]]]]. injection Ey as -> ->.
        destruct (trait_called _ y k1 k2 Ek H) as [Q|[Q1 Q2]]; [now left|right]. split; [assumption|].
        apply filter_one. exists k1, k2. rewrite eqb_t. split; [assumption|]. split; [assumption|]. intros c Hc. rewrite eqb_t. now apply Q2.
      - intros [->|[H1 H2]]; [exists false, [], []; split; [reflexivity|intros ? []]|].
        apply filter_one in H2. destruct H2 as [l1 [l2 [-> [_ H2]]]]. exists false, (map (pair false) l1), (map (pair false) l2).
        split; [rewrite map_app; reflexivity|]. intros c Hc. rewrite <- map_app in Hc. apply in_map_iff in Hc. destruct Hc as [c' [<- Hc]].
        left. split; [exact H1|]. specialize (H2 c' Hc). now rewrite eqb_t in H2. }
    rewrite R. clear R.
    destruct (filter (fun c => Bool.eqb (me_by_value c) true) ts) as [|x [|y r]] eqn:Ef.
    + destruct ts as [|t0 [|t1 ts']].
      * cbn [filter]. split; [discriminate|]. intros [Q|[_ Q]]; discriminate Q.
      * rewrite filter_none in Ef. specialize (Ef t0 (or_introl eq_refl)). rewrite eqb_t in Ef. cbn [filter]. rewrite eqb_f, Ef. cbn [negb].
        split; [intros H; injection H as <-; now left|]. intros [Q|[_ Q]]; [|discriminate Q]. injection Q as ->. reflexivity.
      * rewrite filter_none in Ef. pose proof (Ef t0 (or_introl eq_refl)) as E0. pose proof (Ef t1 (or_intror (or_introl eq_refl))) as E1.
        rewrite eqb_t in E0, E1. cbn [filter]. rewrite !eqb_f, E0, E1. cbn [negb]. split; [discriminate|]. intros [Q|[_ Q]]; discriminate Q.
    + split.
      * intros H. injection H as <-. right. split; [|reflexivity].
        assert (Ix : In x (filter (fun c => Bool.eqb (me_by_value c) true) ts)) by (rewrite Ef; now left). apply filter_In in Ix. now rewrite eqb_t in Ix.
      * intros [->|[_ Q]]; [|now injection Q as ->]. cbn [filter] in Ef. destruct (Bool.eqb _ _); [now injection Ef as ->|discriminate].
    + split; [discriminate|]. intros [->|[_ Q]]; [|discriminate Q]. cbn [filter] in Ef. destruct (Bool.eqb _ _); discriminate Ef.
Qed.

Lemma initialiser_some imported F m : initialiser imported F = Some m
  <-> called imported F m /\ me_ret m = ai_out (ft_impl F) /\ (me_by_value m = true -> ft_copy F = true).
Proof.
  unfold initialiser. rewrite <- resolve_called. destruct (resolve imported F) as [m'|]; [|split; [discriminate|intros [H _]; discriminate H]].
  destruct (sty_eqb (me_ret m') (ai_out (ft_impl F)) && (negb (me_by_value m') || ft_copy F)) eqn:E.
  - apply andb_true_iff in E. destruct E as [E1 E2]. apply sty_eqb_eq in E1. split.
    + intros H. injection H as <-. split; [reflexivity|]. split; [assumption|]. intros K. rewrite K in E2. exact E2.
    + intros [H _]. exact H.
  - split; [discriminate|]. intros [H [H1 H2]]. injection H as <-. rewrite H1, sty_eqb_refl in E. destruct (me_by_value m'); [|discriminate E].
    rewrite H2 in E by reflexivity. discriminate E.
Qed.

Lemma called_unique imported F m m' : called imported F m -> called imported F m' -> m = m'.
Proof. rewrite <- !resolve_called. congruence. Qed.

Lemma lookup_main : forall imported F m, resolve imported F = Some m <-> called imported F m.
Proof. exact resolve_called. Qed.

Definition impl_of imported (nf : string * ftype X) : option (string * yty X) :=
  match initialiser imported (snd nf) with
  | Some m => Some (fst nf, YLeaf (AnyImpl (ai_out (ft_impl (snd nf))) (me_fn m) (ai_from (ft_impl (snd nf)))))
  | None => None
  end.
Lemma elaborate_eq imported name (fs : list (string * ftype X)) :
  elaborate imported name fs = match map_opt (impl_of imported) fs with Some ys => Some (YStruct name ys) | None => None end.
Proof. reflexivity. Qed.

Lemma compiles_main : forall imported name (fs : list (string * ftype X)),
  elaborate imported name fs <> None
  <-> forall f F, In (f, F) fs -> exists m, called imported F m /\ me_ret m = ai_out (ft_impl F) /\ (me_by_value m = true -> ft_copy F = true).
Proof.
  intros imported name fs. rewrite elaborate_eq. transitivity (map_opt (impl_of imported) fs <> None).
  { destruct (map_opt (impl_of imported) fs); split; intros H; congruence. }
  induction fs as [|[g G] fs IH].
  - split; [intros _ f F []|discriminate].
  - rewrite map_opt_cons. unfold impl_of at 1. cbn [fst snd].
    destruct (initialiser imported G) as [m|] eqn:E.
    + pose proof (proj1 (initialiser_some _ _ _) E) as Hm. split.
      * intros H f F [Q|Hin]; [injection Q as <- <-; eauto|]. apply IH with (f := f); [|assumption].
        destruct (map_opt (impl_of imported) fs); congruence.
      * intros H. destruct (map_opt (impl_of imported) fs); [discriminate|]. exfalso. apply (proj2 IH); [|reflexivity].
        intros f F Hin. apply (H f). now right.
    + split; [congruence|]. intros H. destruct (H g G (or_introl eq_refl)) as [m Hm]. apply initialiser_some in Hm. congruence.
Qed.

Lemma usual_main : forall name (fs : list (string * ftype X)),
  (forall f F, In (f, F) fs -> ft_inherent F = None /\ ft_others F = []) ->
  elaborate true name fs = Some (YStruct name (map (fun nf => (fst nf, YLeaf (ft_impl (snd nf)))) fs)).
Proof.
  intros name fs H. rewrite elaborate_eq.
  assert (K : map_opt (impl_of true) fs = Some (map (fun nf => (fst nf, YLeaf (ft_impl (snd nf)))) fs)); [|now rewrite K].
  induction fs as [|[f F] fs IH]; [reflexivity|]. rewrite map_opt_cons, IH by (intros; apply (H f0); now right).
  destruct (H f F (or_introl eq_refl)) as [H1 H2]. unfold impl_of, initialiser, resolve, method_at. cbn [fst snd]. rewrite H1, H2. cbn.
  rewrite sty_eqb_refl. cbn. now destruct (ft_impl F).
Qed.

Lemma not_imported_main : forall name (fs : list (string * ftype X)) f F,
  In (f, F) fs -> ft_inherent F = None -> ft_others F = [] -> elaborate false name fs = None.
Proof.
  intros name fs f F Hin H1 H2. destruct (elaborate false name fs) eqn:E; [|reflexivity]. exfalso.
  assert (K : elaborate false name fs <> None) by congruence. rewrite compiles_main in K.
  destruct (K f F Hin) as [m [[b [before [after [Q _]]]] _]]. unfold candidates in Q. rewrite H1, H2 in Q. cbn in Q. destruct before; discriminate Q.
Qed.

(** An elaborated struct, field by field *)
Lemma elaborate_fields imported name (fs : list (string * ftype X)) T : elaborate imported name fs = Some T ->
  exists ys, T = YStruct name ys /\ map fst ys = map fst fs /\
    Forall2 (fun nf y => exists m, initialiser imported (snd nf) = Some m
                /\ y = (fst nf, YLeaf (AnyImpl (ai_out (ft_impl (snd nf))) (me_fn m) (ai_from (ft_impl (snd nf)))))) fs ys.
Proof.
  rewrite elaborate_eq. destruct (map_opt (impl_of imported) fs) as [ys|] eqn:E; [|discriminate]. intros H. injection H as <-.
  exists ys. split; [reflexivity|]. apply map_opt_Forall2 in E.
  assert (K : Forall2 (fun nf y => exists m, initialiser imported (snd nf) = Some m
                /\ y = (fst nf, YLeaf (AnyImpl (ai_out (ft_impl (snd nf))) (me_fn m) (ai_from (ft_impl (snd nf)))))) fs ys).
  { induction E as [|[f F] y fs ys E _ IH]; constructor; [|assumption]. unfold impl_of in E. cbn [fst snd] in *.
    destruct (initialiser imported F) as [m|]; [|discriminate]. injection E as <-. eauto. }
  split; [|assumption]. clear E. induction K as [|[f F] y fs ys [m [_ ->]] _ IH]; [reflexivity|]. cbn [map fst]. congruence.
Qed.

Lemma called_in imported F m : called imported F m -> exists b, In (b, m) (candidates imported F).
Proof. intros [b [l1 [l2 [-> _]]]]. exists b. apply in_or_app. right. now left. Qed.

Lemma elaborate_impls tg l imported name (fs : list (string * ftype X)) T : ftypes_ok tg l fs -> elaborate imported name fs = Some T -> impls_ok tg l T.
Proof.
  intros Hok H. destruct (elaborate_fields _ _ _ _ H) as [ys [-> [_ K]]]. intros a Ha. cbn [y_impls] in Ha. apply in_flat_map in Ha.
  destruct Ha as [y [Hy Ha]]. clear H.
  assert (exists nf, In nf fs /\ exists m, initialiser imported (snd nf) = Some m
                /\ y = (fst nf, YLeaf (AnyImpl (ai_out (ft_impl (snd nf))) (me_fn m) (ai_from (ft_impl (snd nf)))))) as [nf [Hin [m [E ->]]]].
  { clear Hok Ha. induction K as [|nf y' fs ys K _ IH]; [contradiction|]. destruct Hy as [<-|Hy]; [exists nf; split; [now left|assumption]|].
    destruct (IH Hy) as [nf' [? ?]]. exists nf'. split; [now right|assumption]. }
  destruct nf as [f F]. cbn [fst snd] in *. destruct Ha as [<-|[]]. cbn [ai_out ai_as].
  destruct (Hok f F Hin) as [H1 H2]. split; [assumption|]. intros x s Hs. apply initialiser_some in E. destruct E as [E1 [E2 _]].
  destruct (called_in _ _ _ E1) as [b Hb]. specialize (H2 imported b m x s Hb Hs). now rewrite E2 in H2.
Qed.

Lemma record_ok (fs : list (string * ftype X)) ys vs name : map fst ys = map fst fs ->
  Forall (fun y => exists a, snd y = YLeaf (X := X) a) ys -> map fst vs = map fst fs ->
  y_ok (YStruct name ys) (record_of vs) = true.
Proof.
  intros E1 H E2. unfold record_of. rewrite y_ok_struct. rewrite <- E1 in E2. clear E1. revert vs E2.
  induction H as [|[f T] ys [a Ha] _ IH]; intros [|[g x] vs] E2; try discriminate; [reflexivity|].
  cbn [map fst snd] in *. subst T. injection E2 as -> E2. cbn [y_fields_ok y_ok fst snd]. rewrite String.eqb_refl. now apply IH.
Qed.

Lemma bytes_main : forall tg l imported name (fs : list (string * ftype X)) T t vs,
  target_ok tg = true -> ftypes_ok tg l fs -> elaborate imported name fs = Some T -> y_out tg l T = Some t ->
  map fst vs = map fst fs ->
  (exists s bs, y_as tg l T (record_of vs) = Some s /\ has_sty t s = true /\ bytes_of tg t s = Some bs /\ len bs = size_of tg t
     /\ (forall f F x, In (f, F) fs -> In (f, x) vs ->
           exists m s' b o, called imported F m /\ me_fn m x = Some s' /\ bytes_of tg (ai_out (ft_impl F)) s' = Some b
             /\ assoc f (field_offsets tg t) = Some o /\ read_at bs o (size_of tg (ai_out (ft_impl F))) = Some b)
     /\ (forall i, i < size_of tg t ->
           (forall f F o, In (f, F) fs -> assoc f (field_offsets tg t) = Some o -> ~ (o <= i < o + size_of tg (ai_out (ft_impl F)))) ->
           byte_at bs i = Some x00))
  \/ (y_as tg l T (record_of vs) = None
      /\ exists f F x m, In (f, F) fs /\ In (f, x) vs /\ called imported F m /\ me_fn m x = None).
Proof.
  intros tg l imported name fs T t vs Htg Hok HT Ht Hvs.
  pose proof (elaborate_impls _ _ _ _ _ _ Hok HT) as Hi.
  destruct (elaborate_fields _ _ _ _ HT) as [ys [-> [En K]]]. clear HT.
  destruct (y_out_struct _ _ _ _ _ Ht) as [outs [Eo [Ed [Eon F]]]].
  (* the outputs *)
  assert (Q : outs = map (fun nf => (fst nf, ai_out (ft_impl (snd nf)))) fs).
  { clear -K F. revert outs F. induction K as [|[f G] y fs ys [m [_ ->]] _ IH]; intros outs F; inversion F as [|? [g u] ? outs' [E1 E2] F']; subst; [reflexivity|].
    cbn [map fst snd y_out ai_out] in *. destruct (std_align l (ai_out (ft_impl G))); [|discriminate]. injection E2 as <-. subst g. f_equal. now apply IH. }
  subst outs. clear F.
  assert (HF : forall f u, In (f, u) (map (fun nf : string * ftype X => (fst nf, ai_out (ft_impl (snd nf)))) fs) -> layout_type tg l u).
  { intros f u Hin. apply in_map_iff in Hin. destruct Hin as [[g G] [E Hin]]. injection E as <- <-. now apply (Hok g G). }
  pose proof (layout_derive_facts tg l name _ t Htg HF Ed) as [_ [_ [_ [Hnd _]]]]. rewrite Eon in Hnd.
  assert (Hyok : y_fields_ok ys (map (fun v => (fst v, YVLeaf (snd v))) vs) = true).
  { rewrite <- (y_ok_struct name). apply (record_ok fs ys vs name); [assumption| |assumption].
    clear -K. induction K as [|nf y fs ys [m [_ ->]] _ IH]; constructor; [cbn [snd]; eauto|assumption]. }
  unfold record_of. rewrite (y_as_struct tg l name ys _ _ Eo Hnd Hyok).
  assert (V : (exists vals, y_vals tg l ys (map (fun v => (fst v, YVLeaf (snd v))) vs) = Some vals
        /\ Forall2 (fun f v => fst f = fst v /\ has_sty (snd f) (snd v) = true) (map (fun nf : string * ftype X => (fst nf, ai_out (ft_impl (snd nf)))) fs) vals
        /\ forall f G x, In (f, G) fs -> In (f, x) vs -> NoDup (map fst fs) ->
              exists m s', called imported G m /\ me_fn m x = Some s' /\ In (f, s') vals)
     \/ (y_vals tg l ys (map (fun v => (fst v, YVLeaf (snd v))) vs) = None
        /\ exists f F x m, In (f, F) fs /\ In (f, x) vs /\ called imported F m /\ me_fn m x = None)).
  { clear Ht Eo Ed Eon Hnd Hyok HF En. revert vs Hvs Hok Hi. induction K as [|[f G] y fs ys [m [Em ->]] _ IH]; intros [|[g x] vs] Hvs Hok Hi; try discriminate.
    - left. exists []. split; [reflexivity|]. split; [constructor|]. intros ? ? ? [].
    - cbn [map fst snd] in *. injection Hvs as -> Hvs. apply initialiser_some in Em. destruct Em as [E1 [E2 _]].
      cbn [map y_vals y_as ai_as fst snd].
      destruct (IH vs Hvs) as [[vals [V1 [V2 V3]]]|[V1 [f' [F' [x' [m' [V2 [V3 V4]]]]]]]].
      { intros f' F' Hin. apply (Hok f'). now right. }
      { intros a Ha. apply Hi. cbn [y_impls flat_map] in *. apply in_or_app. now right. }
      + destruct (me_fn m x) as [s'|] eqn:Es.
        * left. rewrite V1. exists ((f, s') :: vals). split; [reflexivity|]. split.
          -- constructor; [|assumption]. cbn [fst snd]. split; [reflexivity|].
             destruct (called_in _ _ _ E1) as [b Hb]. rewrite <- E2. exact (proj2 (Hok f G (or_introl eq_refl)) imported b m x s' Hb Es).
          -- intros f' G' x' Hin Hx Hd. inversion Hd as [|? ? Hd1 Hd2]; subst. destruct Hin as [E|Hin].
             ++ injection E as <- <-. destruct Hx as [E|Hx]; [injection E as <-; exists m, s'; split; [assumption|]; split; [assumption|now left]|].
                exfalso. apply Hd1. rewrite <- Hvs. apply in_map_iff. exists (f, x'). auto.
             ++ destruct Hx as [E|Hx]; [injection E as <- <-; exfalso; apply Hd1; apply in_map_iff; exists (f, G'); auto|].
                destruct (V3 f' G' x' Hin Hx Hd2) as [m' [s'' [W1 [W2 W3]]]]. exists m', s''. split; [assumption|]. split; [assumption|now right].
        * right. split; [reflexivity|]. exists f, G, x, m. split; [now left|]. split; [now left|]. auto.
      + right. rewrite V1. split; [now destruct (me_fn m x)|]. exists f', F', x', m'. split; [now right|]. split; [now right|]. auto. }
  destruct V as [[vals [V1 [V2 V3]]]|[V1 V2]]; rewrite V1; [left|right; auto].
  destruct (C86_conversion_proof tg l name _ t vals Htg HF Ed V2) as [s [bs [S1 [S2 [S3 [_ [S5 S6]]]]]]].
  assert (Hl : layout_type tg l t) by (eapply lt_derive; eassumption).
  destruct (C86_closed_proof tg l t Htg Hl) as [_ [_ [KK _]]]. destruct (KK s S2) as [bs' [K1 [K2 _]]]. rewrite S3 in K1. injection K1 as <-.
  exists s, bs. split; [assumption|]. split; [assumption|]. split; [assumption|]. split; [assumption|]. split.
  - intros f G x Hin Hx. rewrite En in Hnd. destruct (V3 f G x Hin Hx Hnd) as [m [s' [W1 [W2 W3]]]].
    destruct (S5 f (ai_out (ft_impl G)) s') as [o [b [O1 [O2 O3]]]]; [apply in_map_iff; exists (f, G); auto|assumption|].
    exists m, s', b, o. split; [assumption|]. split; [assumption|]. split; [assumption|]. split; [assumption|].
    assert (Hs' : has_sty (ai_out (ft_impl G)) s' = true).
    { clear -K W1 W2 Hok Hin. assert (Hr : me_ret m = ai_out (ft_impl G)).
      { induction K as [|nf y fs ys [m' [E _]] _ IH]; [contradiction|]. destruct Hin as [->|Hin]; [|apply IH; [intros ? ? ?; eapply Hok; right; eassumption|assumption]].
        cbn [snd] in E. apply initialiser_some in E. destruct E as [E1 [E2 _]]. now rewrite (called_unique _ _ _ _ W1 E1). }
      destruct (called_in _ _ _ W1) as [c Hc]. rewrite <- Hr. exact (proj2 (Hok f G Hin) imported c m x s' Hc W2). }
    destruct (C86_closed_proof tg l (ai_out (ft_impl G)) Htg (proj1 (Hok f G Hin))) as [_ [_ [KG _]]]. destruct (KG s' Hs') as [b' [B1 [B2 _]]].
    rewrite O2 in B1. injection B1 as <-. now rewrite <- B2.
  - intros i Hi0 Hno. apply S6; [assumption|]. intros f u o Hin Ho. apply in_map_iff in Hin. destruct Hin as [[g G] [E Hin]]. injection E as <- <-.
    now apply (Hno g G o).
Qed.

Lemma round_trip_main : forall tg l imported name (fs : list (string * ftype X)) T t vs s,
  target_ok tg = true -> ftypes_ok tg l fs -> elaborate imported name fs = Some T -> y_out tg l T = Some t ->
  map fst vs = map fst fs -> y_as tg l T (record_of vs) = Some s ->
  (y_from tg l T s = Some (record_of vs)
   <-> forall f F x m, In (f, F) fs -> In (f, x) vs -> called imported F m ->
         exists s', me_fn m x = Some s' /\ ai_from (ft_impl F) s' = Some x).
Proof.
  intros tg l imported name fs T t vs s Htg Hok HT Ht Hvs Hs.
  pose proof (elaborate_impls _ _ _ _ _ _ Hok HT) as Hi.
  destruct (elaborate_fields _ _ _ _ HT) as [ys [-> [En K]]]. clear HT.
  destruct (y_out_struct _ _ _ _ _ Ht) as [outs [Eo [Ed [Eon F]]]].
  assert (HF : forall f u, In (f, u) outs -> layout_type tg l u).
  { assert (Hi' : Forall (fun nf => impls_ok tg l (snd nf)) ys) by (apply Forall_forall; intros [f T] Hin; eapply impls_field; eassumption).
    clear -F Hi'. induction F as [|[f T] [f' u] fs outs [E1 E2] _ IH]; intros g w Hin; [contradiction|]. inversion Hi'; subst.
    destruct Hin as [E|Hin]; [|eauto]. injection E as <- <-. cbn [snd] in *. eapply y_out_layout; eassumption. }
  pose proof (layout_derive_facts tg l name _ t Htg HF Ed) as [_ [_ [_ [Hnd _]]]]. rewrite Eon, En in Hnd.
  assert (Hyok : y_ok (YStruct name ys) (record_of vs) = true).
  { apply (record_ok fs ys vs name); [assumption| |assumption].
    clear -K. induction K as [|nf y fs ys [m [_ ->]] _ IH]; constructor; [cbn [snd]; eauto|assumption]. }
  rewrite (C88_round_trip_proof X tg l _ t _ s Htg Hi Ht Hyok Hs). unfold record_of. rewrite y_parts_struct.
  clear -K Hvs Hnd. revert vs Hvs. induction K as [|[f G] y fs ys [m [Em ->]] _ IH]; intros [|[g x] vs] Hvs; try discriminate.
  - split; intros _; [intros ? ? ? ? []|intros ? ? []].
  - cbn [map fst snd] in *. injection Hvs as -> Hvs. inversion Hnd as [|? ? Hd1 Hd2]; subst. specialize (IH Hd2 vs Hvs).
    apply initialiser_some in Em. destruct Em as [E1 _]. cbn [parts_ys y_parts app]. split.
    + intros H f' F' x' m' Hin Hx Hc. destruct Hin as [E|Hin].
      * injection E as <- <-. rewrite (called_unique _ _ _ _ Hc E1). destruct Hx as [E|Hx].
        -- injection E as <-. apply (H (AnyImpl (ai_out (ft_impl G)) (me_fn m) (ai_from (ft_impl G))) x). now left.
        -- exfalso. apply Hd1. rewrite <- Hvs. apply in_map_iff. exists (f, x'). auto.
      * destruct Hx as [E|Hx]; [injection E as <- <-; exfalso; apply Hd1; apply in_map_iff; exists (f, F'); auto|].
        apply (proj1 IH) with (f := f'); try assumption. intros a x0 Ha. apply H. now right.
    + intros H a x' [E|Ha].
      * injection E as <- <-. cbn [ai_as ai_from]. apply (H f G x m); [now left|now left|assumption].
      * apply (proj2 IH); [|assumption]. intros f' F' x0 m' Hin Hx Hc. apply (H f' F' x0 m'); [now right|now right|assumption].
Qed.

End Methods.

(** C91.  The method that the generated code calls: a method that takes the value comes before one that takes a
    reference, and at the same receiver an inherent one before those of traits; without a first one there is none. *)
Lemma C91_lookup_proof : forall X imported (F : ftype X) m, resolve imported F = Some m <-> called imported F m.
Proof. intros X. exact lookup_main. Qed.

(** C91.  The derive compiles exactly when every call denotes a method that returns the [Output] of the field's
    [AsStdN], and does not take the value unless the type is [Copy]. *)
Lemma C91_compiles_proof : forall X imported name (fs : list (string * ftype X)),
  elaborate imported name fs <> None
  <-> forall f F, In (f, F) fs -> exists m, called imported F m /\ me_ret m = ai_out (ft_impl F) /\ (me_by_value m = true -> ft_copy F = true).
Proof. intros X. exact compiles_main. Qed.

(** C91.  If the trait is imported and no other method has its name, the conversions are those of the trait, as
    everywhere else in this model. *)
Lemma C91_usual_proof : forall X name (fs : list (string * ftype X)),
  (forall f F, In (f, F) fs -> ft_inherent F = None /\ ft_others F = []) ->
  elaborate true name fs = Some (YStruct name (map (fun nf => (fst nf, YLeaf (ft_impl (snd nf)))) fs)).
Proof. intros X. exact usual_main. Qed.

(** C91.  Without the import a field whose type has no other method of this name does not compile. *)
Lemma C91_not_imported_proof : forall X name (fs : list (string * ftype X)) f F,
  In (f, F) fs -> ft_inherent F = None -> ft_others F = [] -> elaborate false name fs = None.
Proof. intros X. exact not_imported_main. Qed.

(** C91.  [as_stdN().as_bytes()]: either every method called returns, and at the offset of every field are the bytes
    of what the called method returns, and zeros everywhere else; or one of the methods panics, and so does the whole. *)
Lemma C91_bytes_proof : forall X tg l imported name (fs : list (string * ftype X)) T t vs,
  target_ok tg = true -> ftypes_ok tg l fs -> elaborate imported name fs = Some T -> y_out tg l T = Some t ->
  map fst vs = map fst fs ->
  (exists s bs, y_as tg l T (record_of vs) = Some s /\ has_sty t s = true /\ bytes_of tg t s = Some bs /\ len bs = size_of tg t
     /\ (forall f F x, In (f, F) fs -> In (f, x) vs ->
           exists m s' b o, called imported F m /\ me_fn m x = Some s' /\ bytes_of tg (ai_out (ft_impl F)) s' = Some b
             /\ assoc f (field_offsets tg t) = Some o /\ read_at bs o (size_of tg (ai_out (ft_impl F))) = Some b)
     /\ (forall i, i < size_of tg t ->
           (forall f F o, In (f, F) fs -> assoc f (field_offsets tg t) = Some o -> ~ (o <= i < o + size_of tg (ai_out (ft_impl F)))) ->
           byte_at bs i = Some x00))
  \/ (y_as tg l T (record_of vs) = None
      /\ exists f F x m, In (f, F) fs /\ In (f, x) vs /\ called imported F m /\ me_fn m x = None).
Proof. intros X. exact bytes_main. Qed.

(** C91.  [from_stdN] is called by its path: it is always the one of the trait.  So the round trip holds exactly when
    that undoes the method called, on every field. *)
Lemma C91_round_trip_proof : forall X tg l imported name (fs : list (string * ftype X)) T t vs s,
  target_ok tg = true -> ftypes_ok tg l fs -> elaborate imported name fs = Some T -> y_out tg l T = Some t ->
  map fst vs = map fst fs -> y_as tg l T (record_of vs) = Some s ->
  (y_from tg l T s = Some (record_of vs)
   <-> forall f F x m, In (f, F) fs -> In (f, x) vs -> called imported F m ->
         exists s', me_fn m x = Some s' /\ ai_from (ft_impl F) s' = Some x).
Proof. intros X. exact round_trip_main. Qed.

(** ** Examples *)

Definition num : any_impl N :=
  AnyImpl (TPrim PU32) (fun n => if n <? 4294967296 then Some (SBits n) else None)
    (fun s => match s with SBits n => Some n | _ => None end).
(** an inherent method of the same name and type that does something else (it clamps to 255) *)
Definition clamp (by_value : bool) : method N := Method by_value (TPrim PU32) (fun n => Some (SBits (N.min n 255))).
(** a field type without anything else, one with an inherent method, and one with a method of another trait *)
Definition plain_num : ftype N := FType num true None [].
Definition shadowed : ftype N := FType num true (Some (clamp false)) [].
Definition rival (by_value copy : bool) : ftype N := FType num copy None [clamp by_value].

Lemma num_ftypes F : In F [plain_num; shadowed; rival true true; rival false true; rival true false] ->
  layout_type x86_64 L140 (ai_out (ft_impl F))
    /\ forall imported b m x s, In (b, m) (candidates imported F) -> me_fn m x = Some s -> has_sty (me_ret m) s = true.
Proof.
  intros H. split.
  { assert (E : ai_out (ft_impl F) = TPrim PU32) by (destruct H as [<-|[<-|[<-|[<-|[<-|[]]]]]]; reflexivity). rewrite E. apply lt_crate with (h := HPrim PU32). reflexivity. }
  intros imported b m x s Hin Hs.
  assert (K : m = Method false (TPrim PU32) (ai_as num) \/ exists v, m = clamp v).
  { cbn [In] in H. assert (C : forall inh oth, (forall i, inh = Some i -> exists v, i = clamp v) -> (forall o, In o oth -> exists v, o = clamp v) ->
      forall c, In (b, m) (candidates imported (FType num c inh oth)) -> m = Method false (TPrim PU32) (ai_as num) \/ exists v, m = clamp v).
    { intros inh oth H1 H2 c Hin'. unfold candidates in Hin'. cbn [ft_inherent ft_impl ft_others] in Hin'.
      apply in_app_or in Hin'. destruct Hin' as [Q|Q].
      - destruct inh as [i|]; [|contradiction]. destruct Q as [Q|[]]. injection Q as _ <-. right. now apply H1.
      - apply in_app_or in Q. destruct Q as [Q|Q].
        + destruct imported; [|contradiction]. destruct Q as [Q|[]]. injection Q as _ <-. now left.
        + apply in_map_iff in Q. destruct Q as [o [Q1 Q2]]. injection Q1 as _ <-. right. now apply H2. }
    assert (C1 : forall v o, In o [clamp v] -> exists v', o = clamp v') by (intros v o [<-|[]]; eauto).
    destruct H as [<-|[<-|[<-|[<-|[<-|[]]]]]]; (eapply C; [| |exact Hin]);
      try (intros i1 Q1; discriminate Q1); try (solve [intros ? []]); try (apply C1); intros i0 Q; injection Q as <-; eauto. }
  destruct K as [->|[v ->]]; cbn [clamp me_fn ai_as num] in Hs.
  - destruct (x <? 4294967296) eqn:E; [|discriminate]. injection Hs as <-. exact E.
  - injection Hs as <-. change ((N.min x 255 <? 4294967296) = true). apply N.ltb_lt. lia.
Qed.

(** C91.  So a round trip can fail although every [impl AsStd140] round-trips: the field's type has an inherent
    method [as_std140]. *)
Lemma C91_round_trip_refuted_proof :
  exists (fs : list (string * ftype N)) T t vs s,
    ftypes_ok x86_64 L140 fs
    /\ (forall f F x, In (f, F) fs -> In (f, x) vs -> exists s', ai_as (ft_impl F) x = Some s' /\ ai_from (ft_impl F) s' = Some x)
    /\ elaborate true "S" fs = Some T /\ y_out x86_64 L140 T = Some t /\ map fst vs = map fst fs
    /\ y_as x86_64 L140 T (record_of vs) = Some s /\ y_from x86_64 L140 T s <> Some (record_of vs).
Proof.
  exists [("a", plain_num); ("b", shadowed)]. eexists. eexists. exists [("a", 7); ("b", 1000)]. eexists.
  split. { intros f F [E|[E|[]]]; injection E as <- <-; apply num_ftypes; cbn; auto. }
  split. { intros f F x [E|[E|[]]] Hx; injection E as <- <-; destruct Hx as [E|[E|[]]]; injection E as E; try discriminate E; subst x; eexists; split; reflexivity. }
  split; [reflexivity|]. split; [vm_compute; reflexivity|]. split; [reflexivity|]. split; [vm_compute; reflexivity|].
  vm_compute. discriminate.
Qed.

Lemma C91_ex_proof :
  (* the import matters, unless another method is there *)
  elaborate true "S" [("a", plain_num)] = Some (YStruct "S" [("a", YLeaf num)])
  /\ elaborate false "S" [("a", plain_num)] = None
  /\ elaborate false "S" [("a", shadowed)] <> None
  /\ elaborate false "S" [("a", rival false true)] <> None
  (* two traits: ambiguous, unless one takes the value, and the type is Copy *)
  /\ elaborate true "S" [("a", rival false true)] = None
  /\ elaborate true "S" [("a", rival true true)] <> None
  /\ elaborate true "S" [("a", rival true false)] = None
  (* the bytes of a struct where the inherent method is called for one of two fields *)
  /\ exists T t s, elaborate true "S" [("a", plain_num); ("b", shadowed)] = Some T /\ y_out x86_64 L140 T = Some t
       /\ y_as x86_64 L140 T (record_of [("a", 1000); ("b", 1000)]) = Some s
       /\ bytes_of x86_64 t s = Some [xe8; x03; x00; x00; xff; x00; x00; x00; x00; x00; x00; x00; x00; x00; x00; x00].
Proof.
  split; [reflexivity|]. split; [reflexivity|]. split; [discriminate|]. split; [discriminate|]. split; [reflexivity|].
  split; [discriminate|]. split; [reflexivity|].
  eexists. eexists. eexists. split; [reflexivity|]. split; [vm_compute; reflexivity|]. split; [vm_compute; reflexivity|]. vm_compute. reflexivity.
Qed.

(** C91: the hypotheses are met *)
Lemma C91_ex_hypotheses_proof :
  ftypes_ok x86_64 L140 [("a", plain_num); ("b", shadowed); ("c", rival true true)]
  /\ called true shadowed (clamp false) /\ called true (rival true true) (clamp true)
  /\ (exists T t s, elaborate true "S" [("a", plain_num); ("b", shadowed); ("c", rival true true)] = Some T /\ y_out x86_64 L140 T = Some t
        /\ y_as x86_64 L140 T (record_of [("a", 5); ("b", 6); ("c", 7)]) = Some s
        /\ y_from x86_64 L140 T s = Some (record_of [("a", 5); ("b", 6); ("c", 7)])
        /\ y_as x86_64 L140 T (record_of [("a", 4294967296); ("b", 6); ("c", 7)]) = None).
Proof.
  split. { intros f F [E|[E|[E|[]]]]; injection E as <- <-; apply num_ftypes; cbn; auto. }
  split; [now apply resolve_called|]. split; [now apply resolve_called|].
  eexists. eexists. eexists. split; [reflexivity|]. split; [vm_compute; reflexivity|]. split; [vm_compute; reflexivity|]. split; [vm_compute; reflexivity|]. vm_compute. reflexivity.
Qed.
