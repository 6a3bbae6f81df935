(** * AsStdN implementations with hand-written Output types, at any depth (C88) *)

From Coq Require Import NArith String Bool List Lia ZArith PeanoNat.
From Coq Require Import ZifyBool ZifyN ZifyNat.
From Coq Require Import Strings.Byte.
From Verif Require Import Rust Internal Prims Derive Host Buffer Custom CustomAny SpecGlsl SpecHost SpecTypes SpecBuf SpecLayout SpecCustom SpecAny
  Arith RustFacts DeriveFacts TypeFacts LayoutFacts HostFacts GlslFacts PadFacts BufferFacts WriterFacts Proofs_Buffer Proofs_Types Proofs_Use
  Proofs_Custom Proofs_Layout Samples.
Import ListNotations.
Local Open Scope string_scope.
Local Open Scope N_scope.

Section YtyInd.
  Variable X : Type.
  Variable P : yty X -> Prop.
  Hypothesis Hl : forall a, P (YLeaf a).
  Hypothesis Hd : forall T, P T -> P (YDyn T).
  Hypothesis Hs : forall n fs, Forall (fun nf => P (snd nf)) fs -> P (YStruct n fs).
  Fixpoint yty_ind' (T : yty X) : P T :=
    match T with
    | YLeaf a => Hl a
    | YDyn T' => Hd T' (yty_ind' T')
    | YStruct n fs => Hs n fs ((fix go fs : Forall (fun nf => P (snd nf)) fs :=
        match fs with [] => Forall_nil _ | nf :: r => Forall_cons nf (yty_ind' (snd nf)) (go r) end) fs)
    end.
End YtyInd.

Lemma layout_field tg l name fields t s bs f u : target_ok tg = true ->
  (forall f u, In (f, u) fields -> layout_type tg l u) -> derive_output tg l name fields = Some t ->
  has_sty t s = true -> bytes_of tg t s = Some bs -> In (f, u) fields ->
  exists o w b, assoc f (field_offsets tg t) = Some o /\ sfield f s = Some w /\ has_sty u w = true
    /\ bytes_of tg u w = Some b /\ len b = size_of tg u /\ read_at bs o (size_of tg u) = Some b
    /\ o + size_of tg u <= size_of tg t.
Proof.
  intros Htg HF Hd Hs Hb Hin.
  destruct (layout_derive_facts tg l name fields t Htg HF Hd) as [HG [Et [G [Hn1 [Hn2 [Has [Hsz _]]]]]]].
  set (decl := derived_fields tg l fields) in *. pose proof (lgood_nopad _ _ _ G) as Hnp.
  assert (Hnp' : nopad tg (TStruct l (trait_name l ++ name) (struct_al l fields) decl) = true) by (rewrite Et in Hnp; exact Hnp).
  pose proof (nopad_all _ _ _ _ _ Hnp') as Hall.
  rewrite (bytes_of_flat tg t s Hnp Hs) in Hb. injection Hb as <-.
  rewrite Et in Hs. unfold derived in Hs. fold decl in Hs. destruct s as [| |ss|]; try discriminate Hs. rewrite has_sty_struct in Hs.
  assert (Ef : flat tg t (SRec ss) = flat_fields tg decl ss) by (rewrite Et; unfold derived; fold decl; now rewrite flat_struct).
  assert (Eo : assoc f (field_offsets tg t) = field_pos tg 0 decl f).
  { rewrite Et. unfold derived. fold decl. now rewrite (field_offsets_pos _ _ _ _ _ _ Hnp'). }
  rewrite Ef, Eo.
  destruct (field_pos tg 0 decl f) as [o|] eqn:Ep.
  2:{ exfalso. pose proof (gen_starts tg l (struct_al l fields) fields 0 0 (head_aligned_0 _ _ _) Hn2) as K.
      assert (Q : In (field_pos tg 0 (gen_fields tg l (struct_al l fields) 0 0 fields) f) (map Some (starts 0 (mems tg l fields)))).
      { rewrite <- K. apply in_map_iff. exists (f, u). auto. }
      apply in_map_iff in Q. destruct Q as [o [Q _]]. unfold decl, derived_fields in Ep. congruence. }
  destruct (field_at tg decl ss 0 f o Ep Hall Hs) as [ft [x [F1 [F2 [F3 [_ [F5 F6]]]]]]].
  rewrite (Has f u Hin) in F1. injection F1 as <-.
  assert (Hnu : nopad tg u = true).
  { pose proof (proj1 (Forall_forall _ _) HG _ Hin) as Gu. exact (lgood_nopad _ _ _ Gu). }
  exists o, x, (flat tg u x). split; [reflexivity|]. split; [exact F2|]. split; [assumption|]. split; [now apply bytes_of_flat|].
  split; [now apply len_flat|]. split; [|rewrite Hsz; lia].
  specialize (F6 (flat_fields tg decl ss) 0). rewrite !N.add_0_l in F6. apply F6.
  rewrite <- (len_flat_fields tg decl ss Hall Hs). apply read_at_all.
Qed.

Section Any.
Context {X : Type}.
Implicit Types (T : yty X) (fs : list (string * yty X)) (vs : list (string * yval X)).

Definition y_outs tg l fs := map_opt (fun nf : string * yty X => match y_out tg l (snd nf) with Some t => Some (fst nf, t) | None => None end) fs.
Fixpoint y_fields_ok fs vs : bool :=
  match fs, vs with
  | [], [] => true
  | (f, T') :: fs', (g, w) :: vs' => String.eqb f g && y_ok T' w && y_fields_ok fs' vs'
  | _, _ => false
  end.
Fixpoint parts_ys fs vs : list (any_impl X * X) :=
  match fs, vs with
  | (_, T') :: fs', (_, w) :: vs' => (y_parts T' w ++ parts_ys fs' vs')%list
  | _, _ => []
  end.
Fixpoint places_ys tg l (offs : list (string * N)) fs vs : option (list placement) :=
  match fs, vs with
  | [], [] => Some []
  | (f, T') :: fs', (_, w) :: vs' =>
    match assoc f offs, y_places tg l T' w, places_ys tg l offs fs' vs' with
    | Some o, Some p, Some q => Some (move o p ++ q)%list
    | _, _, _ => None
    end
  | _, _ => None
  end.
Fixpoint read_ys tg l (offs : list (string * N)) buf off fs : option (list (string * yval X)) :=
  match fs with
  | [] => Some []
  | (f, T') :: fs' =>
    match assoc f offs with
    | Some o =>
      match y_read tg l T' buf (off + o), read_ys tg l offs buf off fs' with
      | Some v, Some vs => Some ((f, v) :: vs)
      | _, _ => None
      end
    | None => None
    end
  end.
Fixpoint y_vals tg l fs vs : option (list (string * sval)) :=
  match fs, vs with
  | [], [] => Some []
  | (f, T') :: fs', (_, w) :: vs' =>
    match y_as tg l T' w, y_vals tg l fs' vs' with Some s, Some ss => Some ((f, s) :: ss) | _, _ => None end
  | _, _ => None
  end.
Fixpoint y_froms tg l fs (ss : list (string * sval)) : option (list (string * yval X)) :=
  match fs, ss with
  | [], [] => Some []
  | (f, T') :: fs', (_, s) :: ss' =>
    match y_from tg l T' s, y_froms tg l fs' ss' with Some v, Some vs => Some ((f, v) :: vs) | _, _ => None end
  | _, _ => None
  end.

Lemma y_ok_struct n fs vs : y_ok (YStruct n fs) (YVRec vs) = y_fields_ok fs vs.
Proof. cbn [y_ok]. revert vs. induction fs as [|[f T] fs IH]; intros [|[g w] vs]; reflexivity. Qed.
Lemma y_parts_struct n fs vs : y_parts (YStruct n fs) (YVRec vs) = parts_ys fs vs.
Proof. cbn [y_parts]. revert vs. induction fs as [|[f T] fs IH]; intros [|[g w] vs]; reflexivity. Qed.
Lemma y_places_struct tg l n fs vs t : y_out tg l (YStruct n fs) = Some t ->
  y_places tg l (YStruct n fs) (YVRec vs) = places_ys tg l (field_offsets tg t) fs vs.
Proof.
  intros E. cbn [y_places]. rewrite E. clear E. revert vs. induction fs as [|[f T] fs IH]; intros [|[g w] vs]; try reflexivity.
  cbn [places_ys]. now rewrite <- IH.
Qed.
Lemma y_read_struct tg l n fs t buf off : y_out tg l (YStruct n fs) = Some t ->
  y_read tg l (YStruct n fs) buf off = match read_ys tg l (field_offsets tg t) buf off fs with Some vs => Some (YVRec vs) | None => None end.
Proof.
  intros E. cbn [y_read]. rewrite E. clear E.
  match goal with |- match ?f fs with _ => _ end = _ => assert (E : f fs = read_ys tg l (field_offsets tg t) buf off fs) end; [|now rewrite E].
  induction fs as [|[f T] fs IH]; [reflexivity|]. cbn [read_ys]. now rewrite <- IH.
Qed.

Lemma y_fields_ok_names fs : forall vs, y_fields_ok fs vs = true -> map fst vs = map fst fs.
Proof.
  induction fs as [|[f T] fs IH]; intros [|[g w] vs] H; try discriminate; [reflexivity|]. cbn [y_fields_ok] in H.
  rewrite !andb_true_iff in H. destruct H as [[H1 _] H2]. apply String.eqb_eq in H1. subst g. cbn [map fst]. now rewrite (IH vs H2).
Qed.

Lemma y_out_struct tg l n fs t : y_out tg l (YStruct n fs) = Some t ->
  exists outs, y_outs tg l fs = Some outs /\ derive_output tg l n outs = Some t /\ map fst outs = map fst fs
    /\ Forall2 (fun nf o => fst nf = fst o /\ y_out tg l (snd nf) = Some (snd o)) fs outs.
Proof.
  intros H. cbn [y_out] in H. fold (y_outs tg l fs) in H. destruct (y_outs tg l fs) as [outs|] eqn:E; [|discriminate].
  exists outs. split; [reflexivity|]. split; [assumption|].
  assert (F : Forall2 (fun nf o => fst nf = fst o /\ y_out tg l (snd nf) = Some (snd o)) fs outs).
  { unfold y_outs in E. apply map_opt_Forall2 in E. clear H. induction E as [|[f T] [g u] fs outs E _ IH]; constructor; [|assumption].
    cbn [fst snd] in *. destruct (y_out tg l T); [|discriminate]. injection E as -> ->. auto. }
  split; [|assumption]. clear E H. induction F as [|[f T] [g u] fs outs [E _] _ IH]; [reflexivity|]. cbn [map fst] in *. congruence.
Qed.

Lemma impls_field tg l n fs f T : impls_ok tg l (YStruct n fs) -> In (f, T) fs -> impls_ok tg l T.
Proof.
  intros H Hin a Ha. apply H. cbn [y_impls]. apply in_flat_map. exists (f, T). auto.
Qed.

Lemma y_out_layout tg l T : forall t, impls_ok tg l T -> y_out tg l T = Some t -> layout_type tg l t.
Proof.
  induction T as [a|T IH|n fs IH] using yty_ind'; intros t Hok H.
  - cbn [y_out] in H. destruct (std_align l (ai_out a)); [|discriminate]. injection H as <-. apply Hok. now left.
  - cbn [y_out] in H. destruct l; [|discriminate]. destruct (y_out tg L140 T) as [u|] eqn:E; [|discriminate]. injection H as <-.
    apply lt_dyn; [reflexivity|]. now apply IH.
  - destruct (y_out_struct _ _ _ _ _ H) as [outs [_ [E [_ F]]]]. apply lt_derive with (name := n) (fields := outs); [|assumption].
    assert (K : forall nf, In nf fs -> impls_ok tg l (snd nf)) by (intros [f T] Hin; eapply impls_field; eassumption).
    clear H E Hok. induction F as [|[g T] [g' u'] fs outs [E1 E2] _ IHF]; intros f u Hin; [contradiction|].
    inversion IH as [|? ? I1 I2]; subst. destruct Hin as [E|Hin].
    + injection E as <- <-. apply I1; [apply (K (g, T)); now left|assumption].
    + apply (IHF I2) with (f := f); [|assumption]. intros nf Hn. apply K. now right.
Qed.

Lemma y_as_struct tg l n fs vs outs : y_outs tg l fs = Some outs -> NoDup (map fst fs) -> y_fields_ok fs vs = true ->
  y_as tg l (YStruct n fs) (YVRec vs) = match y_vals tg l fs vs with Some vals => derived_as tg l n outs vals | None => None end.
Proof.
  intros E Hnd Hok. cbn [y_as]. fold (y_outs tg l fs). rewrite E. unfold yfield.
  rewrite (lookup_fields (fun nf w => match y_as tg l (snd nf) w with Some s => Some (fst nf, s) | None => None end) fs vs (y_fields_ok_names _ _ Hok) Hnd).
  assert (K : map_opt (fun p => match y_as tg l (snd (fst p)) (snd (snd p)) with Some s => Some (fst (fst p), s) | None => None end) (combine fs vs)
    = y_vals tg l fs vs).
  { clear E Hnd. revert vs Hok. induction fs as [|[f T] fs IH]; intros [|[g w] vs] Hok; try discriminate; [reflexivity|].
    cbn [y_fields_ok] in Hok. rewrite !andb_true_iff in Hok. destruct Hok as [_ Hok].
    cbn [combine y_vals]. rewrite map_opt_cons. cbn [fst snd]. rewrite (IH vs Hok). now destruct (y_as tg l T w), (y_vals tg l fs vs). }
  now rewrite K.
Qed.

Lemma derived_from_names l n outs s ss : derived_from l n outs s = Some ss -> map fst ss = map fst outs.
Proof.
  unfold derived_from. rewrite derive_from_eq. intros H. apply map_opt_Forall2 in H. revert H. generalize (map fst outs) as fs.
  intros fs H. induction H as [|f [g w] fs ss E _ IH]; [reflexivity|]. destruct (sfield f s); [|discriminate]. injection E as -> _.
  cbn [map fst]. now rewrite IH.
Qed.

Lemma y_from_struct tg l n fs outs s ss : y_outs tg l fs = Some outs -> map fst outs = map fst fs -> NoDup (map fst fs) ->
  derived_from l n outs s = Some ss ->
  y_from tg l (YStruct n fs) s = match y_froms tg l fs ss with Some vs => Some (YVRec vs) | None => None end.
Proof.
  intros E En Hnd Hs. cbn [y_from]. fold (y_outs tg l fs). rewrite E.
  unfold derived_from in Hs. rewrite derive_from_eq in Hs |- *. rewrite En in Hs |- *.
  assert (K : map_opt (fun nf => match sfield (fst nf) s with
      | Some w => match y_from tg l (snd nf) w with Some v => Some (fst nf, v) | None => None end
      | None => None end) fs = y_froms tg l fs ss).
  { clear E En Hnd. apply map_opt_Forall2 in Hs. revert ss Hs. induction fs as [|[f T] fs IH]; intros ss Hs; inversion Hs as [|? ? ? ? E1 E2]; subst; [reflexivity|].
    cbn [fst] in E1. destruct (sfield f s) as [w|] eqn:Ef; [|discriminate]. injection E1 as <-.
    rewrite map_opt_cons. cbn [fst snd y_froms]. rewrite Ef, (IH _ E2). now destruct (y_from tg l T w), (y_froms tg l fs l'). }
  rewrite K. destruct (y_froms tg l fs ss) as [vs|] eqn:Ev; [|reflexivity].
  assert (Hn : map fst vs = map fst fs).
  { clear -Ev. revert ss vs Ev. induction fs as [|[f T] fs IH]; intros [|[g w] ss] vs Ev; cbn [y_froms] in Ev; try discriminate; [now injection Ev as <-|].
    destruct (y_from tg l T w); [|discriminate]. destruct (y_froms tg l fs ss) eqn:E; [|discriminate]. injection Ev as <-. cbn [map fst]. f_equal. eapply IH; eassumption. }
  rewrite <- Hn, assoc_reorder; [reflexivity|now rewrite Hn].
Qed.

Lemma image_at_0 b : image [(0, b)] (len b) b.
Proof.
  split; [reflexivity|]. split.
  - intros o c [E|[]]. injection E as <- <-. apply read_at_all.
  - intros i Hi H. exfalso. apply (H 0 b); [now left|lia].
Qed.

Definition part_ok tg l t (p : any_impl X * X) (pl : placement) : Prop :=
  derived_part tg l t (fst pl) (ai_out (fst p))
  /\ exists s, ai_as (fst p) (snd p) = Some s /\ bytes_of tg (ai_out (fst p)) s = Some (snd pl).

Definition main tg l T : Prop := forall t v, impls_ok tg l T -> y_out tg l T = Some t -> y_ok T v = true ->
  (exists s bs places, y_as tg l T v = Some s /\ has_sty t s = true /\ bytes_of tg t s = Some bs
     /\ y_places tg l T v = Some places /\ image places (size_of tg t) bs
     /\ Forall2 (part_ok tg l t) (y_parts T v) places)
  \/ (y_as tg l T v = None /\ exists a x, In (a, x) (y_parts T v) /\ ai_as a x = None).

Lemma covered_dec (outs : list (string * sty)) (offs : list (string * N)) tg i :
  (exists f u o, In (f, u) outs /\ assoc f offs = Some o /\ o <= i < o + size_of tg u)
  \/ (forall f u o, In (f, u) outs -> assoc f offs = Some o -> ~ (o <= i < o + size_of tg u)).
Proof.
  induction outs as [|[f u] outs IH].
  - right. intros f u o [].
  - destruct IH as [[g [v [o [H1 H2]]]]|IH]; [left; exists g, v, o; split; [now right|assumption]|].
    destruct (assoc f offs) as [o|] eqn:E.
    + destruct (N.le_gt_cases o i) as [H1|H1].
      * destruct (N.lt_ge_cases i (o + size_of tg u)) as [H2|H2].
        -- left. exists f, u, o. split; [now left|]. auto.
        -- right. intros g v o' [K|K] Eo; [|eauto]. injection K as <- <-. rewrite E in Eo. injection Eo as <-. lia.
      * right. intros g v o' [K|K] Eo; [|eauto]. injection K as <- <-. rewrite E in Eo. injection Eo as <-. lia.
    + right. intros g v o' [K|K] Eo; [|eauto]. injection K as <- <-. congruence.
Qed.

Lemma vals_spec tg l fs : Forall (fun nf => main tg l (snd nf)) fs -> forall outs vs,
  Forall (fun nf => impls_ok tg l (snd nf)) fs ->
  Forall2 (fun nf o => fst nf = fst o /\ y_out tg l (snd nf) = Some (snd o)) fs outs -> y_fields_ok fs vs = true ->
  (exists vals, y_vals tg l fs vs = Some vals /\ Forall2 (fun f v => fst f = fst v /\ has_sty (snd f) (snd v) = true) outs vals)
  \/ (y_vals tg l fs vs = None /\ exists a x, In (a, x) (parts_ys fs vs) /\ ai_as a x = None).
Proof.
  induction 1 as [|[f T] fs H _ IH]; intros outs [|[g w] vs] Hi F Hok; try discriminate Hok.
  - inversion F; subst. left. exists []. split; [reflexivity|constructor].
  - inversion F as [|? [f' u] ? outs' [E1 E2] F']; subst. inversion Hi as [|? ? Hi1 Hi2]; subst. cbn [fst snd] in *. subst f'.
    cbn [y_fields_ok] in Hok. rewrite !andb_true_iff in Hok. destruct Hok as [[_ Hok1] Hok2].
    cbn [y_vals parts_ys].
    destruct (H u w Hi1 E2 Hok1) as [[s [bs [pl [A1 [A2 _]]]]]|[A1 [a [x [A2 A3]]]]].
    + rewrite A1. destruct (IH outs' vs Hi2 F' Hok2) as [[vals [B1 B2]]|[B1 [a [x [B2 B3]]]]].
      * left. exists ((f, s) :: vals). rewrite B1. split; [reflexivity|]. constructor; [auto|assumption].
      * right. rewrite B1. split; [reflexivity|]. exists a, x. split; [apply in_or_app; now right|assumption].
    + right. rewrite A1. split; [reflexivity|]. exists a, x. split; [apply in_or_app; now left|assumption].
Qed.

Lemma places_spec tg l t bs (offs : list (string * N)) fs : Forall (fun nf => main tg l (snd nf)) fs -> forall outs vs vals,
  Forall (fun nf => impls_ok tg l (snd nf)) fs ->
  Forall2 (fun nf o => fst nf = fst o /\ y_out tg l (snd nf) = Some (snd o)) fs outs -> y_fields_ok fs vs = true ->
  y_vals tg l fs vs = Some vals ->
  (forall f u v, In (f, u) outs -> In (f, v) vals ->
     exists o b, assoc f offs = Some o /\ bytes_of tg u v = Some b /\ read_at bs o (len b) = Some b) ->
  (forall f u o o' v, In (f, u) outs -> assoc f offs = Some o -> derived_part tg l u o' v -> derived_part tg l t (o + o') v) ->
  exists places, places_ys tg l offs fs vs = Some places
    /\ (forall o c, In (o, c) places -> read_at bs o (len c) = Some c)
    /\ (forall f u o i, In (f, u) outs -> assoc f offs = Some o -> o <= i < o + size_of tg u ->
          (forall o c, In (o, c) places -> ~ (o <= i < o + len c)) -> byte_at bs i = Some x00)
    /\ Forall2 (part_ok tg l t) (parts_ys fs vs) places.
Proof.
  induction 1 as [|[f T] fs H _ IH]; intros outs [|[g w] vs] vals Hi F Hok Hv Hread Hdp; try discriminate Hok.
  - inversion F; subst. exists []. split; [reflexivity|]. split; [intros ? ? []|]. split; [intros ? ? ? ? []|constructor].
  - inversion F as [|? [f' u] ? outs' [E1 E2] F']; subst. inversion Hi as [|? ? Hi1 Hi2]; subst. cbn [fst snd] in *. subst f'.
    cbn [y_fields_ok] in Hok. rewrite !andb_true_iff in Hok. destruct Hok as [[_ Hok1] Hok2].
    cbn [y_vals] in Hv. cbn [places_ys parts_ys].
    destruct (H u w Hi1 E2 Hok1) as [[s [b [pl [A1 [A2 [A3 [A4 [A5 A6]]]]]]]]|[A1 _]]; [|rewrite A1 in Hv; discriminate].
    rewrite A1 in Hv. destruct (y_vals tg l fs vs) as [vals'|] eqn:Ev; [|discriminate]. injection Hv as <-.
    destruct (Hread f u s (or_introl eq_refl) (or_introl eq_refl)) as [o [b' [R1 [R2 R3]]]]. rewrite A3 in R2. injection R2 as <-.
    destruct (IH outs' vs vals' Hi2 F' Hok2 Ev) as [pls [B1 [B2 [B3 B4]]]].
    { intros f0 u0 v0 I1 I2. apply Hread; now right. }
    { intros f0 u0 o0 o' v0 I1. apply (Hdp f0 u0). now right. }
    destruct A5 as [L1 [L2 L3]].
    exists (move o pl ++ pls)%list. rewrite R1, A4, B1. split; [reflexivity|]. split; [|split].
    + intros o' c Hin. apply in_app_or in Hin. destruct Hin as [Hin|Hin]; [|now apply B2].
      unfold move in Hin. apply in_map_iff in Hin. destruct Hin as [[o1 c1] [E Hin]]. cbn [fst snd] in E. injection E as <- <-.
      apply (read_at_read_at _ _ _ _ _ _ _ R3). now apply L2.
    + intros f0 u0 o0 i Hin Eo Hi0 Hno. destruct Hin as [E|Hin].
      * injection E as <- <-. rewrite R1 in Eo. injection Eo as <-.
        assert (Eb : byte_at bs i = byte_at b (i - o)).
        { pose proof (proj1 (read_at_bytes _ _ _) R3) as [_ K]. rewrite <- (K (i - o)) by lia. f_equal. lia. }
        rewrite Eb. apply L3; [lia|]. intros o1 c1 Hin Hc. apply (Hno (o + o1) c1); [|lia].
        apply in_or_app. left. unfold move. apply in_map_iff. exists (o1, c1). auto.
      * apply (B3 f0 u0 o0 i Hin Eo Hi0). intros o1 c1 Hin1. apply Hno. apply in_or_app. now right.
    + apply Forall2_app; [|exact B4]. unfold move. clear -A6 Hdp R1.
      induction A6 as [|p [o1 c1] ps pl [Q1 Q2] _ IHp]; cbn [map]; constructor; [|assumption].
      split; [|exact Q2]. cbn [fst snd] in *. eapply Hdp; [now left|eassumption|assumption].
Qed.

Lemma main_all tg l T : target_ok tg = true -> main tg l T.
Proof.
  intros Htg. induction T as [a|T IH|n fs IH] using yty_ind'; intros t v Hi Ho Hv.
  - destruct v as [x| |]; try discriminate. cbn [y_out] in Ho. destruct (std_align l (ai_out a)) eqn:Ea; [|discriminate]. injection Ho as <-.
    cbn [y_as y_parts y_places].
    destruct (ai_as a x) as [s|] eqn:Es.
    + left. destruct (Hi a (or_introl eq_refl)) as [Hl Hs]. pose proof (Hs x s Es) as Hst.
      destruct (C86_closed_proof tg l (ai_out a) Htg Hl) as [_ [_ [K _]]]. destruct (K s Hst) as [bs [K1 [K2 _]]].
      exists s, bs, [(0, bs)]. rewrite K1. split; [reflexivity|]. split; [assumption|]. split; [reflexivity|]. split; [reflexivity|].
      split; [rewrite <- K2; apply image_at_0|]. constructor; [|constructor]. split; [apply dp_here|]. cbn [fst snd]. eauto.
    + right. split; [reflexivity|]. exists a, x. split; [now left|assumption].
  - destruct v as [|v|]; try discriminate. cbn [y_out] in Ho. destruct l; [|discriminate].
    destruct (y_out tg L140 T) as [u|] eqn:E; [|discriminate]. injection Ho as <-.
    cbn [y_as y_parts y_places]. destruct (IH u v Hi E Hv) as [[s [bs [pl [A1 [A2 [A3 [A4 [A5 A6]]]]]]]]|[A1 A2]].
    + left. exists (SNew s), bs, pl. rewrite A1. split; [reflexivity|]. split; [exact A2|]. split; [|split; [assumption|split; [exact A5|]]].
      * pose proof (y_out_layout tg L140 T u Hi E) as Hl. pose proof (layout_type_lgood tg L140 u Htg Hl) as G.
        pose proof (lgood_nopad _ _ _ G) as Hn. rewrite (bytes_of_flat tg u s Hn A2) in A3. injection A3 as <-.
        assert (Hn' : nopad tg (TDyn u) = true) by (pose proof (lgood_nopad _ _ _ (layout_type_lgood tg L140 (TDyn u) Htg (lt_dyn _ _ _ eq_refl Hl))); assumption).
        rewrite (bytes_of_flat tg (TDyn u) (SNew s) Hn' A2). reflexivity.
      * clear -A6 Hi E. pose proof (y_out_layout tg L140 T u Hi E) as Hl.
        induction A6 as [|p q ps pl [Q1 Q2] _ IHp]; constructor; [|assumption]. split; [|exact Q2]. now apply dp_dyn.
    + right. rewrite A1. split; [reflexivity|exact A2].
  - destruct v as [| |vs]; try discriminate. rewrite y_ok_struct in Hv. rewrite y_parts_struct, (y_places_struct _ _ _ _ _ _ Ho).
    destruct (y_out_struct _ _ _ _ _ Ho) as [outs [Eo [Ed [En F]]]].
    assert (Hi' : Forall (fun nf => impls_ok tg l (snd nf)) fs).
    { apply Forall_forall. intros [f T] Hin. eapply impls_field; eassumption. }
    assert (HF : forall f u, In (f, u) outs -> layout_type tg l u).
    { clear -F Hi'. induction F as [|[f T] [f' u] fs outs [E1 E2] _ IH]; intros g w Hin; [contradiction|]. inversion Hi'; subst.
      destruct Hin as [E|Hin]; [|eauto]. injection E as <- <-. cbn [snd] in *. eapply y_out_layout; eassumption. }
    pose proof (layout_derive_facts tg l n outs t Htg HF Ed) as [_ [_ [_ [Hnd _]]]].
    assert (Hnd' : NoDup (map fst fs)) by now rewrite <- En.
    rewrite (y_as_struct tg l n fs vs outs Eo Hnd' Hv).
    destruct (vals_spec tg l fs IH outs vs Hi' F Hv) as [[vals [V1 V2]]|[V1 V2]]; rewrite V1; [left|right; auto].
    destruct (C86_conversion_proof tg l n outs t vals Htg HF Ed V2) as [s [bs [S1 [S2 [S3 [_ [S5 S6]]]]]]].
    destruct (places_spec tg l t bs (field_offsets tg t) fs IH outs vs vals Hi' F Hv V1 S5) as [pl [P1 [P2 [P3 P4]]]].
    { intros f u o o' v Hin Ea Hp. eapply dp_field; eassumption. }
    exists s, bs, pl. split; [assumption|]. split; [assumption|]. split; [assumption|]. split; [assumption|]. split; [|assumption].
    assert (Hlen : len bs = size_of tg t).
    { assert (Hl : layout_type tg l t) by (eapply lt_derive; eassumption).
      destruct (C86_closed_proof tg l t Htg Hl) as [_ [_ [K _]]]. destruct (K s S2) as [bs' [K1 [K2 _]]]. congruence. }
    split; [assumption|]. split; [assumption|]. intros i Hi0 Hno.
    destruct (covered_dec outs (field_offsets tg t) tg i) as [[f [u [o [C1 [C2 C3]]]]]|C]; [eapply P3; eassumption|].
    apply S6; assumption.
Qed.

(** ** back *)

Definition trip tg l T : Prop := forall t v s, impls_ok tg l T -> y_out tg l T = Some t -> y_ok T v = true ->
  y_as tg l T v = Some s ->
  (y_from tg l T s = Some v <-> forall a x, In (a, x) (y_parts T v) -> exists s', ai_as a x = Some s' /\ ai_from a s' = Some x).

Lemma trip_fields tg l fs : Forall (fun nf => trip tg l (snd nf)) fs -> forall outs vs vals,
  Forall (fun nf => impls_ok tg l (snd nf)) fs ->
  Forall2 (fun nf o => fst nf = fst o /\ y_out tg l (snd nf) = Some (snd o)) fs outs -> y_fields_ok fs vs = true ->
  y_vals tg l fs vs = Some vals ->
  (y_froms tg l fs vals = Some vs <-> forall a x, In (a, x) (parts_ys fs vs) -> exists s', ai_as a x = Some s' /\ ai_from a s' = Some x).
Proof.
  induction 1 as [|[f T] fs H _ IH]; intros outs [|[g w] vs] vals Hi F Hok Hv; try discriminate Hok.
  - injection Hv as <-. cbn [y_froms parts_ys]. split; [intros _ ? ? []|reflexivity].
  - inversion F as [|? [f' u] ? outs' [E1 E2] F']; subst. inversion Hi as [|? ? Hi1 Hi2]; subst. cbn [fst snd] in *. subst f'.
    cbn [y_fields_ok] in Hok. rewrite !andb_true_iff in Hok. destruct Hok as [[Hn Hok1] Hok2]. apply String.eqb_eq in Hn. subst g.
    cbn [y_vals] in Hv. destruct (y_as tg l T w) as [s|] eqn:Es; [|discriminate].
    destruct (y_vals tg l fs vs) as [vals'|] eqn:Ev; [|discriminate]. injection Hv as <-.
    specialize (H u w s Hi1 E2 Hok1 Es). specialize (IH outs' vs vals' Hi2 F' Hok2 Ev).
    cbn [y_froms parts_ys]. split.
    + intros K a x Hin. destruct (y_from tg l T s) as [w'|] eqn:E3; [|discriminate]. destruct (y_froms tg l fs vals') as [vs'|] eqn:E4; [|discriminate].
      injection K as -> ->. apply in_app_or in Hin. destruct Hin as [Hin|Hin]; [now apply (proj1 H)|now apply (proj1 IH)].
    + intros K. rewrite (proj2 H), (proj2 IH); [reflexivity| |]; intros a x Hin; apply K, in_or_app; auto.
Qed.

Lemma trip_all tg l T : target_ok tg = true -> trip tg l T.
Proof.
  intros Htg. induction T as [a|T IH|n fs IH] using yty_ind'; intros t v s Hi Ho Hv Hs.
  - destruct v as [x| |]; try discriminate. cbn [y_as] in Hs. cbn [y_from y_parts]. split.
    + intros K a' x' [E|[]]. injection E as <- <-. exists s. split; [assumption|]. destruct (ai_from a s); [now injection K as ->|discriminate].
    + intros K. destruct (K a x (or_introl eq_refl)) as [s' [K1 K2]]. rewrite Hs in K1. injection K1 as <-. now rewrite K2.
  - destruct v as [|v|]; try discriminate. cbn [y_out] in Ho. destruct l; [|discriminate].
    destruct (y_out tg L140 T) as [u|] eqn:E; [|discriminate].
    cbn [y_as] in Hs. destruct (y_as tg L140 T v) as [s'|] eqn:Es; [|discriminate]. injection Hs as <-.
    cbn [y_from y_parts]. rewrite <- (IH u v s' Hi E Hv Es). split.
    + intros K. destruct (y_from tg L140 T s'); [now injection K as ->|discriminate].
    + now intros ->.
  - destruct v as [| |vs]; try discriminate. rewrite y_ok_struct in Hv. rewrite y_parts_struct.
    destruct (y_out_struct _ _ _ _ _ Ho) as [outs [Eo [Ed [En F]]]].
    assert (Hi' : Forall (fun nf => impls_ok tg l (snd nf)) fs).
    { apply Forall_forall. intros [f T] Hin. eapply impls_field; eassumption. }
    assert (HF : forall f u, In (f, u) outs -> layout_type tg l u).
    { clear -F Hi'. induction F as [|[f T] [f' u] fs outs [E1 E2] _ IH]; intros g w Hin; [contradiction|]. inversion Hi'; subst.
      destruct Hin as [E|Hin]; [|eauto]. injection E as <- <-. cbn [snd] in *. eapply y_out_layout; eassumption. }
    pose proof (layout_derive_facts tg l n outs t Htg HF Ed) as [_ [_ [_ [Hnd _]]]].
    assert (Hnd' : NoDup (map fst fs)) by now rewrite <- En.
    rewrite (y_as_struct tg l n fs vs outs Eo Hnd' Hv) in Hs.
    destruct (vals_spec tg l fs (proj2 (Forall_forall _ _) (fun nf _ => main_all tg l (snd nf) Htg)) outs vs Hi' F Hv) as [[vals [V1 V2]]|[V1 V2]];
      rewrite V1 in Hs; [|discriminate].
    destruct (C86_conversion_proof tg l n outs t vals Htg HF Ed V2) as [s' [bs [S1 [_ [_ [S4 _]]]]]]. rewrite S1 in Hs. injection Hs as ->.
    rewrite (y_from_struct tg l n fs outs s vals Eo En Hnd' S4).
    rewrite <- (trip_fields tg l fs IH outs vs vals Hi' F Hv V1). split.
    + intros K. destruct (y_froms tg l fs vals); [now injection K as ->|discriminate].
    + now intros ->.
Qed.

(** ** reading *)

Definition reads tg l T : Prop := forall t s bs buf off, impls_ok tg l T -> y_out tg l T = Some t -> has_sty t s = true ->
  bytes_of tg t s = Some bs -> read_at buf off (size_of tg t) = Some bs -> y_from tg l T s = y_read tg l T buf off.

Lemma reads_fields tg l s buf off (offs : list (string * N)) fs : Forall (fun nf => reads tg l (snd nf)) fs -> forall outs,
  Forall (fun nf => impls_ok tg l (snd nf)) fs ->
  Forall2 (fun nf o => fst nf = fst o /\ y_out tg l (snd nf) = Some (snd o)) fs outs ->
  (forall f u, In (f, u) outs -> exists o w b, assoc f offs = Some o /\ sfield f s = Some w /\ has_sty u w = true
     /\ bytes_of tg u w = Some b /\ read_at buf (off + o) (size_of tg u) = Some b) ->
  exists ss, map_opt (fun f => match sfield f s with Some w => Some (f, w) | None => None end) (map fst outs) = Some ss
    /\ y_froms tg l fs ss = read_ys tg l offs buf off fs.
Proof.
  induction 1 as [|[f T] fs H _ IH]; intros outs Hi F K; inversion F as [|? [f' u] ? outs' [E1 E2] F']; subst.
  - exists []. split; reflexivity.
  - inversion Hi as [|? ? Hi1 Hi2]; subst. cbn [fst snd] in *. subst f'.
    destruct (IH outs' Hi2 F') as [ss [S1 S2]]; [intros; apply K; now right|].
    destruct (K f u (or_introl eq_refl)) as [o [w [b [K1 [K2 [K3 [K4 K5]]]]]]].
    exists ((f, w) :: ss). cbn [map]. rewrite map_opt_cons. cbn [fst]. rewrite K2, S1. split; [reflexivity|].
    cbn [y_froms read_ys]. rewrite K1, S2, (H u w b buf (off + o) Hi1 E2 K3 K4 K5). reflexivity.
Qed.

Lemma reads_all tg l T : target_ok tg = true -> reads tg l T.
Proof.
  intros Htg. induction T as [a|T IH|n fs IH] using yty_ind'; intros t s bs buf off Hi Ho Hst Hb Hr.
  - pose proof (y_out_layout tg l (YLeaf a) t Hi Ho) as Hl. cbn [y_out] in Ho. destruct (std_align l (ai_out a)); [|discriminate]. injection Ho as <-.
    cbn [y_from y_read]. rewrite Hr. destruct (C86_closed_proof tg l _ Htg Hl) as [_ [_ [K _]]]. destruct (K s Hst) as [b' [K1 [_ K3]]].
    rewrite Hb in K1. injection K1 as <-. rewrite K3. reflexivity.
  - pose proof (y_out_layout tg l (YDyn T) t Hi Ho) as Hl. cbn [y_out] in Ho. destruct l; [|discriminate].
    destruct (y_out tg L140 T) as [u|] eqn:E; [|discriminate]. injection Ho as <-.
    destruct s as [| | |s]; try discriminate Hst. cbn [y_from y_read].
    pose proof (y_out_layout tg L140 T u Hi E) as Hlu.
    rewrite (bytes_of_flat tg (TDyn u) (SNew s) (lgood_nopad _ _ _ (layout_type_lgood tg L140 _ Htg Hl)) Hst) in Hb. cbn [flat] in Hb.
    rewrite (IH u s bs buf off Hi E Hst); [reflexivity| |exact Hr].
    rewrite <- Hb. apply bytes_of_flat; [|exact Hst]. exact (lgood_nopad _ _ _ (layout_type_lgood tg L140 _ Htg Hlu)).
  - destruct (y_out_struct _ _ _ _ _ Ho) as [outs [Eo [Ed [En F]]]].
    assert (Hi' : Forall (fun nf => impls_ok tg l (snd nf)) fs).
    { apply Forall_forall. intros [f T] Hin. eapply impls_field; eassumption. }
    assert (HF : forall f u, In (f, u) outs -> layout_type tg l u).
    { clear -F Hi'. induction F as [|[f T] [f' u] fs outs [E1 E2] _ IH]; intros g w Hin; [contradiction|]. inversion Hi'; subst.
      destruct Hin as [E|Hin]; [|eauto]. injection E as <- <-. cbn [snd] in *. eapply y_out_layout; eassumption. }
    pose proof (layout_derive_facts tg l n outs t Htg HF Ed) as [_ [_ [_ [Hnd _]]]].
    assert (Hnd' : NoDup (map fst fs)) by now rewrite <- En.
    rewrite (y_read_struct _ _ _ _ _ _ _ Ho).
    destruct (reads_fields tg l s buf off (field_offsets tg t) fs IH outs Hi' F) as [ss [S1 S2]].
    { intros f u Hin. destruct (layout_field tg l n outs t s bs f u Htg HF Ed Hst Hb Hin) as [o [w [b [A1 [A2 [A3 [A4 [_ [A6 _]]]]]]]]].
      exists o, w, b. split; [assumption|]. split; [assumption|]. split; [assumption|]. split; [assumption|].
      exact (read_at_read_at _ _ _ _ _ _ _ Hr A6). }
    rewrite (y_from_struct tg l n fs outs s ss Eo En Hnd'); [now rewrite S2|].
    unfold derived_from. rewrite derive_from_eq. exact S1.
Qed.

End Any.

(** ** The theorems *)

(** C88.  The layout is that of the [Output]s: a layout type in the sense of C86 (so that its theorems apply). *)
Lemma C88_layout_proof : forall X tg l (T : yty X) t, impls_ok tg l T -> y_out tg l T = Some t -> layout_type tg l t.
Proof. intros X tg l T. apply y_out_layout. Qed.

(** C88.  [as_stdN().as_bytes()]: either every part is converted, and the bytes are those of the parts, each at its own
    offset, a multiple of its own ALIGNMENT, and zeros everywhere else; or the conversion of a part panics, and so does
    the whole; then [Writer::write] panics before it touches the writer. *)
Lemma C88_bytes_proof : forall X W tg l (wi : write_impl W) (T : yty X) t v,
  target_ok tg = true -> impls_ok tg l T -> y_out tg l T = Some t -> y_ok T v = true ->
  (exists s bs places, y_as tg l T v = Some s /\ has_sty t s = true /\ bytes_of tg t s = Some bs
     /\ y_places tg l T v = Some places /\ image places (size_of tg t) bs
     /\ Forall2 (fun p pl => (exists s', ai_as (fst p) (snd p) = Some s' /\ bytes_of tg (ai_out (fst p)) s' = Some (snd pl))
                             /\ forall al, std_align l (ai_out (fst p)) = Some al -> aligned al (fst pl)) (y_parts T v) places
     /\ forall w, y_write tg l wi T v w = writer_write tg l wi w (WStd t s))
  \/ (y_as tg l T v = None /\ (exists a x, In (a, x) (y_parts T v) /\ ai_as a x = None)
      /\ forall w, y_write tg l wi T v w = (w, WPanic)).
Proof.
  intros X W tg l wi T t v Htg Hi Ho Hv. pose proof (y_out_layout tg l T t Hi Ho) as Hl.
  destruct (main_all tg l T Htg t v Hi Ho Hv) as [[s [bs [pl [A1 [A2 [A3 [A4 [A5 A6]]]]]]]]|[A1 A2]].
  - left. exists s, bs, pl. split; [assumption|]. split; [assumption|]. split; [assumption|]. split; [assumption|]. split; [assumption|]. split.
    + clear -A6 Htg Hl. induction A6 as [|p q ps pl [Q1 Q2] _ IH]; constructor; [|assumption]. split; [exact Q2|].
      intros al Ha. exact (proj1 (C86_nested_alignment_proof tg l t _ _ al Htg Hl Q1 Ha)).
    + intros w. unfold y_write. rewrite Ho, A1. reflexivity.
  - right. split; [assumption|]. split; [assumption|]. intros w. unfold y_write. now rewrite Ho, A1.
Qed.

(** C88.  The derived [from_stdN] undoes the derived [as_stdN] exactly when the implementations do so on the parts. *)
Lemma C88_round_trip_proof : forall X tg l (T : yty X) t v s,
  target_ok tg = true -> impls_ok tg l T -> y_out tg l T = Some t -> y_ok T v = true -> y_as tg l T v = Some s ->
  (y_from tg l T s = Some v <-> forall a x, In (a, x) (y_parts T v) -> exists s', ai_as a x = Some s' /\ ai_from a s' = Some x).
Proof. intros X tg l T t v s Htg. now apply trip_all. Qed.

(** C88.  [from_stdN] of whatever bytes are in a buffer (written by a shader, padding included): every part is read
    at its own offset and handed to the [from_stdN] of the part. *)
Lemma C88_read_back_proof : forall X tg l (T : yty X) t buf off bs,
  target_ok tg = true -> impls_ok tg l T -> y_out tg l T = Some t -> read_at buf off (size_of tg t) = Some bs ->
  exists s, from_bytes tg t bs = Some s /\ y_from tg l T s = y_read tg l T buf off.
Proof.
  intros X tg l T t buf off bs Htg Hi Ho Hr. pose proof (y_out_layout tg l T t Hi Ho) as Hl.
  destruct (C86_closed_proof tg l t Htg Hl) as [_ [_ [_ K]]]. destruct (K bs (read_at_len _ _ _ _ Hr)) as [s [K1 [K2 K3]]].
  exists s. split; [assumption|]. eapply reads_all; eassumption.
Qed.

(** ** the types of Custom.v *)
Lemma y_outs_spec {X} tg l (fs : list (string * yty X)) outs :
  Forall2 (fun nf o => fst nf = fst o /\ y_out tg l (snd nf) = Some (snd o)) fs outs -> y_outs tg l fs = Some outs.
Proof.
  unfold y_outs. induction 1 as [|[f T] [g u] fs outs [E1 E2] _ IH]; [reflexivity|]. cbn [fst snd] in *. subst g.
  rewrite map_opt_cons. cbn [fst snd]. now rewrite E2, IH.
Qed.

Definition same_as {X} tg l (T : xty X) (Y : yty (hval + X)) t : Prop :=
  y_of tg l T = Some Y /\ y_out tg l Y = Some t /\ (returns_output tg l T -> impls_ok tg l Y)
  /\ (forall v, x_ok tg T v = true -> y_ok Y (yv_of v) = true /\ y_as tg l Y (yv_of v) = x_as tg l T v)
  /\ (forall s, y_from tg l Y s = option_map yv_of (x_from tg l T s)).

Lemma assoc_map_snd {A B} (g : A -> B) f (vs : list (string * A)) :
  assoc f (map (fun nv => (fst nv, g (snd nv))) vs) = option_map g (assoc f vs).
Proof. induction vs as [|[h w] vs IH]; [reflexivity|]. cbn [map fst snd]. rewrite !assoc_cons. destruct (String.eqb f h); [reflexivity|exact IH]. Qed.

Lemma same_as_exists {X} tg l (T : xty X) : target_ok tg = true -> forall t, x_out tg l T = Some t -> exists Y, same_as tg l T Y t.
Proof.
  intros Htg. induction T as [h|u|T IH|n fs IH] using xty_ind'; intros t Ho.
  - cbn [x_out] in Ho. destruct (out_ty_good tg Htg h l t Ho) as [a [Ha _]].
    eexists. unfold same_as. cbn [y_of]. rewrite Ho. split; [reflexivity|]. cbn [y_out ai_out]. rewrite Ha. split; [reflexivity|]. split; [|split].
    + intros _ a' [<-|[]]. cbn [ai_out ai_as]. split; [now apply lt_crate with (h := h)|].
      intros [w|x] s E; [|discriminate]. destruct (hval_ok tg h w) eqn:Ew; [|discriminate].
      destruct (conv_total tg Htg h l t Ho) as [Hc _]. destruct (Hc w Ew) as [s0 [E1 [E2 _]]]. congruence.
    + intros v Hv. destruct v as [w| | |]; try discriminate Hv. cbn [yv_of y_ok y_as ai_as x_as]. split; [reflexivity|].
      cbn [x_ok] in Hv. now rewrite Hv.
    + intros s. cbn [y_from ai_from x_from]. now destruct (from_std tg l h s).
  - cbn [x_out] in Ho. destruct (out_ty tg l (ui_out u)) as [t'|] eqn:E; [|discriminate].
    destruct (std_align l t') as [a|] eqn:Ea; [|discriminate]. injection Ho as ->.
    eexists. unfold same_as. cbn [y_of]. rewrite E. split; [reflexivity|]. cbn [y_out ai_out]. rewrite Ea. split; [reflexivity|]. split; [|split].
    + intros Hr a' [<-|[]]. cbn [ai_out ai_as]. split; [now apply lt_crate with (h := ui_out u)|].
      intros [w|x] s E1; [discriminate|]. eapply Hr; [now left|eassumption|assumption].
    + intros v Hv. destruct v; try discriminate Hv. split; reflexivity.
    + intros s. cbn [y_from ai_from x_from]. now destruct (ui_from u s).
  - cbn [x_out] in Ho. destruct l; [|discriminate]. destruct (x_out tg L140 T) as [u|] eqn:E; [|discriminate]. injection Ho as <-.
    destruct (IH u eq_refl) as [Y [A1 [A2 [A3 [A4 A5]]]]]. exists (YDyn Y). unfold same_as. cbn [y_of]. rewrite A1. split; [reflexivity|].
    cbn [y_out]. rewrite A2. split; [reflexivity|]. split; [|split].
    + intros Hr a Ha. apply A3; assumption.
    + intros v Hv. destruct v as [| |v|]; try discriminate Hv. cbn [x_ok] in Hv. destruct (A4 v Hv) as [B1 B2].
      cbn [yv_of y_ok y_as x_as]. rewrite B2. auto.
    + intros s. cbn [y_from x_from]. destruct s; try reflexivity. rewrite A5. now destruct (x_from tg L140 T s).
  - pose proof Ho as Ho'. rewrite x_out_plain in Ho'. cbn [plain_ty] in Ho'. fold (plain_fs l fs) in Ho'.
    destruct (struct_facts _ _ _ _ _ Htg Ho') as [outs' [Eo' [Hnd _]]]. rewrite plain_fs_names in Hnd. rewrite <- x_outs_plain in Eo'. clear Ho'.
    cbn [x_out] in Ho. fold (x_outs tg l fs) in Ho. rewrite Eo' in Ho. rename outs' into outs. rename Eo' into Eo.
    assert (K : exists ys, map fst ys = map fst fs /\ map_opt (fun nf => match y_of tg l (snd nf) with Some Y => Some (fst nf, Y) | None => None end) fs = Some ys
      /\ Forall2 (fun nf o => fst nf = fst o /\ y_out tg l (snd nf) = Some (snd o)) ys outs
      /\ Forall2 (fun f y => fst f = fst y /\ exists t, same_as tg l (snd f) (snd y) t) fs ys).
    { clear Ho Hnd. unfold x_outs in Eo. apply map_opt_Forall2 in Eo.
      induction Eo as [|[f T] [f' u] fs outs E _ IHE]; [exists []; split; [reflexivity|split; [reflexivity|split; constructor]]|].
      inversion IH as [|? ? I1 I2]; subst. destruct (IHE I2) as [ys [A0 [A1 [A2 A3]]]]. cbn [fst snd] in *.
      destruct (x_out tg l T) as [u'|] eqn:Eu; [|discriminate]. injection E as -> ->. destruct (I1 u eq_refl) as [Y HY].
      exists ((f', Y) :: ys). split; [cbn [map fst]; now f_equal|]. pose proof HY as [B1 [B2 _]]. rewrite map_opt_cons. cbn [fst snd]. rewrite B1, A1. split; [reflexivity|].
      split; constructor; cbn [fst snd]; auto. split; [reflexivity|]. eauto. }
    destruct K as [ys [En [K1 [K2 K3]]]]. pose proof (y_outs_spec tg l ys outs K2) as Ey.
    exists (YStruct n ys). unfold same_as. cbn [y_of]. rewrite K1. split; [reflexivity|].
    assert (Hy : y_out tg l (YStruct n ys) = Some t) by (cbn [y_out]; fold (y_outs tg l ys); now rewrite Ey).
    split; [exact Hy|]. split; [|split].
    + intros Hr a Ha. cbn [y_impls] in Ha. apply in_flat_map in Ha. destruct Ha as [[g Y] [Hin Ha]]. cbn [snd] in Ha.
      assert (Hr' : Forall (fun nf => returns_output tg l (snd nf)) fs) by (apply Forall_forall; intros nf; now apply (returns_output_field tg l n fs)).
      clear -Ha Hin K3 Hr'. induction K3 as [|nf y fs ys [_ [t [_ [_ [A3 _]]]]] _ IH]; [contradiction|]. inversion Hr'; subst.
      destruct Hin as [->|Hin]; [|auto]. apply A3; assumption.
    + intros v Hv. destruct v as [| | |vs]; try discriminate Hv. rewrite x_ok_struct in Hv. cbn [yv_of]. rewrite y_ok_struct.
      assert (Hok : y_fields_ok ys (map (fun nv => (fst nv, yv_of (snd nv))) vs) = true).
      { clear -K3 Hv. revert vs Hv. induction K3 as [|[f T] [g Y] fs ys [E [t [_ [_ [_ [A4 _]]]]]] _ IH]; intros [|[h w] vs] Hv; try discriminate; [reflexivity|].
        cbn [fst snd x_fields_ok] in *. subst g. rewrite !andb_true_iff in Hv. destruct Hv as [[H1 H2] H3]. cbn [map y_fields_ok fst snd].
        rewrite H1, (proj1 (A4 w H2)), (IH vs H3). reflexivity. }
      split; [exact Hok|].
      rewrite (y_as_struct tg l n ys _ outs Ey) by (try rewrite En; assumption).
      cbn [x_as]. fold (x_outs tg l fs). rewrite Eo.
      assert (E : map_opt (fun nf => match xfield (fst nf) (XVRec vs) with
          | Some w => match x_as tg l (snd nf) w with Some s => Some (fst nf, s) | None => None end
          | None => None end) fs = y_vals tg l ys (map (fun nv => (fst nv, yv_of (snd nv))) vs)).
      { unfold xfield.
        rewrite (lookup_fields (fun nf w => match x_as tg l (snd nf) w with Some s => Some (fst nf, s) | None => None end) fs vs (x_fields_ok_names _ _ _ Hv) Hnd).
        clear -K3 Hv. revert vs Hv. induction K3 as [|[f T] [g Y] fs ys [E [t [_ [_ [_ [A4 _]]]]]] _ IH]; intros [|[h w] vs] Hv; try discriminate; [reflexivity|].
        cbn [fst snd x_fields_ok] in *. subst g. rewrite !andb_true_iff in Hv. destruct Hv as [[H1 H2] H3]. cbn [map combine y_vals fst snd].
        rewrite map_opt_cons. cbn [fst snd]. rewrite (proj2 (A4 w H2)), (IH vs H3). destruct (x_as tg l T w); [|reflexivity]. match goal with |- context [match ?e with _ => _ end] => now destruct e end. }
      rewrite E. unfold derived_as. rewrite Ho. match goal with |- match ?e with _ => _ end = _ => now destruct e end.
    + intros s. cbn [x_from]. fold (x_outs tg l fs). rewrite Eo. cbn [y_from]. fold (y_outs tg l ys). rewrite Ey.
      assert (E : map_opt (fun nf => match sfield (fst nf) s with
          | Some w => match y_from tg l (snd nf) w with Some v => Some (fst nf, v) | None => None end
          | None => None end) ys
        = option_map (map (fun nv => (fst nv, yv_of (snd nv)))) (x_back tg l fs s)).
      { unfold x_back. clear -K3. induction K3 as [|[f T] [g Y] fs ys [E [t [_ [_ [_ [_ A5]]]]]] _ IH]; [reflexivity|].
        cbn [fst snd] in *. subst g. rewrite !map_opt_cons. cbn [fst snd]. destruct (sfield f s) as [w|]; [|reflexivity].
        rewrite A5, IH. destruct (x_from tg l T w); [|reflexivity]. cbn [option_map]. match goal with |- context [map_opt ?g fs] => now destruct (map_opt g fs) end. }
      rewrite E. fold (x_back tg l fs s). destruct (x_back tg l fs s) as [vs|]; [|reflexivity]. cbn [option_map].
      assert (E2 : forall ns, map_opt (fun f => match assoc f (map (fun nv => (fst nv, yv_of (snd nv))) vs) with Some v => Some (f, v) | None => None end) ns
         = option_map (map (fun nv => (fst nv, yv_of (snd nv)))) (map_opt (fun f => match assoc f vs with Some v => Some (f, v) | None => None end) ns)).
      { induction ns as [|f ns IHn]; [reflexivity|]. rewrite !map_opt_cons, assoc_map_snd. destruct (assoc f vs); [|reflexivity]. cbn [option_map].
        rewrite IHn. match goal with |- context [map_opt ?g ns] => now destruct (map_opt g ns) end. }
      rewrite E2. match goal with |- context [map_opt ?g (derive_from l n outs)] => now destruct (map_opt g (derive_from l n outs)) end.
Qed.

(** C88.  C85's types are such types: the same Output, conversions and writes. *)
Lemma C88_covers_C85_proof : forall X tg l (T : xty X) t, target_ok tg = true -> x_out tg l T = Some t -> returns_output tg l T ->
  exists Y, y_of tg l T = Some Y /\ y_out tg l Y = Some t /\ impls_ok tg l Y
    /\ (forall v, x_ok tg T v = true -> y_ok Y (yv_of v) = true /\ y_as tg l Y (yv_of v) = x_as tg l T v
          /\ forall W (wi : write_impl W) w, y_write tg l wi Y (yv_of v) w = x_write tg l wi T v w)
    /\ (forall s, y_from tg l Y s = option_map yv_of (x_from tg l T s)).
Proof.
  intros X tg l T t Htg Ho Hr. destruct (same_as_exists tg l T Htg t Ho) as [Y [A1 [A2 [A3 [A4 A5]]]]].
  exists Y. split; [assumption|]. split; [assumption|]. split; [now apply A3|]. split; [|assumption].
  intros v Hv. destruct (A4 v Hv) as [B1 B2]. split; [assumption|]. split; [assumption|].
  intros W wi w. unfold y_write, x_write. now rewrite A2, B2, Ho.
Qed.

(** C88: a camera kept as one number and stored as the hand-written [affine] (as_stdN panics on a degenerate one), in a
    derived struct, in a derived struct, in a DynamicUniform *)
Definition uid : any_impl N :=
  AnyImpl (TPrim PU32) (fun n => if n <? 4294967296 then Some (SBits n) else None)
    (fun s => match s with SBits n => Some n | _ => None end).
Definition cam : any_impl N :=
  AnyImpl affine (fun n => if (0 <? n) && (n <? 4294967296) then Some (SRec [("rows", SArr (repeat n 12))]) else None)
    (fun s => match s with SRec [(_, SArr (n :: _))] => Some n | _ => None end).
Definition rig : yty N :=
  YDyn (YStruct "Rig" [("id", YLeaf uid); ("cams", YStruct "Cams" [("left", YLeaf cam); ("n", YLeaf uid); ("right", YLeaf cam)])]).
Definition rig_v (r : N) : yval N :=
  YVDyn (YVRec [("id", YVLeaf 7); ("cams", YVRec [("left", YVLeaf 1065353216); ("n", YVLeaf 2); ("right", YVLeaf r)])]).
Lemma rig_impls : impls_ok x86_64 L140 rig.
Proof.
  intros a Ha. assert (E : a = uid \/ a = cam) by (cbn in Ha; intuition). destruct E; subst a; cbn [uid cam ai_out ai_as].
  - split; [apply lt_crate with (h := HPrim PU32); reflexivity|]. intros x s E. destruct (x <? 4294967296) eqn:Ex; [|discriminate]. injection E as <-.
    cbn. exact Ex.
  - split; [apply lt_hand, affine_hand|]. intros x s E. destruct (0 <? x); [|discriminate]. cbn [andb] in E.
    destruct (x <? 4294967296) eqn:Ex; [|discriminate]. injection E as <-. cbn. replace (pbits_ok PF32 x) with true by (symmetry; exact Ex). reflexivity.
Qed.
Lemma C88_ex_proof :
  impls_ok x86_64 L140 rig
  /\ (exists t, y_out x86_64 L140 rig = Some t /\ size_of x86_64 t = 128)
  /\ (forall r, y_ok rig (rig_v r) = true /\ y_parts rig (rig_v r) = [(uid, 7); (cam, 1065353216); (uid, 2); (cam, r)])
  /\ (exists s places, y_as x86_64 L140 rig (rig_v 3) = Some s /\ y_from x86_64 L140 rig s = Some (rig_v 3)
        /\ y_places x86_64 L140 rig (rig_v 3) = Some places
        /\ map (fun p => (fst p, len (snd p))) places = [(0, 4); (16, 48); (64, 4); (80, 48)])
  /\ y_as x86_64 L140 rig (rig_v 0) = None
  /\ (exists v, y_read x86_64 L140 rig (repeat x01 140) 8 = Some v
        /\ y_parts rig v = [(uid, 16843009); (cam, 16843009); (uid, 16843009); (cam, 16843009)]).
Proof.
  split; [exact rig_impls|]. split; [eexists; split; vm_compute; reflexivity|]. split; [intros r; split; reflexivity|].
  split; [eexists _, _; split; [vm_compute; reflexivity|split; [vm_compute; reflexivity|split; [vm_compute; reflexivity|vm_compute; reflexivity]]]|].
  split; [vm_compute; reflexivity|]. eexists. split; [vm_compute; reflexivity|reflexivity].
Qed.

(** C88: the lamp of C85 as such a type *)
Lemma C88_ex_covers_proof : exists Y, y_of x86_64 L140 lamp = Some Y
  /\ map (fun a => size_of x86_64 (ai_out a)) (y_impls Y) = [12; 4; 4; 4]
  /\ y_as x86_64 L140 Y (yv_of (lamp_v 90)) = x_as x86_64 L140 lamp (lamp_v 90)
  /\ x_as x86_64 L140 lamp (lamp_v 90) <> None.
Proof.
  eexists. split; [reflexivity|]. split; [vm_compute; reflexivity|]. split; [vm_compute; reflexivity|]. vm_compute. discriminate.
Qed.
