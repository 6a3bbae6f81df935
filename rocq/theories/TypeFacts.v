(** * Invariants of layout types *)

From Coq Require Import NArith String Bool List Lia ZArith.
From Coq Require Import ZifyBool ZifyN ZifyNat.
From Verif Require Import Rust Internal Prims Derive Host SpecGlsl Arith RustFacts DeriveFacts.
Import ListNotations.
Local Open Scope string_scope.
Local Open Scope N_scope.

Definition good (tg : target) (l : lay) (t : sty) : Prop :=
  exists a, std_align l t = Some a
  /\ nopad tg t = true
  /\ pow2 (align_of tg t)
  /\ (align_of tg t | size_of tg t)
  /\ (a = 0 -> align_of tg t = 1 /\ size_of tg t = 0)
  /\ (a <> 0 -> pow2 a /\ a <= 256 /\ (align_of tg t | a)).

Lemma good_alN tg l t : good tg l t -> std_align l t = Some (alN l t).
Proof. intros [a [H _]]. unfold alN. now rewrite H. Qed.

Lemma good_nopad tg l t : good tg l t -> nopad tg t = true.
Proof. intros [a [_ [H _]]]. exact H. Qed.

(** ** primitives *)

Lemma target_aligns tg : target_ok tg = true ->
  (t_align4 tg = 1 \/ t_align4 tg = 2 \/ t_align4 tg = 4)
  /\ (t_align8 tg = 1 \/ t_align8 tg = 2 \/ t_align8 tg = 4 \/ t_align8 tg = 8).
Proof.
  unfold target_ok. rewrite !andb_true_iff. intros [[[H1 H2] _] _].
  apply existsb_exists in H1, H2. destruct H1 as [x [Hx Ex]], H2 as [y [Hy Ey]].
  apply N.eqb_eq in Ex, Ey. subst x y. cbn [In] in Hx, Hy. split; intuition congruence.
Qed.

Definition good_b (tg : target) (l : lay) (t : sty) : bool :=
  match std_align l t with
  | None => false
  | Some a =>
    nopad tg t
    && existsb (N.eqb (align_of tg t)) [1;2;4;8]
    && (size_of tg t mod align_of tg t =? 0)
    && existsb (N.eqb a) [1;2;4;8;16;32;64;128;256]
    && (a mod align_of tg t =? 0)
  end.

Lemma good_b_good tg l t : good_b tg l t = true -> good tg l t.
Proof.
  unfold good_b, good. destruct (std_align l t) as [a|]; [|discriminate].
  rewrite !andb_true_iff. intros [[[[H1 H2] H3] H4] H5].
  assert (P1 : pow2 (align_of tg t)).
  { apply pow2_dec_small. apply existsb_exists in H2. destruct H2 as [x [Hx E]].
    apply existsb_exists. exists x. split; [cbn [In] in *; tauto|exact E]. }
  assert (P2 : pow2 a) by (now apply pow2_dec_small).
  pose proof (pow2_pos _ P1). pose proof (pow2_pos _ P2).
  exists a. split; [reflexivity|]. split; [assumption|]. split; [assumption|]. split.
  { apply N.mod_divide; [lia|]. now apply N.eqb_eq. }
  split; [lia|]. intros _. split; [assumption|]. split.
  - apply existsb_exists in H4. destruct H4 as [x [Hx E]]. apply N.eqb_eq in E. subst x.
    cbn [In] in Hx. repeat (destruct Hx as [Hx|Hx]; [lia|]). contradiction.
  - apply N.mod_divide; [lia|]. now apply N.eqb_eq.
Qed.

(** all the concrete types of the tables, for all targets *)
Ltac all_targets tg Htg :=
  let H4 := fresh in let H8 := fresh in
  destruct (target_aligns tg Htg) as [H4 H8];
  destruct tg as [a4 a8 bits big checks obj]; cbn [t_align4 t_align8] in H4, H8; clear Htg;
  destruct H4 as [-> | [-> | ->]]; destruct H8 as [-> | [-> | [-> | ->]]].

Lemma good_prim tg l p : target_ok tg = true -> std_align l (TPrim p) <> None -> good tg l (TPrim p).
Proof.
  intros Htg H. apply good_b_good. all_targets tg Htg; destruct l, p; (vm_compute; reflexivity) || (exfalso; apply H; reflexivity).
Qed.

Definition table_names : list string :=
  ["Vec2"; "Vec3"; "Vec4"; "IVec2"; "IVec3"; "IVec4"; "UVec2"; "UVec3"; "UVec4";
   "BVec2"; "BVec3"; "BVec4"; "DVec2"; "DVec3"; "DVec4";
   "Mat2"; "Mat3"; "Mat4"; "DMat2"; "DMat3"; "DMat4"].

Lemma find_map_eqb {A} (f : A -> string) (name : string) (rows : list A) r :
  find (fun r => String.eqb name (f r)) rows = Some r -> In name (map f rows).
Proof.
  intros H. apply find_some in H. destruct H as [H1 H2]. apply String.eqb_eq in H2. subst.
  now apply in_map.
Qed.

Lemma find_std_names l name t : find_std l name = Some t -> In name table_names.
Proof.
  unfold find_std. intros H.
  destruct (find (fun r => String.eqb name (vr_name r)) (vectors l)) as [r|] eqn:E.
  - apply find_map_eqb in E. destruct l; cbn in E; cbn; tauto.
  - destruct (find (fun r => String.eqb name (mr_name r)) (matrices l)) as [r|] eqn:E2; [|discriminate].
    apply find_map_eqb in E2. destruct l; cbn in E2; cbn; tauto.
Qed.

Lemma table_good tg l name t : target_ok tg = true -> find_std l name = Some t -> good tg l t.
Proof.
  intros Htg H. apply good_b_good.
  assert (Hall : forallb (fun n => match find_std l n with Some t => good_b tg l t | None => false end) table_names = true).
  { all_targets tg Htg; destruct l; vm_compute; reflexivity. }
  pose proof (find_std_names l name t H) as Hin.
  rewrite forallb_forall in Hall. specialize (Hall _ Hin). rewrite H in Hall. exact Hall.
Qed.

(** ** DynamicUniform *)

Lemma pow2_256 : pow2 256. Proof. exists 8. reflexivity. Qed.

Lemma good_dyn tg t : good tg L140 t -> good tg L140 (TDyn t).
Proof.
  intros [a [H1 [H2 [H3 [H4 [H5 H6]]]]]]. exists (Internal.max 256 a).
  cbn [std_align]. rewrite H1. split; [reflexivity|].
  change (nopad tg (TDyn t)) with (nopad tg t).
  change (align_of tg (TDyn t)) with (align_of tg t).
  change (size_of tg (TDyn t)) with (size_of tg t).
  rewrite max_spec. split; [assumption|]. split; [assumption|]. split; [assumption|].
  split; [lia|]. intros _.
  destruct (N.eq_dec a 0) as [E|E].
  - destruct (H5 E) as [E1 E2]. subst a. rewrite E1. split; [exact pow2_256|]. split; [lia|].
    apply N.divide_1_l.
  - destruct (H6 E) as [P [Hle D]]. split; [apply pow2_max; [exact pow2_256|assumption]|].
    split; [lia|]. transitivity a; [assumption|]. rewrite N.max_comm.
    apply pow2_divide_max_l; [assumption|exact pow2_256].
Qed.

(** ** derived structs *)

Lemma repr_c_align_cases ls : repr_c_align ls = 1 \/ In (repr_c_align ls) (map snd ls).
Proof.
  unfold repr_c_align. induction (map snd ls) as [|x xs IH]; cbn [fold_right In]; [now left|].
  destruct (N.max_spec x (fold_right N.max 1 xs)) as [[_ ->]|[_ ->]]; [|auto].
  destruct IH; auto.
Qed.

Lemma align_of_struct tg l n al fs :
  align_of tg (TStruct l n al fs) = repr_c_align (map (fun nf => layout_of tg (snd nf)) fs).
Proof. reflexivity. Qed.

Lemma align_of_struct_cases tg l n al fs :
  align_of tg (TStruct l n al fs) = 1
  \/ exists f t, In (f, t) fs /\ align_of tg (TStruct l n al fs) = align_of tg t.
Proof.
  rewrite align_of_struct. destruct (repr_c_align_cases (map (fun nf => layout_of tg (snd nf)) fs)) as [H|H];
    [now left|right].
  rewrite map_map in H. apply in_map_iff in H. destruct H as [[f t] [E Hin]].
  exists f, t. split; [assumption|]. symmetry. exact E.
Qed.

Definition pow2_0 (a : N) : Prop := a = 0 \/ pow2 a.

Lemma fold_max_pow2 l : Forall pow2_0 l -> pow2_0 (fold_right N.max 0 l).
Proof.
  induction 1 as [|x l Hx _ IH]; cbn [fold_right]; [now left|].
  destruct (N.max_spec x (fold_right N.max 0 l)) as [[_ ->]|[_ ->]]; assumption.
Qed.

Lemma good_alN_pow2 tg l t : good tg l t -> pow2_0 (alN l t).
Proof.
  intros G. pose proof (good_alN _ _ _ G) as E. destruct G as [a [H [_ [_ [_ [_ H6]]]]]].
  rewrite H in E. injection E as ->. destruct (N.eq_dec (alN l t) 0); [now left|right].
  now apply H6.
Qed.

Lemma good_alN_le tg l t : good tg l t -> alN l t <= 256.
Proof.
  intros G. pose proof (good_alN _ _ _ G) as E. destruct G as [a [H [_ [_ [_ [_ H6]]]]]].
  rewrite H in E. injection E as ->. destruct (N.eq_dec (alN l t) 0); [lia|].
  now apply H6.
Qed.

Lemma good_align_divides tg l t : good tg l t -> align_of tg t = 1 \/ (align_of tg t | alN l t) /\ alN l t <> 0.
Proof.
  intros G. pose proof (good_alN _ _ _ G) as E. destruct G as [a [H [_ [_ [_ [H5 H6]]]]]].
  rewrite H in E. injection E as ->. destruct (N.eq_dec (alN l t) 0); [left; now apply H5|right].
  split; [now apply H6|assumption].
Qed.

Lemma good_align_divides_any tg l t c : good tg l t -> (alN l t | c) \/ alN l t = 0 -> (align_of tg t | c).
Proof.
  intros G H. destruct (good_align_divides _ _ _ G) as [->|[D Hn]]; [apply N.divide_1_l|].
  destruct H as [H|H]; [|contradiction]. now transitivity (alN l t).
Qed.

Lemma min_struct_alignment_pow2 l : pow2_0 (min_struct_alignment l).
Proof. destruct l; [right; exists 4; reflexivity|left; reflexivity]. Qed.

Lemma struct_al_pow2 tg l fields : Forall (fun f => good tg l (snd f)) fields -> pow2_0 (struct_al l fields).
Proof.
  intros H. unfold struct_al. apply fold_max_pow2. constructor; [apply min_struct_alignment_pow2|].
  induction H as [|f fs Hf _ IH]; cbn [map]; constructor; [|assumption]. eapply good_alN_pow2, Hf.
Qed.

Lemma struct_al_le tg l fields : Forall (fun f => good tg l (snd f)) fields -> struct_al l fields <= 256.
Proof.
  intros H. unfold struct_al. cbn [fold_right].
  assert (fold_right N.max 0 (map (fun f => alN l (snd f)) fields) <= 256).
  { induction H as [|f fs Hf _ IH]; cbn [map fold_right]; [lia|].
    pose proof (good_alN_le _ _ _ Hf). lia. }
  destruct l; cbn [min_struct_alignment]; lia.
Qed.

Lemma struct_al_ge l fields f t : In (f, t) fields -> alN l t <= struct_al l fields.
Proof.
  intros H. unfold struct_al. apply fold_max_ge. right. apply in_map_iff. exists (f, t). split; [reflexivity|assumption].
Qed.

Lemma struct_al_divides tg l fields f t : Forall (fun f => good tg l (snd f)) fields ->
  In (f, t) fields -> alN l t = 0 \/ (alN l t | struct_al l fields) /\ struct_al l fields <> 0.
Proof.
  intros HF Hin. pose proof (struct_al_ge l fields f t Hin) as Hle.
  pose proof (proj1 (Forall_forall _ _) HF _ Hin) as G. cbn [snd] in G.
  destruct (good_alN_pow2 _ _ _ G) as [E|P]; [now left|right].
  pose proof (pow2_pos _ P).
  destruct (struct_al_pow2 tg l fields HF) as [E|P2]; [lia|].
  split; [now apply pow2_divide|lia].
Qed.

Lemma gen_fields_in tg l fin fs : forall idx cur f t, In (f, t) (gen_fields tg l fin idx cur fs) ->
  In (f, t) fs \/ exists p, t = TArray PU8 p.
Proof.
  induction fs as [|[g u] fs IH]; intros idx cur f t H; [contradiction|].
  cbn [gen_fields In] in H. destruct H as [H|[H|H]].
  - left. left. exact H.
  - right. injection H as _ <-. eauto.
  - apply IH in H. destruct H as [H|H]; [left; now right|now right].
Qed.

Lemma size_pad tg p : size_of tg (TArray PU8 p) = p.
Proof. unfold size_of. cbn [layout_of fst psize]. lia. Qed.
Lemma align_pad tg p : align_of tg (TArray PU8 p) = 1.
Proof. reflexivity. Qed.

Lemma padding_needed_divides cur a : 0 < a -> (a | cur) -> padding_needed_for cur a = 0.
Proof. intros H D. rewrite padding_needed_align_offset by assumption. now apply align_offset_aligned. Qed.

(** the head of the list is aligned at [cur]; an empty list is aligned to [fin] *)
Definition head_aligned (l : lay) (fin cur : N) (fs : list (string * sty)) : Prop :=
  match fs with
  | [] => fin = 0 \/ (fin | cur)
  | (_, t) :: _ => alN l t = 0 \/ (alN l t | cur)
  end.

Lemma head_aligned_next l fin e (r : list (string * sty)) :
  head_aligned l fin (e + align_offset e (match r with (_, u) :: _ => alN l u | [] => fin end)) r.
Proof.
  destruct r as [|[g u] r]; cbn [head_aligned].
  - destruct (align_offset_divide e fin); auto.
  - destruct (align_offset_divide e (alN l u)); auto.
Qed.

Lemma gen_fields_end tg l fin fs : forall idx cur, head_aligned l fin cur fs ->
  fin = 0 \/ (fin | cur + sizes tg (gen_fields tg l fin idx cur fs)).
Proof.
  induction fs as [|[f t] fs IH]; intros idx cur H.
  - cbn [gen_fields sizes]. rewrite N.add_0_r. exact H.
  - cbn [gen_fields sizes]. rewrite size_pad.
    set (e := cur + size_of tg t).
    set (p := align_offset e match fs with [] => fin | (_, u) :: _ => alN l u end).
    specialize (IH (S idx) (e + p) (head_aligned_next l fin e fs)).
    replace (cur + (size_of tg t + (p + sizes tg (gen_fields tg l fin (S idx) (e + p) fs))))
      with (e + p + sizes tg (gen_fields tg l fin (S idx) (e + p) fs)) by (unfold e; lia).
    exact IH.
Qed.

Lemma gen_fields_nopad tg l fin A fs : Forall (fun f => good tg l (snd f)) fs ->
  forall idx cur, head_aligned l fin cur fs ->
  padding_needed_for (cur + sizes tg (gen_fields tg l fin idx cur fs)) A = 0 ->
  nopad_fields tg A cur (gen_fields tg l fin idx cur fs) = true.
Proof.
  induction 1 as [|[f t] fs G _ IH]; intros idx cur Hh He.
  - cbn [gen_fields sizes nopad_fields] in *. rewrite N.add_0_r in He. now apply N.eqb_eq.
  - cbn [snd] in G. cbn [gen_fields nopad_fields sizes] in *. rewrite size_pad, align_pad in *.
    rewrite (good_nopad _ _ _ G).
    set (e := cur + size_of tg t) in *.
    set (p := align_offset e match fs with [] => fin | (_, u) :: _ => alN l u end) in *.
    assert (Hp : 0 < align_of tg t) by (apply pow2_pos; destruct G as [a G]; apply G).
    rewrite padding_needed_divides; [|assumption|].
    2:{ apply (good_align_divides_any _ _ _ _ G). cbn [head_aligned] in Hh. tauto. }
    rewrite padding_needed_divides; [|lia|apply N.divide_1_l].
    cbn [N.eqb andb nopad]. apply IH.
    + apply head_aligned_next.
    + replace (e + p + sizes tg (gen_fields tg l fin (S idx) (e + p) fs))
        with (cur + (size_of tg t + (p + sizes tg (gen_fields tg l fin (S idx) (e + p) fs))))
        by (unfold e; lia).
      exact He.
Qed.

Lemma gen_sizes_0 tg l fin fs : Forall (fun f => good tg l (snd f)) fs ->
  Forall (fun f => alN l (snd f) = 0) fs -> forall idx,
  sizes tg (gen_fields tg l fin idx 0 fs) = 0.
Proof.
  induction 1 as [|[f t] fs G _ IH]; intros H idx; [reflexivity|].
  inversion H as [|? ? H1 H2]; subst. cbn [snd] in *.
  cbn [gen_fields sizes]. rewrite size_pad.
  assert (E : size_of tg t = 0).
  { pose proof (good_alN _ _ _ G) as E. destruct G as [a [Ha [_ [_ [_ [H5 _]]]]]].
    rewrite Ha in E. injection E as ->. now apply H5. }
  rewrite E. rewrite align_offset_aligned by (apply N.divide_0_r).
  rewrite !N.add_0_r. now apply IH.
Qed.

Lemma head_aligned_0 l fin fs : head_aligned l fin 0 fs.
Proof. destruct fs as [|[f t] fs]; right; apply N.divide_0_r. Qed.

Lemma struct_al_0 l fields : struct_al l fields = 0 -> Forall (fun f => alN l (snd f) = 0) fields.
Proof.
  intros H. apply Forall_forall. intros [f t] Hin. pose proof (struct_al_ge l fields f t Hin). cbn [snd]. lia.
Qed.

Lemma derived_props tg l name fields :
  Forall (fun f => good tg l (snd f)) fields ->
  let t := derived tg l name fields in
  good tg l t
  /\ size_of tg t = sizes tg (derived_fields tg l fields)
  /\ (struct_al l fields = 0 \/ (struct_al l fields | size_of tg t)).
Proof.
  intros HF t.
  assert (HA : align_of tg t = 1 \/ (align_of tg t | struct_al l fields) /\ struct_al l fields <> 0).
  { destruct (align_of_struct_cases tg l (trait_name l ++ name) (struct_al l fields) (derived_fields tg l fields))
      as [E|[f [u [Hin E]]]]; [now left|].
    fold (derived tg l name fields) in E. change (derived tg l name fields) with t in E. rewrite E.
    apply gen_fields_in in Hin. destruct Hin as [Hin|[p ->]]; [|left; reflexivity].
    pose proof (proj1 (Forall_forall _ _) HF _ Hin) as G. cbn [snd] in G.
    destruct (struct_al_divides tg l fields f u HF Hin) as [E0|[D Hn]].
    - left. destruct (good_align_divides _ _ _ G) as [E1|[_ E1]]; [assumption|contradiction].
    - destruct (good_align_divides _ _ _ G) as [E1|[E1 _]]; [now left|right].
      split; [now transitivity (alN l u)|assumption]. }
  assert (HP : pow2 (align_of tg t)).
  { destruct (align_of_struct_cases tg l (trait_name l ++ name) (struct_al l fields) (derived_fields tg l fields))
      as [E|[f [u [Hin E]]]]; change (TStruct l (trait_name l ++ name) (struct_al l fields) (derived_fields tg l fields)) with t in E; rewrite E.
    - exists 0. reflexivity.
    - apply gen_fields_in in Hin. destruct Hin as [Hin|[p ->]]; [|exists 0; reflexivity].
      pose proof (proj1 (Forall_forall _ _) HF _ Hin) as [a G]. apply G. }
  pose proof (pow2_pos _ HP) as Hpos.
  pose proof (gen_fields_end tg l (struct_al l fields) fields 0 0 (head_aligned_0 _ _ _)) as Hend.
  fold (derived_fields tg l fields) in Hend. rewrite N.add_0_l in Hend.
  assert (HD : (align_of tg t | sizes tg (derived_fields tg l fields))).
  { destruct HA as [->|[D Hn]]; [apply N.divide_1_l|]. destruct Hend as [|Hend]; [contradiction|].
    now transitivity (struct_al l fields). }
  assert (Hnp : nopad tg t = true).
  { unfold t, derived. rewrite nopad_struct. apply gen_fields_nopad; [assumption|apply head_aligned_0|].
    rewrite <- (align_of_struct tg l (trait_name l ++ name) (struct_al l fields)).
    change (TStruct l (trait_name l ++ name) (struct_al l fields) (gen_fields tg l (struct_al l fields) 0 0 fields)) with t.
    fold (derived_fields tg l fields). rewrite N.add_0_l.
    now apply padding_needed_divides. }
  assert (Hsz : size_of tg t = sizes tg (derived_fields tg l fields)) by (now apply nopad_size_of).
  split; [|split; [exact Hsz|rewrite Hsz; exact Hend]].
  exists (struct_al l fields). split.
  { unfold t, derived. cbn [std_align]. now rewrite lay_eqb_refl. }
  split; [assumption|]. split; [assumption|]. split; [now rewrite Hsz|]. split.
  - intros E. split; [destruct HA as [HA|[_ HA]]; [assumption|contradiction]|].
    rewrite Hsz. apply gen_sizes_0; [assumption|now apply struct_al_0].
  - intros E. destruct (struct_al_pow2 tg l fields HF) as [E1|P]; [contradiction|].
    split; [assumption|]. split; [now apply (struct_al_le tg)|].
    destruct HA as [->|[D _]]; [apply N.divide_1_l|assumption].
Qed.

(** ** Host types *)

Section HtyInd.
  Variable P : hty -> Prop.
  Hypothesis Hprim : forall p, P (HPrim p).
  Hypothesis Hbool : P HBool.
  Hypothesis Heasy : forall r s fs, Forall (fun nf => P (snd nf)) fs -> P (HEasy r s fs).
  Hypothesis Hminty : forall r m, P m -> P (HMinty r m).
  Hypothesis Hdyn : forall h, P h -> P (HDyn h).
  Hypothesis Hstruct : forall n fs, Forall (fun nf => P (snd nf)) fs -> P (HStruct n fs).
  Hypothesis Hout : forall l h, P h -> P (HOut l h).
  Fixpoint hty_ind' (h : hty) : P h :=
    let go := fix go (fs : list (string * hty)) : Forall (fun nf => P (snd nf)) fs :=
                match fs with
                | [] => Forall_nil _
                | nf :: r => Forall_cons nf (hty_ind' (snd nf)) (go r)
                end in
    match h with
    | HPrim p => Hprim p
    | HBool => Hbool
    | HEasy r s fs => Heasy r s fs (go fs)
    | HMinty r m => Hminty r m (hty_ind' m)
    | HDyn h' => Hdyn h' (hty_ind' h')
    | HStruct n fs => Hstruct n fs (go fs)
    | HOut l h' => Hout l h' (hty_ind' h')
    end.
End HtyInd.

(** out types of a list of fields *)
Definition out_fields (tg : target) (l : lay) (fs : list (string * hty)) : option (list (string * sty)) :=
  map_opt (fun nf => match out_ty tg l (snd nf) with
                     | Some t => Some (fst nf, t) | None => None end) fs.

Lemma out_ty_HStruct tg l name fs :
  out_ty tg l (HStruct name fs)
  = match out_fields tg l fs with Some outs => derive_output tg l name outs | None => None end.
Proof. reflexivity. Qed.

Lemma out_ty_HEasy tg l r std fs :
  out_ty tg l (HEasy r std fs)
  = match find_std l std, out_fields tg l fs with
    | Some t, Some outs => if easy_typechecks t outs then Some t else None
    | _, _ => None
    end.
Proof. reflexivity. Qed.

Lemma out_fields_Forall2 tg l fs outs :
  out_fields tg l fs = Some outs <->
  Forall2 (fun nf nt => fst nf = fst nt /\ out_ty tg l (snd nf) = Some (snd nt)) fs outs.
Proof.
  unfold out_fields. rewrite map_opt_Forall2. split; intros H.
  - induction H as [|[f h] [g t] fs outs E _ IH]; constructor; [|assumption].
    cbn [fst snd] in *. destruct (out_ty tg l h) as [u|]; [|discriminate]. injection E as -> ->.
    split; reflexivity.
  - induction H as [|[f h] [g t] fs outs [E1 E2] _ IH]; constructor; [|assumption].
    cbn [fst snd] in *. rewrite E2, E1. reflexivity.
Qed.

Lemma out_fields_names tg l fs outs : out_fields tg l fs = Some outs -> map fst outs = map fst fs.
Proof.
  rewrite out_fields_Forall2. induction 1 as [|? ? ? ? [E _] _ IH]; [reflexivity|].
  cbn [map]. now rewrite E, IH.
Qed.

Lemma std_align_other l l' t a b : std_align l t = Some a -> std_align l' t = Some b -> a = b.
Proof.
  revert a b. induction t as [p|p n|l0 n al fs _|t IH] using sty_ind'; intros a b Ha Hb.
  - cbn [std_align] in *. destruct l, l', p; cbn in *; congruence.
  - discriminate.
  - cbn [std_align] in *. destruct (lay_eqb l l0), (lay_eqb l' l0); congruence.
  - cbn [std_align] in *. destruct l, l'; try congruence;
      destruct (std_align L140 t), (std_align L430 t); congruence.
Qed.

Lemma good_other tg l l' t : good tg l' t -> std_align l t <> None -> good tg l t.
Proof.
  intros [a [H1 H2]] H. destruct (std_align l t) as [b|] eqn:E; [|congruence].
  assert (b = a) by (eapply std_align_other; eauto). subst b. exists a. split; assumption.
Qed.

Theorem out_ty_good tg : target_ok tg = true -> forall h l t,
  out_ty tg l h = Some t -> good tg l t.
Proof.
  intros Htg. induction h as [p| |r s fs IH|r m IH|h IH|n fs IH|l' h IH] using hty_ind'; intros l t H.
  - cbn [out_ty] in H. destruct (std_align l (TPrim p)) eqn:E; [|discriminate].
    injection H as <-. apply good_prim; [assumption|congruence].
  - cbn [out_ty] in H. injection H as <-. apply good_prim; [assumption|]. destruct l; discriminate.
  - rewrite out_ty_HEasy in H. destruct (find_std l s) as [u|] eqn:E; [|discriminate].
    destruct (out_fields tg l fs); [|discriminate]. destruct (easy_typechecks _ _); [|discriminate].
    injection H as <-. eapply table_good; eassumption.
  - cbn [out_ty] in H. now apply IH.
  - cbn [out_ty] in H. destruct l; [|discriminate]. destruct (out_ty tg L140 h) as [u|] eqn:E; [|discriminate].
    injection H as <-. apply good_dyn. now apply IH.
  - rewrite out_ty_HStruct in H. destruct (out_fields tg l fs) as [outs|] eqn:E; [|discriminate].
    apply derive_output_iff in H; [|assumption]. destruct H as [_ [_ [-> _]]].
    apply derived_props. apply out_fields_Forall2 in E.
    induction E as [|[f h] [g u] fs outs [E1 E2] _ IHE]; constructor.
    + cbn [fst snd] in *. inversion IH; subst. eauto.
    + apply IHE. now inversion IH.
  - cbn [out_ty] in H. destruct (out_ty tg l' h) as [u|] eqn:E; [|discriminate].
    destruct (std_align l u) eqn:E2; [|discriminate]. injection H as <-.
    apply (good_other tg l l'); [now apply IH|congruence].
Qed.

(** the [Output] of a raw type is also the [Output] of the type it comes from *)
Lemma out_ty_prim_other tg l l' h p : out_ty tg l' h = Some (TPrim p) -> out_ty tg l h = Some (TPrim p).
Proof.
  revert l l'. induction h as [q| |r s fs _|r m IH|h IH|n fs _|l0 h IH] using hty_ind'; intros l l' H.
  - cbn [out_ty] in *. destruct l, l', q; cbn in *; congruence.
  - exact H.
  - rewrite out_ty_HEasy in H. destruct (find_std l' s) as [u|] eqn:E; [|discriminate].
    destruct (out_fields tg l' fs); [|discriminate]. destruct (easy_typechecks u _) eqn:Et; [|discriminate].
    injection H as ->. discriminate Et.
  - cbn [out_ty] in *. now apply (IH l l').
  - cbn [out_ty] in H. destruct l'; [|discriminate]. destruct (out_ty tg L140 h); discriminate.
  - rewrite out_ty_HStruct in H. destruct (out_fields tg l' fs) as [outs|]; [|discriminate].
    unfold derive_output in H. destruct (emit _ _) as [g|]; [|discriminate]. unfold compile in H.
    destruct (_ && _); [|discriminate]. destruct (map_opt _ _); [|discriminate].
    destruct (ceval _ _ _ _ _); try discriminate. destruct (_ <? _); discriminate.
  - cbn [out_ty] in *. destruct (out_ty tg l0 h) as [u|] eqn:E; [|discriminate].
    destruct (std_align l' u) eqn:E2; [|discriminate]. injection H as ->.
    destruct l, l', p; cbn in *; congruence.
Qed.

Lemma out_ty_lay tg l h t l' a : out_ty tg l h = Some t -> std_align l' t = Some a ->
  l' = l \/ exists p, t = TPrim p.
Proof.
  revert l l' t a. induction h as [q| |r s fs _|r m IH|h IH|n fs _|l0 h IH] using hty_ind'; intros l l' t a H Ha.
  - cbn [out_ty] in H. destruct (std_align l (TPrim q)); [|discriminate]. injection H as <-. right. eauto.
  - cbn [out_ty] in H. injection H as <-. right. eauto.
  - rewrite out_ty_HEasy in H. destruct (find_std l s) as [u|] eqn:E; [|discriminate].
    destruct (out_fields tg l fs); [|discriminate]. destruct (easy_typechecks u _) eqn:Et; [|discriminate].
    injection H as ->.
    unfold find_std in E. left.
    destruct (find (fun r => String.eqb s (vr_name r)) (vectors l)) as [v|].
    { injection E as <-. unfold vec_sty in Ha. cbn [std_align] in Ha.
      destruct l', l; cbn in Ha; congruence. }
    destruct (find (fun r => String.eqb s (mr_name r)) (matrices l)) as [v|]; [|discriminate].
    unfold mat_sty in E. destruct (map_opt _ _); [|discriminate]. injection E as <-.
    cbn [std_align] in Ha. destruct l', l; cbn in Ha; congruence.
  - cbn [out_ty] in *. eauto.
  - cbn [out_ty] in H. destruct l; [|discriminate]. destruct (out_ty tg L140 h); [|discriminate].
    injection H as <-. cbn [std_align] in Ha. destruct l'; [now left|discriminate].
  - rewrite out_ty_HStruct in H. destruct (out_fields tg l fs) as [outs|]; [|discriminate].
    unfold derive_output in H. destruct (emit _ _) as [g|]; [|discriminate]. unfold compile in H.
    destruct (_ && _); [|discriminate]. destruct (map_opt _ _); [|discriminate].
    destruct (ceval _ _ _ _ _); try discriminate. destruct (_ <? _); [|discriminate].
    injection H as <-. cbn [std_align] in Ha. left. destruct l', l; cbn in Ha; congruence.
  - cbn [out_ty] in H. destruct (out_ty tg l0 h) as [u|] eqn:E; [|discriminate].
    destruct (std_align l u) eqn:E2; [|discriminate]. injection H as <-.
    destruct (IH _ _ _ _ E Ha) as [->|?]; [|now right].
    destruct (IH _ _ _ _ E E2) as [->|?]; [now left|now right].
Qed.

Lemma out_ty_HOut tg l l' h t : out_ty tg l (HOut l' h) = Some t ->
  out_ty tg l h = Some t /\ out_ty tg l' h = Some t /\ (l = l' \/ exists p, t = TPrim p).
Proof.
  cbn [out_ty]. destruct (out_ty tg l' h) as [u|] eqn:E; [|discriminate].
  destruct (std_align l u) as [a|] eqn:E2; [|discriminate]. intros H. injection H as ->.
  destruct (out_ty_lay tg l' h t l a E E2) as [->|[p ->]]; [auto|].
  split; [now apply (out_ty_prim_other tg l l')|]. split; [reflexivity|right; eauto].
Qed.

(** inversion for structs *)
Lemma out_ty_HStruct_inv tg l name fs t : target_ok tg = true -> out_ty tg l (HStruct name fs) = Some t ->
  exists outs, out_fields tg l fs = Some outs
  /\ Forall (fun f => good tg l (snd f)) outs
  /\ NoDup (map fst (derived_fields tg l outs))
  /\ t = derived tg l name outs
  /\ size_of tg t < t_obj tg.
Proof.
  intros Htg H. rewrite out_ty_HStruct in H. destruct (out_fields tg l fs) as [outs|] eqn:E; [|discriminate].
  apply derive_output_iff in H; [|assumption]. destruct H as [_ [H2 [-> [H4 _]]]].
  exists outs. split; [reflexivity|]. split; [|auto].
  apply out_fields_Forall2 in E. induction E as [|[f h] [g u] fs outs [E1 E2] E IHE]; constructor.
  - cbn [snd] in *. now apply (out_ty_good tg Htg h).
  - apply Forall_forall. intros [f' u'] Hin. apply (In_nth_error) in Hin. destruct Hin as [k Hk].
    clear - Htg E Hk. revert k Hk. induction E as [|[f h] [g u] fs outs [E1 E2] _ IHE]; intros [|k] Hk; cbn in Hk; try discriminate.
    + injection Hk as -> ->. now apply (out_ty_good tg Htg h).
    + eauto.
Qed.
