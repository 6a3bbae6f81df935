(** * The layouts are valid in Vulkan *)

From Coq Require Import NArith String Bool List Lia ZArith PeanoNat.
From Coq Require Import ZifyBool ZifyN ZifyNat.
From Coq Require Import Strings.Byte.
From Verif Require Import Rust Internal Prims Derive Host Rows Buffer SpecGlsl SpecHost SpecTypes SpecBuf SpecBlock SpecVulkan
  Arith RustFacts DeriveFacts TypeFacts HostFacts GlslFacts BufferFacts WriterFacts Proofs_Types Proofs_Slices GpuFacts Proofs_RowMajor Samples.
Import ListNotations.
Local Open Scope string_scope.
Local Open Scope N_scope.
Ltac Zify.zify_post_hook ::= Z.to_euclidean_division_equations.

(** ** well-formed GLSL types *)
Fixpoint gwf (g : gty) : Prop :=
  match g with
  | GScalar _ => True
  | GVec _ n => (2 <= n <= 4)%nat
  | GMat _ c r => (2 <= c <= 4)%nat /\ (2 <= r <= 4)%nat
  | GArr e n => (1 <= n)%nat /\ gwf e
  | GStruct _ fs => fs <> [] /\ (fix go fs := match fs with [] => True | nf :: r => gwf (snd nf) /\ go r end) fs
  end.

Lemma gwf_fields n fs : gwf (GStruct n fs) <-> fs <> [] /\ Forall (fun nf => gwf (snd nf)) fs.
Proof.
  cbn [gwf]. assert (E : forall xs : list (string * gty),
    (fix go fs := match fs with [] => True | nf :: r => gwf (snd nf) /\ go r end) xs <-> Forall (fun nf => gwf (snd nf)) xs).
  { induction xs as [|x xs IH]; [split; constructor|]. rewrite IH. split; [intros [A B]; now constructor|intros H; inversion H; now split]. }
  rewrite E. reflexivity.
Qed.

Lemma vec_align_pow2 s n : pow2 (vec_align s n).
Proof. apply pow2_dec_small. destruct s; destruct n as [|[|[|n]]]; reflexivity. Qed.

Lemma pow2_16 : pow2 16. Proof. exists 4. reflexivity. Qed.

Lemma vec4_round_pow2 l a : pow2 a -> pow2 (vec4_round l a) /\ a <= vec4_round l a.
Proof.
  intros H. destruct l; cbn [vec4_round]; [|split; [assumption|lia]].
  rewrite round_up_pow2_16 by assumption. split; [apply pow2_max; [exact pow2_16|assumption]|lia].
Qed.

Lemma fold_max_in (xs : list N) x : In x xs -> x <= fold_right N.max 0 xs.
Proof. induction xs as [|y xs IH]; [contradiction|]. intros [->|H]; cbn [fold_right]; [lia|specialize (IH H); lia]. Qed.

Lemma fold_max_pow2_ne xs : xs <> [] -> Forall pow2 xs -> pow2 (fold_right N.max 0 xs).
Proof.
  intros Hne H. induction H as [|x xs Hx H IH]; [congruence|]. cbn [fold_right]. destruct xs as [|y xs].
  - cbn. now rewrite N.max_0_r.
  - apply pow2_max; [assumption|apply IH; discriminate].
Qed.

Lemma base_align_pow2 l : forall g, gwf g -> pow2 (base_align l g).
Proof.
  induction g as [s|s n|s c r|e n IH|n fs IH] using gty_ind'; intros H; cbn [base_align].
  - apply (vec_align_pow2 s 1).
  - apply vec_align_pow2.
  - apply vec4_round_pow2, vec_align_pow2.
  - apply vec4_round_pow2, IH, H.
  - apply gwf_fields in H. destruct H as [Hne HF]. apply vec4_round_pow2, fold_max_pow2_ne.
    + destruct fs; [congruence|discriminate].
    + apply Forall_map. rewrite Forall_forall in *. intros nf Hin. apply IH; [assumption|now apply HF].
Qed.

Definition fits (c : storage) (l : lay) : Prop := c = Uniform -> l = L140.

Lemma extended_le c l a b : fits c l -> pow2 a -> pow2 b -> a <= b -> pow2 (extended c a) /\ extended c a <= vec4_round l b.
Proof.
  intros Hf Ha Hb Hab. destruct (vec4_round_pow2 l b Hb) as [P L]. destruct c; cbn [extended].
  - rewrite (Hf eq_refl). cbn [vec4_round]. rewrite !round_up_pow2_16 by assumption. split; [apply pow2_max; [exact pow2_16|assumption]|lia].
  - split; [assumption|lia].
Qed.

Lemma vk_align_le c l : fits c l -> forall g, gwf g ->
  pow2 (vk_align c (decorate l g)) /\ vk_align c (decorate l g) <= base_align l g.
Proof.
  intros Hf. induction g as [s|s n|s k r|e n IH|n fs IH] using gty_ind'; intros H; cbn [decorate vk_align base_align].
  - split; [apply (vec_align_pow2 s 1)|lia].
  - split; [apply vec_align_pow2|lia].
  - apply extended_le; [assumption|apply vec_align_pow2..|lia].
  - destruct (IH (proj2 H)) as [A B]. apply extended_le; [assumption|assumption|apply base_align_pow2, H|assumption].
  - apply gwf_fields in H. destruct H as [Hne HF].
    assert (E : map (fun m => vk_align c (snd m)) (combine (goffsets l fs) (map (fun nf => decorate l (snd nf)) fs))
              = map (fun nf => vk_align c (decorate l (snd nf))) fs).
    { unfold goffsets. generalize 0. clear. induction fs as [|[f g] fs IH]; intros cur; [reflexivity|].
      cbn [gmembers map member_offsets combine snd]. f_equal. apply IH. }
    rewrite E. rewrite Forall_forall in IH, HF.
    assert (P1 : pow2 (fold_right N.max 0 (map (fun nf => vk_align c (decorate l (snd nf))) fs))).
    { apply fold_max_pow2_ne; [destruct fs; [congruence|discriminate]|]. apply Forall_map, Forall_forall. intros nf Hin.
      now apply IH; [|apply HF]. }
    assert (P2 : pow2 (fold_right N.max 0 (map (fun nf => base_align l (snd nf)) fs))).
    { apply fold_max_pow2_ne; [destruct fs; [congruence|discriminate]|]. apply Forall_map, Forall_forall. intros nf Hin.
      apply base_align_pow2. now apply HF. }
    apply extended_le; try assumption. clear P1 P2 E Hne. induction fs as [|nf fs IHf]; cbn [map fold_right]; [lia|].
    pose proof (proj2 (IH nf (or_introl eq_refl) (HF nf (or_introl eq_refl)))).
    specialize (IHf (fun x Hx => IH x (or_intror Hx)) (fun x Hx => HF x (or_intror Hx))). lia.
Qed.

(** ** members of a structure *)
Lemma member_offsets_ge ms : forall cur i o, Forall (fun m => 0 < fst m) ms -> nth_error (member_offsets cur ms) i = Some o -> cur <= o.
Proof.
  induction ms as [|[a s] ms IH]; intros cur i o H E; [destruct i; discriminate|]. inversion_clear H as [|? ? Ha H']. cbn [fst] in Ha.
  cbn [member_offsets] in E. pose proof (round_up_ge cur a Ha). destruct i; cbn [nth_error] in E; [injection E as <-; assumption|].
  apply IH in E; [lia|assumption].
Qed.

Lemma member_offsets_at ms : forall cur i o, Forall (fun m => 0 < fst m) ms -> nth_error (member_offsets cur ms) i = Some o ->
  exists a s, nth_error ms i = Some (a, s) /\ (a | o).
Proof.
  induction ms as [|[a s] ms IH]; intros cur i o H E; [destruct i; discriminate|]. inversion_clear H as [|? ? Ha H']. cbn [fst] in Ha.
  cbn [member_offsets] in E. destruct i; cbn [nth_error] in E |- *.
  - injection E as <-. exists a, s. split; [reflexivity|]. now apply round_up_divide.
  - eapply IH; eassumption.
Qed.

Lemma member_offsets_apart ms : forall cur i j o o' a s, Forall (fun m => 0 < fst m) ms -> (i < j)%nat ->
  nth_error (member_offsets cur ms) i = Some o -> nth_error (member_offsets cur ms) j = Some o' -> nth_error ms i = Some (a, s) ->
  o + s <= o'.
Proof.
  induction ms as [|[a0 s0] ms IH]; intros cur i j o o' a s H Hij E E' Em; [destruct i; discriminate|].
  inversion_clear H as [|? ? Ha H']. cbn [member_offsets] in E, E'. destruct j; [lia|]. destruct i; cbn [nth_error] in E, E', Em.
  - injection E as <-. injection Em as <- <-. eapply member_offsets_ge; eassumption.
  - eapply (IH _ i j); try eassumption. lia.
Qed.

Lemma members_end_all ms : forall cur i o a s, Forall (fun m => 0 < fst m) ms ->
  nth_error (member_offsets cur ms) i = Some o -> nth_error ms i = Some (a, s) -> o + s <= members_end cur ms.
Proof.
  induction ms as [|[a0 s0] ms IH]; intros cur i o a s H E Em; [destruct i; discriminate|].
  inversion_clear H as [|? ? Ha H']. cbn [member_offsets members_end] in *. destruct i; cbn [nth_error] in E, Em; [|now eapply (IH _ i); eassumption].
  injection E as <-. injection Em as <- <-. clear -H'. generalize (round_up cur a0 + s0). clear cur.
  induction ms as [|[a1 s1] ms IH]; intros cur; cbn [members_end]; [lia|]. inversion_clear H' as [|? ? Ha H].
  pose proof (round_up_ge cur a1 Ha). specialize (IH H (round_up cur a1 + s1)). lia.
Qed.

Lemma gmembers_pos l fs : Forall (fun nf => gwf (snd nf)) fs -> Forall (fun m => 0 < fst m) (gmembers l fs).
Proof. intros H. apply Forall_map. eapply Forall_impl; [|exact H]. intros [f g] Hg. apply pow2_pos, base_align_pow2, Hg. Qed.

Lemma nth_combine {A B} (xs : list A) : forall (ys : list B) i x y,
  nth_error (combine xs ys) i = Some (x, y) <-> nth_error xs i = Some x /\ nth_error ys i = Some y.
Proof.
  induction xs as [|a xs IH]; intros ys i x y.
  - cbn [combine]. destruct i; split; intros H; try discriminate; destruct H; discriminate.
  - destruct ys as [|b ys]; cbn [combine].
    + destruct i; split; intros H; try discriminate; destruct H; discriminate.
    + destruct i; cbn [nth_error]; [|apply IH]. split; [intros [= -> ->]; now split|intros [[= ->] [= ->]]; reflexivity].
Qed.

(** member [i] of a decorated structure *)
Lemma decorated_member l fs i m : nth_error (combine (goffsets l fs) (map (fun nf => decorate l (snd nf)) fs)) i = Some m ->
  Forall (fun nf => gwf (snd nf)) fs ->
  exists f g, nth_error fs i = Some (f, g) /\ snd m = decorate l g /\ nth_error (goffsets l fs) i = Some (fst m)
    /\ (base_align l g | fst m) /\ nth_error (gmembers l fs) i = Some (base_align l g, gsize l g).
Proof.
  destruct m as [o v]. intros E HF. apply nth_combine in E. destruct E as [E1 E2].
  rewrite nth_error_map in E2. destruct (nth_error fs i) as [[f g]|] eqn:Ef; [|discriminate]. injection E2 as <-.
  destruct (member_offsets_at _ _ _ _ (gmembers_pos l fs HF) E1) as [a [s [Em D]]].
  assert (Em' : nth_error (gmembers l fs) i = Some (base_align l g, gsize l g)) by (unfold gmembers; rewrite nth_error_map, Ef; reflexivity).
  rewrite Em' in Em. injection Em as <- <-. exists f, g. cbn [fst snd]. now repeat split.
Qed.

Lemma stride_ge l e : gwf e -> gsize l e <= array_stride l e /\ (vec4_round l (base_align l e) | array_stride l e).
Proof.
  intros H. pose proof (pow2_pos _ (proj1 (vec4_round_pow2 l _ (base_align_pow2 l e H)))). unfold array_stride.
  split; [now apply round_up_ge|now apply round_up_divide].
Qed.

Lemma col_stride_ge l s r : N.of_nat r * scalar_size s <= col_stride l s r /\ (vec4_round l (vec_align s r) | col_stride l s r).
Proof.
  pose proof (pow2_pos _ (proj1 (vec4_round_pow2 l _ (vec_align_pow2 s r)))). unfold col_stride.
  split; [now apply round_up_ge|now apply round_up_divide].
Qed.

Lemma vk_size_le l : forall g, gwf g -> vk_size (decorate l g) <= gsize l g.
Proof.
  induction g as [s|s n|s k r|e n IH|n fs IH] using gty_ind'; intros H; cbn [decorate vk_size].
  - cbn. lia.
  - cbn [gsize]. lia.
  - cbn [gsize]. pose proof (proj1 (col_stride_ge l s r)). cbn [gwf] in H. set (st := col_stride l s r) in *.
    replace (N.of_nat k * st) with ((N.of_nat k - 1) * st + st) by nia. lia.
  - cbn [gsize]. fold (array_stride l e). destruct H as [Hn He]. pose proof (proj1 (stride_ge l e He)). specialize (IH He).
    set (st := array_stride l e) in *. replace (N.of_nat n * st) with ((N.of_nat n - 1) * st + st) by nia. lia.
  - apply gwf_fields in H. destruct H as [Hne HF]. pose proof HF as HF'. rewrite gsize_struct.
    pose proof (pow2_pos _ (base_align_pow2 l (GStruct n fs) (proj2 (gwf_fields n fs) (conj Hne HF)))) as Hp.
    pose proof (round_up_ge (members_end 0 (gmembers l fs)) _ Hp). etransitivity; [|exact H]. clear H.
    match goal with |- fold_right _ _ (map _ ?xs) <= _ => assert (HA : forall m, In m xs -> fst m + vk_size (snd m) <= members_end 0 (gmembers l fs)); [|revert HA; generalize xs] end.
    { intros m Hin. apply In_nth_error in Hin. destruct Hin as [i Hi]. destruct (decorated_member l fs i m Hi HF') as [f [g [E1 [E2 [E3 [_ E4]]]]]].
      rewrite E2. pose proof (members_end_all _ _ _ _ _ _ (gmembers_pos l fs HF') E3 E4).
      rewrite Forall_forall in IH, HF. apply nth_error_In in E1. specialize (IH _ E1 (HF _ E1)). cbn [snd] in IH. lia. }
    intros xs HA. induction xs as [|m xs IHx]; cbn [map fold_right]; [lia|].
    pose proof (HA m (or_introl eq_refl)). specialize (IHx (fun x Hx => HA x (or_intror Hx))). lia.
Qed.

(** the size of arrays, matrices and structures is a multiple of their alignment *)
Lemma aggregate_size l g : gwf g -> is_aggregate (decorate l g) = true -> (base_align l g | gsize l g).
Proof.
  intros H Ha. destruct g as [s|s n|s k r|e n|n fs]; try discriminate; cbn [base_align].
  - cbn [gsize]. apply N.divide_mul_r, col_stride_ge.
  - cbn [gsize]. fold (array_stride l e). apply N.divide_mul_r, stride_ge, H.
  - rewrite gsize_struct. apply round_up_divide. apply pow2_pos. now apply (base_align_pow2 l (GStruct n fs)).
Qed.

Lemma reserved_le c l g o : fits c l -> gwf g -> (base_align l g | o) -> reserved c (o, decorate l g) <= o + gsize l g.
Proof.
  intros Hf Hg Ho. unfold reserved. cbn [fst snd]. pose proof (vk_size_le l g Hg) as Hs.
  destruct (is_aggregate (decorate l g)) eqn:Ea; [|lia].
  destruct (vk_align_le c l Hf g Hg) as [P L].
  assert (D : (vk_align c (decorate l g) | base_align l g)) by (apply pow2_divide; [assumption|now apply base_align_pow2|assumption]).
  apply round_up_least; [now apply pow2_pos|lia|]. apply N.divide_add_r; etransitivity; try exact D; [assumption|now apply aggregate_size].
Qed.

Lemma vec_no_straddle s n o : (2 <= n <= 4)%nat -> (vec_align s n | o) -> ~ improperly_straddles o (N.of_nat n * scalar_size s).
Proof.
  intros H [k Hk]. subst o. unfold improperly_straddles.
  assert (Hn : n = 2%nat \/ n = 3%nat \/ n = 4%nat) by lia.
  destruct Hn as [->|[->| ->]]; destruct s; cbn [vec_align scalar_size]; lia.
Qed.

Lemma parts_valid c l : fits c l -> forall g, gwf g -> forall o, (base_align l g | o) ->
  forall o' p, In (o', p) (placed o (decorate l g)) -> part_valid c o' p.
Proof.
  intros Hf. induction g as [s|s n|s k r|e n IH|n fs IH] using gty_ind'; intros H o Ho o' p Hin.
  - cbn [decorate placed] in Hin. destruct Hin as [[= <- <-]|[]]. split; [exact Ho|exact I].
  - cbn [decorate placed] in Hin. destruct Hin as [[= <- <-]|[]]. split; [exact Ho|]. now apply vec_no_straddle.
  - pose proof (vk_align_le c l Hf _ H) as [P L]. pose proof (base_align_pow2 l _ H) as Pb.
    pose proof (pow2_divide _ _ P Pb L) as D. cbn [decorate base_align] in *.
    destruct (col_stride_ge l s r) as [C1 C2]. cbn [placed] in Hin. destruct Hin as [[= <- <-]|Hin].
    + split; [now transitivity (vec4_round l (vec_align s r))|]. split; [now transitivity (vec4_round l (vec_align s r))|exact C1].
    + apply in_map_iff in Hin. destruct Hin as [i [[= <- <-] _]].
      assert (D' : (vec_align s r | o + N.of_nat i * col_stride l s r)).
      { destruct (vec4_round_pow2 l _ (vec_align_pow2 s r)) as [Pv Lv]. pose proof (pow2_divide _ _ (vec_align_pow2 s r) Pv Lv).
        apply N.divide_add_r; [now transitivity (vec4_round l (vec_align s r))|].
        apply N.divide_mul_r. now transitivity (vec4_round l (vec_align s r)). }
      split; [exact D'|]. apply vec_no_straddle; [apply H|exact D'].
  - pose proof (vk_align_le c l Hf _ H) as [P L]. pose proof (base_align_pow2 l _ H) as Pb.
    pose proof (pow2_divide _ _ P Pb L) as D. cbn [decorate base_align] in *.
    destruct H as [Hn He]. destruct (stride_ge l e He) as [C1 C2]. cbn [placed] in Hin. destruct Hin as [[= <- <-]|Hin].
    + split; [now transitivity (vec4_round l (base_align l e))|]. split; [now transitivity (vec4_round l (base_align l e))|].
      pose proof (vk_size_le l e He). lia.
    + apply in_flat_map in Hin. destruct Hin as [i [_ Hin]]. eapply IH; [assumption| |exact Hin].
      destruct (vec4_round_pow2 l _ (base_align_pow2 l e He)) as [Pv Lv]. pose proof (pow2_divide _ _ (base_align_pow2 l e He) Pv Lv).
      apply N.divide_add_r; [now transitivity (vec4_round l (base_align l e))|].
      apply N.divide_mul_r. now transitivity (vec4_round l (base_align l e)).
  - pose proof (vk_align_le c l Hf _ H) as [P L]. pose proof (base_align_pow2 l _ H) as Pb.
    pose proof (pow2_divide _ _ P Pb L) as D. apply gwf_fields in H. destruct H as [Hne HF].
    cbn [decorate placed] in Hin. destruct Hin as [[= <- <-]|Hin].
    + split; [etransitivity; [exact D|exact Ho]|]. intros i j m m' Hi Hj Hij.
      destruct (decorated_member l fs i m Hi HF) as [f [g [A1 [A2 [A3 [A4 A5]]]]]].
      destruct (decorated_member l fs j m' Hj HF) as [f' [g' [B1 [B2 [B3 [B4 B5]]]]]].
      rewrite Forall_forall in HF. pose proof (HF _ (nth_error_In _ _ A1)) as G. pose proof (HF _ (nth_error_In _ _ B1)) as G'.
      cbn [snd] in G, G'. pose proof (reserved_le c l g (fst m) Hf G A4) as R. pose proof (reserved_le c l g' (fst m') Hf G' B4) as R'.
      destruct m as [mo mv], m' as [mo' mv']. cbn [fst snd] in *. subst mv mv'.
      assert (Hpos : Forall (fun m => 0 < fst m) (gmembers l fs)) by (apply gmembers_pos, Forall_forall, HF).
      destruct (Nat.lt_ge_cases i j) as [Hlt|Hge].
      * left. pose proof (member_offsets_apart _ _ _ _ _ _ _ _ Hpos Hlt A3 B3 A5). lia.
      * right. assert (Hlt : (j < i)%nat) by lia. pose proof (member_offsets_apart _ _ _ _ _ _ _ _ Hpos Hlt B3 A3 B5). lia.
    + apply in_flat_map in Hin. destruct Hin as [m [Hm Hin]]. apply In_nth_error in Hm. destruct Hm as [i Hi].
      destruct (decorated_member l fs i m Hi HF) as [f [g [A1 [A2 [A3 [A4 A5]]]]]].
      rewrite Forall_forall in IH, HF. pose proof (nth_error_In _ _ A1) as Hn. rewrite A2 in Hin.
      apply (IH (f, g) Hn (HF _ Hn) (o + fst m)) with (o' := o') (p := p); [|exact Hin]. cbn [snd].
      apply N.divide_add_r; [|exact A4]. etransitivity; [|exact Ho].
      apply pow2_divide; [apply (base_align_pow2 l g (HF _ Hn))|exact Pb|].
      cbn [base_align]. assert (base_align l g <= fold_right N.max 0 (map (fun nf => base_align l (snd nf)) fs)).
      { apply fold_max_in. apply in_map_iff. exists (f, g). now split. }
      assert (P2 : pow2 (fold_right N.max 0 (map (fun nf => base_align l (snd nf)) fs))).
      { apply fold_max_pow2_ne; [destruct fs; [congruence|discriminate]|]. apply Forall_map, Forall_forall. intros nf Hnf.
        apply base_align_pow2. now apply HF. }
      pose proof (proj2 (vec4_round_pow2 l _ P2)). lia.
Qed.

Lemma decorate_valid c l g : fits c l -> gwf g -> vk_valid c (decorate l g).
Proof. intros Hf Hg o p Hin. eapply parts_valid; try eassumption. apply N.divide_0_r. Qed.

(** ** field names are distinct *)
Fixpoint gnd (g : gty) : Prop :=
  match g with
  | GScalar _ | GVec _ _ | GMat _ _ _ => True
  | GArr _ _ => False
  | GStruct _ fs => NoDup (map fst fs) /\ (fix go fs := match fs with [] => True | nf :: r => gnd (snd nf) /\ go r end) fs
  end.

Lemma gnd_fields n fs : gnd (GStruct n fs) <-> NoDup (map fst fs) /\ Forall (fun nf => gnd (snd nf)) fs.
Proof.
  cbn [gnd]. assert (E : forall xs : list (string * gty),
    (fix go fs := match fs with [] => True | nf :: r => gnd (snd nf) /\ go r end) xs <-> Forall (fun nf => gnd (snd nf)) xs).
  { induction xs as [|x xs IH]; [split; constructor|]. rewrite IH. split; [intros [A B]; now constructor|intros H; inversion H; now split]. }
  rewrite E. reflexivity.
Qed.

Lemma std_wf g : In g (map snd std_names) -> gwf g /\ gnd g.
Proof. intros H. cbn [map snd std_names In] in H. repeat (destruct H as [<-|H]; [cbn [gwf gnd]; lia|]). contradiction. Qed.

Lemma gwf_of tg : target_ok tg = true -> forall h l t g, out_ty tg l h = Some t -> gty_of h = Some g -> gwf g /\ gnd g.
Proof.
  intros Htg. induction h as [p| |r s fs IH|r m IH|h IH|n fs IH|l' h IH] using hty_ind'; intros l t g Ho Hg.
  - cbn [gty_of] in Hg. destruct (prim_gscalar p) as [s|]; [|discriminate]. injection Hg as <-. split; exact I.
  - injection Hg as <-. split; exact I.
  - destruct (gty_of_HEasy _ _ _ _ Hg) as [gs [Eg _]]. apply std_wf. apply in_map_iff. exists (s, g).
    split; [reflexivity|now apply assoc_in].
  - cbn [out_ty gty_of] in *. eauto.
  - discriminate.
  - destruct (struct_members tg l n fs t g Htg Ho Hg) as [outs [gs [E [Egs [-> _]]]]].
    destruct (struct_facts tg l n fs t Htg Ho) as [outs' [E' [Hnd _]]].
    destruct (gty_of_HStruct _ _ _ Hg) as [gs' [Hne [Egs' [= <-]]]].
    apply gfields_Forall2 in Egs. apply out_fields_Forall2 in E.
    assert (HA : Forall (fun nf => gwf (snd nf) /\ gnd (snd nf)) gs).
    { clear - IH Egs E. revert outs E. induction Egs as [|[f1 h1] [f2 g2] fs gs [A B] _ IHe]; intros outs E; [constructor|].
      inversion E as [|? [f3 t3] ? outs' [C D] E']; subst. inversion IH; subst. cbn [fst snd] in *. constructor; [cbn [snd]; eauto|eauto]. }
    rewrite gwf_fields, gnd_fields. split; split.
    + intros ->. inversion Egs; subst. congruence.
    + eapply Forall_impl; [|exact HA]. cbv beta. tauto.
    + replace (map fst gs) with (map fst fs); [exact Hnd|]. clear -Egs. induction Egs as [|? ? ? ? [A _] _ IH]; cbn [map]; [reflexivity|congruence].
    + eapply Forall_impl; [|exact HA]. cbv beta. tauto.
  - cbn [gty_of] in Hg. destruct (out_ty_HOut _ _ _ _ _ Ho) as [A _]. eauto.
Qed.

(** ** reading the decorations off the Rust type *)
Definition follows (tg : target) (l : lay) (t : sty) (g : gty) : Prop := forall path o g',
  gpath_offset l g path = Some (o, g') -> exists u, path_offset tg t path = Some (o, u) /\ size_of tg u = gsize l g'.

Lemma path_offset_cons tg t f r : path_offset tg t (f :: r) =
  match path_offset tg t [f] with
  | Some (o, u) => match path_offset tg u r with Some (o', u') => Some (o + o', u') | None => None end
  | None => None
  end.
Proof.
  cbn [path_offset]. destruct t; try reflexivity. destruct (assoc f _) as [o|]; [|reflexivity]. destruct (assoc f fs) as [u|]; [|reflexivity].
  now rewrite N.add_0_r.
Qed.

Lemma gpath_offset_cons l g f r : gpath_offset l g (f :: r) =
  match gpath_offset l g [f] with
  | Some (o, u) => match gpath_offset l u r with Some (o', u') => Some (o + o', u') | None => None end
  | None => None
  end.
Proof.
  cbn [gpath_offset]. destruct g; try reflexivity.
  - destruct (index_of f _); [|reflexivity]. now rewrite N.add_0_r.
  - destruct (index_of f _); [|reflexivity]. now rewrite N.add_0_r.
  - destruct (assoc f _) as [o|]; [|reflexivity]. destruct (assoc f fs) as [u|]; [|reflexivity]. now rewrite N.add_0_r.
Qed.

Lemma follows_part tg l t g f o g' : follows tg l t g -> gpath_offset l g [f] = Some (o, g') ->
  exists u, path_offset tg t [f] = Some (o, u) /\ follows tg l u g'.
Proof.
  intros H E. destruct (H [f] o g' E) as [u [E' _]]. exists u. split; [assumption|]. intros path o2 g2 E2.
  destruct (H (f :: path) (o + o2) g2) as [u' [E3 E4]].
  - now rewrite gpath_offset_cons, E, E2.
  - rewrite path_offset_cons, E' in E3. destruct (path_offset tg u path) as [[o3 u3]|]; [|discriminate]. injection E3 as E3 ->.
    exists u'. split; [|assumption]. f_equal. f_equal. lia.
Qed.

Lemma comp_index n k : (k < n)%nat -> (n <= 4)%nat -> index_of (nth k comp_names "") (firstn n comp_names) = Some (N.of_nat k).
Proof.
  intros H1 H2. destruct n as [|[|[|[|[|n]]]]]; try lia; destruct k as [|[|[|[|k]]]]; try lia; reflexivity.
Qed.

Lemma vec_spaced tg l t s n : (n <= 4)%nat -> follows tg l t (GVec s n) -> equally_spaced tg t n (scalar_size s) = true.
Proof.
  intros Hn H. apply forallb_forall. intros k Hk. apply in_seq in Hk.
  destruct (follows_part tg l t _ (nth k comp_names "") (N.of_nat k * scalar_size s) (GScalar s) H) as [u [E _]].
  - cbn [gpath_offset]. rewrite comp_index by lia. now rewrite N.add_0_r.
  - rewrite E. apply N.eqb_refl.
Qed.

Lemma layout_read tg l : forall g t, gwf g -> gnd g -> follows tg l t g -> rust_layout tg t g = Some (decorate l g).
Proof.
  induction g as [s|s n|s k r|e n IH|n fs IH] using gty_ind'; intros t Hw Hnd H; cbn [rust_layout decorate].
  - destruct (H [] 0 (GScalar s) eq_refl) as [u [[= <-] E]]. cbn [gsize] in E. now rewrite E, N.eqb_refl.
  - rewrite (vec_spaced tg l t s n); [reflexivity|cbn [gwf] in Hw; lia|assumption].
  - cbn [gwf] in Hw.
    assert (HC : forall i, (i < k)%nat -> exists u, path_offset tg t [nth i comp_names ""] = Some (N.of_nat i * col_stride l s r, u)
                   /\ follows tg l u (GVec s r)).
    { intros i Hi. apply (follows_part tg l t (GMat s k r)); [assumption|]. cbn [gpath_offset]. rewrite comp_index by lia. now rewrite N.add_0_r. }
    destruct (HC 1%nat) as [u1 [E1 _]]; [lia|]. change (nth 1 comp_names "") with "y" in E1. rewrite E1. rewrite N.mul_1_l.
    assert (X : equally_spaced tg t k (col_stride l s r) = true).
    { apply forallb_forall. intros i Hi. apply in_seq in Hi. destruct (HC i) as [u [E _]]; [lia|]. rewrite E. apply N.eqb_refl. }
    rewrite X. cbn [andb].
    match goal with |- (if ?b then _ else _) = _ => assert (Y : b = true) end.
    { apply forallb_forall. intros i Hi. apply in_seq in Hi. destruct (HC i) as [u [E F]]; [lia|]. rewrite E.
      apply (vec_spaced tg l); [lia|assumption]. }
    now rewrite Y.
  - destruct Hnd.
  - apply gwf_fields in Hw. destruct Hw as [Hne HF]. apply gnd_fields in Hnd. destruct Hnd as [Hnd HG].
    assert (E : map_opt (fun nf => match path_offset tg t [fst nf] with
                 | Some (o, u) => match rust_layout tg u (snd nf) with Some v => Some (o, v) | None => None end
                 | None => None end) fs = Some (combine (goffsets l fs) (map (fun nf => decorate l (snd nf)) fs))).
    { apply map_opt_Forall2.
      assert (HA : forall f g o, In (f, (o, g)) (combine (map fst fs) (combine (goffsets l fs) (map snd fs))) ->
                 exists u, path_offset tg t [f] = Some (o, u) /\ rust_layout tg u g = Some (decorate l g)).
      { intros f g o Hin. apply In_nth_error in Hin. destruct Hin as [i Hi]. apply nth_combine in Hi. destruct Hi as [I1 I2].
        apply nth_combine in I2. destruct I2 as [I2 I3].
        assert (Hf : nth_error fs i = Some (f, g)).
        { rewrite nth_error_map in I1, I3. destruct (nth_error fs i) as [[f' g']|]; [|discriminate]. cbn in I1, I3. congruence. }
        assert (Hp : gpath_offset l (GStruct n fs) [f] = Some (o, g)).
        { cbn [gpath_offset]. rewrite (assoc_nodup f o), (assoc_nodup f g).
          - now rewrite N.add_0_r.
          - assumption.
          - now apply nth_error_In in Hf.
          - assert (Em : map fst (combine (map fst fs) (goffsets l fs)) = map fst fs).
            { unfold goffsets, gmembers. clear. generalize 0. induction fs as [|[f g] fs IH]; intros cur; [reflexivity|].
              cbn [map fst member_offsets combine snd]. f_equal. apply IH. }
            now rewrite Em.
          - eapply nth_error_In. apply nth_combine. split; eassumption. }
        destruct (follows_part tg l t _ _ _ _ H Hp) as [u [Eu Fu]]. exists u. split; [assumption|].
        rewrite Forall_forall in IH, HF, HG. apply nth_error_In in Hf.
        exact (IH _ Hf u (HF _ Hf) (HG _ Hf) Fu). }
      clear - HA. revert HA. unfold goffsets, gmembers. generalize 0. induction fs as [|[f g] fs IH]; intros cur HA; [constructor|].
      cbn [map fst snd member_offsets combine] in *. constructor.
      - destruct (HA f g _ (or_introl eq_refl)) as [u [E1 E2]]. cbn [fst snd]. now rewrite E1, E2.
      - apply IH. intros f' g' o' Hin. apply HA. now right. }
    rewrite E. reflexivity.
Qed.

Lemma vread_strided (f g : N -> option gval) st : (forall o, f o = g o) -> forall n o, gread_strided f o st n = gread_strided g o st n.
Proof. intros E. induction n as [|n IH]; intros o; [reflexivity|]. cbn [gread_strided]. now rewrite E, IH. Qed.

Lemma vread_decorate tg l : forall g buf off, vread tg (decorate l g) buf off = gread tg l g buf off.
Proof.
  induction g as [s|s n|s k r|e n IH|n fs IH] using gty_ind'; intros buf off; try reflexivity.
  - cbn [decorate vread gread]. now rewrite (vread_strided _ (gread tg l e buf)).
  - rewrite gread_struct. cbn [decorate vread]. unfold goffsets, gmembers. 
    assert (E : forall fs cur, Forall (fun nf => forall buf off, vread tg (decorate l (snd nf)) buf off = gread tg l (snd nf) buf off) fs ->
      match map_opt (fun m => vread tg (snd m) buf (off + fst m))
        (combine (member_offsets cur (map (fun nf => (base_align l (snd nf), gsize l (snd nf))) fs)) (map (fun nf => decorate l (snd nf)) fs)) with
      | Some vs => Some (combine (map fst fs) vs) | None => None end = gread_fields tg l buf off cur fs).
    { clear. induction fs as [|[f g] fs IH]; intros cur H; [reflexivity|]. inversion_clear H as [|? ? H1 H2]. cbn [snd] in H1.
      cbn [map fst snd member_offsets combine gread_fields]. cbn [map_opt fst snd]. rewrite H1. specialize (IH (round_up cur (base_align l g) + gsize l g) H2).
      rewrite <- IH. destruct (gread tg l g buf _); [|reflexivity].
      destruct (map_opt _ _); reflexivity. }
    specialize (E fs 0 IH). rewrite <- E. destruct (map_opt _ _); reflexivity.
Qed.

(** C81.  The layouts are valid in Vulkan. *)
Lemma derived_layout tg l h t g : target_ok tg = true -> out_ty tg l h = Some t -> gty_of h = Some g ->
  rust_layout tg t g = Some (decorate l g).
Proof.
  intros Htg Ho Hg. destruct (gwf_of tg Htg h l t g Ho Hg) as [Hw Hnd]. apply layout_read; [assumption..|].
  intros path o g' Hp. destruct (path_all tg Htg h l t g path o g' Ho Hg Hp) as [u [A [B _]]]. eauto.
Qed.

Lemma C81_derived_layout_valid_proof : forall tg l h t g c,
  target_ok tg = true -> out_ty tg l h = Some t -> gty_of h = Some g ->
  (c = Uniform -> l = L140) ->
  exists V, rust_layout tg t g = Some V /\ vk_valid c V.
Proof.
  intros tg l h t g c Htg Ho Hg Hc. exists (decorate l g). split; [eapply derived_layout; eassumption|].
  apply decorate_valid; [exact Hc|]. eapply gwf_of; eassumption.
Qed.

Lemma C81_decorated_shader_reads_proof : forall tg l h t g v bs buf off,
  target_ok tg = true -> out_ty tg l h = Some t -> gty_of h = Some g -> hval_ok tg h v = true ->
  as_std_bytes tg l h v = Some bs -> read_at buf off (len bs) = Some bs ->
  exists V x, rust_layout tg t g = Some V /\ gval_of tg h v = Some x /\ vread tg V buf off = Some x.
Proof.
  intros tg l h t g v bs buf off Htg Ho Hg Hv Hb Hr.
  destruct (C23_gpu_reads_host_value_proof tg l h t g v bs buf off Htg Ho Hg Hv Hb Hr) as [x [E1 E2]].
  exists (decorate l g), x. split; [eapply derived_layout; eassumption|]. split; [assumption|]. now rewrite vread_decorate.
Qed.

Lemma block_wf tg l b gs : target_ok tg = true -> block_ok tg l b -> no_empty_slice b -> block_gty b = Some gs ->
  Forall (fun nf => gwf (snd nf)) gs.
Proof.
  intros Htg Hok Hne Hg. unfold block_gty in Hg. apply map_opt_Forall2 in Hg.
  revert Hok Hne. induction Hg as [|[f m] [f' g] b gs E _ IH]; intros Hok Hne; [constructor|].
  inversion_clear Hok as [|? ? H1 H2]. constructor; [|apply IH; [assumption|intros ? ? ? Hin; eapply Hne; right; exact Hin]].
  cbn [fst snd] in *. destruct m as [h v|h vs]; cbn [member_gty member_ok] in *; destruct H1 as [[t Ht] _].
  - destruct (gty_of h) as [g0|] eqn:Eg; [|discriminate]. injection E as <- <-. eapply gwf_of; eassumption.
  - destruct (gty_of h) as [g0|] eqn:Eg; [|discriminate]. injection E as <- <-. cbn [gwf]. split; [|eapply gwf_of; eassumption].
    pose proof (Hne _ _ _ (or_introl eq_refl)). destruct vs; [congruence|cbn [length]; lia].
Qed.

Lemma C81_writer_block_valid_proof : forall W tg l (wi : write_impl W) delivered inner b gs w os c,
  target_ok tg = true -> lawful wi delivered ->
  block_ok tg l b -> slices_ok l b -> gaps_ok l b -> no_empty_slice b -> b <> [] -> block_gty b = Some gs ->
  write_vals tg l wi (block_wvals b) (writer_new inner) = (w, (os, None)) ->
  (t_checks tg = true \/ members_end 0 (gmembers l gs) < umod tg) ->
  (c = Uniform -> l = L140) ->
  exists img xs, delivered (w_inner w) = (delivered inner ++ img)%list /\ block_gval tg b = Some xs
    /\ let V := VStruct (map fst b) (combine os (map (fun nf => decorate l (snd nf)) gs)) in
       vk_valid c V /\ vread tg V img 0 = Some (GVStruct xs).
Proof.
  intros W tg l wi delivered inner b gs w os c Htg Hl Hok Hs Hgaps Hne Hbne Hg Hw Hc Hcl.
  destruct (C39_block_with_slices_proof W tg l wi delivered inner b gs w os Htg Hl Hok Hs Hgaps Hg Hw Hc) as [img [xs [A [B [C D]]]]].
  exists img, xs. split; [assumption|]. split; [assumption|]. rewrite (D Hne).
  assert (Em : map fst b = map fst gs).
  { clear -Hg. unfold block_gty in Hg. apply map_opt_Forall2 in Hg. induction Hg as [|[f m] [f' g] b gs E _ IH]; [reflexivity|].
    cbn [fst snd map] in *. destruct (member_gty m); [|discriminate]. injection E as <- _. now f_equal. }
  rewrite Em. change (VStruct (map fst gs) (combine (goffsets l gs) (map (fun nf => decorate l (snd nf)) gs))) with (decorate l (GStruct "" gs)).
  cbv zeta. split; [|now rewrite vread_decorate].
  apply decorate_valid; [exact Hcl|]. apply gwf_fields. split.
  - intros ->. unfold block_gty in Hg. apply map_opt_Forall2 in Hg. inversion Hg; subst. congruence.
  - eapply block_wf; eassumption.
Qed.

(** examples *)
Lemma C81_ex_proof :
  exists t g, out_ty x86_64 L140 main_uniform = Some t /\ gty_of main_uniform = Some g
  /\ rust_layout x86_64 t g
     = Some (VStruct ["orientation"; "position"; "scale"] [(0, VMat GFloat 3 3 16); (48, VVec GFloat 3); (60, VScalar GFloat)]).
Proof.
  eexists. eexists. split; [vm_compute; reflexivity|]. split; [vm_compute; reflexivity|]. vm_compute. reflexivity.
Qed.

(** the std430 layout of a struct need not be a valid uniform buffer *)
Lemma C81_std430_as_uniform_refuted_proof :
  exists t g V, out_ty x86_64 L430 outer_s = Some t /\ gty_of outer_s = Some g
  /\ rust_layout x86_64 t g = Some V /\ vk_valid StorageBuffer V /\ ~ vk_valid Uniform V.
Proof.
  destruct (out_ty x86_64 L430 outer_s) as [t|] eqn:Et; [|vm_compute in Et; discriminate].
  destruct (gty_of outer_s) as [g|] eqn:Eg; [|vm_compute in Eg; discriminate].
  destruct (C81_derived_layout_valid_proof x86_64 L430 outer_s t g StorageBuffer eq_refl Et Eg) as [V [E1 E2]]; [discriminate|].
  exists t, g, V. conjs; [reflexivity|reflexivity|assumption|assumption|]. intros H.
  vm_compute in Et. injection Et as <-. vm_compute in Eg. injection Eg as <-. vm_compute in E1. injection E1 as <-.
  assert (Hin : In (4, VStruct ["x"] [(0, VScalar GFloat)])
    (placed 0 (VStruct ["leading"; "trailing"] [(0, VStruct ["first"; "second"] [(0, VStruct ["x"] [(0, VScalar GFloat)]); (4, VStruct ["x"] [(0, VScalar GFloat)])]);
       (8, VStruct ["x"] [(0, VScalar GFloat)])]))) by (vm_compute; tauto).
  destruct (H _ _ Hin) as [[k Hk] _]. vm_compute in Hk. destruct k as [|p]; [discriminate|]. revert Hk. change (4 = N.pos p * 16 -> False). lia.
Qed.

(** a value written after a slice of vec3 is where Vulkan allows no member *)
Lemma C81_after_vec3_slice_refuted_proof :
  let b := [("a", MSlice vec3f [v3 1 2 3]); ("b", MVal (HPrim PF32) (bits 1))] in
  exists w os gs, write_vals x86_64 L430 vec_sink (block_wvals b) (writer_new []) = (w, (os, None))
  /\ block_gty b = Some gs /\ os = [0; 12]
  /\ ~ vk_valid StorageBuffer (VStruct (map fst b) (combine os (map (fun nf => decorate L430 (snd nf)) gs))).
Proof.
  cbv zeta. eexists. eexists. eexists. split; [vm_compute; reflexivity|]. split; [vm_compute; reflexivity|]. split; [reflexivity|].
  intros H. specialize (H 0 _ (or_introl eq_refl)). destruct H as [_ H].
  destruct (H 0%nat 1%nat _ _ eq_refl eq_refl ltac:(discriminate)) as [E|E]; vm_compute in E; now apply E.
Qed.

(** a slice of scalars written in std140 has no valid stride in a uniform buffer *)
Lemma C81_std140_scalar_slice_refuted_proof :
  exists w, write_vals x86_64 L140 vec_sink [WSeq [WLeaf (HPrim PF32) (bits 1); WLeaf (HPrim PF32) (bits 2)]] (writer_new []) = (w, ([0], None))
  /\ vread x86_64 (VArr (VScalar GFloat) 2 4) (w_inner w) 0 = Some (GVArr [GVBits 1; GVBits 2])
  /\ (forall st, vread x86_64 (VArr (VScalar GFloat) 2 st) (w_inner w) 0 = Some (GVArr [GVBits 1; GVBits 2]) ->
        ~ vk_valid Uniform (VStruct ["a"] [(0, VArr (VScalar GFloat) 2 st)])).
Proof.
  eexists. split; [vm_compute; reflexivity|]. split; [vm_compute; reflexivity|].
  intros st Hr H. assert (Hin : In (0, VArr (VScalar GFloat) 2 st) (placed 0 (VStruct ["a"] [(0, VArr (VScalar GFloat) 2 st)]))) by (right; left; reflexivity).
  destruct (H _ _ Hin) as [_ [[k Hk] Hs]]. cbn [vk_align extended vk_size scalar_size] in Hk, Hs. change (round_up 4 16) with 16 in Hk. clear H Hin. subst st.
  destruct k as [|p]; [lia|]. cbn [vread gread_strided] in Hr. cbn [w_inner] in Hr.
  match type of Hr with context [gread_scalar ?a ?b ?c (0 + N.pos p * 16)] => assert (E : gread_scalar a b c (0 + N.pos p * 16) = None); [|rewrite E in Hr; destruct (gread_scalar a b c 0); discriminate] end.
  unfold gread_scalar, read_at. match goal with |- context [if ?x then _ else _] => replace x with false; [reflexivity|symmetry] end.
  apply N.leb_gt. match goal with |- ?x < _ => change (8 < 0 + N.pos p * 16 + 4) end. lia.
Qed.

(** the block of the documentation of [Writer], as a storage buffer *)
Lemma C81_ex_writer_proof :
  let b := [("count", MVal (HPrim PU32) (bits 2)); ("lights", MSlice point_light [light1; light2])] in
  exists w gs, write_vals x86_64 L430 vec_sink (block_wvals b) (writer_new []) = (w, ([0; 16], None))
  /\ block_gty b = Some gs /\ gaps_ok L430 b
  /\ VStruct (map fst b) (combine [0; 16] (map (fun nf => decorate L430 (snd nf)) gs))
     = VStruct ["count"; "lights"] [(0, VScalar GUint);
         (16, VArr (VStruct ["position"; "color"; "brightness"] [(0, VVec GFloat 3); (16, VVec GFloat 3); (28, VScalar GFloat)]) 2 32)].
Proof.
  cbv zeta. eexists. eexists. split; [vm_compute; reflexivity|]. split; [vm_compute; reflexivity|]. split; [|vm_compute; reflexivity].
  cbn [gaps_ok]. split; [|exact I]. intros h vs g g' E. discriminate E.
Qed.
