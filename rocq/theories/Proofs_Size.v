(** * Proofs: bounds on sizes *)

From Coq Require Import NArith String Bool List Lia ZArith.
From Coq Require Import ZifyBool ZifyN ZifyNat.
From Coq Require Import Strings.Byte.
From Verif Require Import Rust RustFacts Internal Prims Derive Host Buffer Samples.
From Verif Require Import SpecBuf SpecGlsl SpecHost SpecSize Arith DeriveFacts TypeFacts HostFacts GlslFacts BufferFacts WriterFacts GpuFacts Proofs_Buffer Proofs_RowMajor Proofs_Vulkan.
Import ListNotations.
Local Open Scope string_scope.
Local Open Scope N_scope.

Lemma next_bound M al pos k c n : 0 < al -> (al | M) -> al <= M -> pos <= M * k -> n <= al * c ->
  round_up pos al + n <= M * (k + c).
Proof.
  intros H0 HD Hle Hp Hn.
  assert (round_up pos al <= M * k) by (apply round_up_least; [assumption..|]; destruct HD as [q ->]; exists (q * k); lia).
  nia.
Qed.

Lemma components_struct n fs : components (GStruct n fs) = sum (map (fun nf => components (snd nf)) fs).
Proof. cbn [components]. unfold sum. induction fs as [|x fs IH]; [reflexivity|]. cbn [map fold_right]. now rewrite IH. Qed.
Lemma data_size_struct n fs : data_size (GStruct n fs) = sum (map (fun nf => data_size (snd nf)) fs).
Proof. cbn [data_size]. unfold sum. induction fs as [|x fs IH]; [reflexivity|]. cbn [map fold_right]. now rewrite IH. Qed.

Definition bounded (l : lay) (g : gty) : Prop := data_size g <= gsize l g <= base_align l g * components g.

Lemma members_bound l M fs : Forall (fun nf => bounded l (snd nf)) fs ->
  Forall (fun nf => 0 < base_align l (snd nf) /\ base_align l (snd nf) <= M /\ (base_align l (snd nf) | M)) fs ->
  forall cur k d, d <= cur <= M * k ->
  d + sum (map (fun nf => data_size (snd nf)) fs) <= members_end cur (gmembers l fs)
  <= M * (k + sum (map (fun nf => components (snd nf)) fs)).
Proof.
  intros HB HA. induction fs as [|[f g] fs IH]; intros cur k d Hc; cbn [map gmembers members_end sum fold_right snd]; [lia|].
  inversion HB as [|? ? [B1 B2] HB']; subst. inversion HA as [|? ? [A1 [A2 A3]] HA']; subst. cbn [snd] in *.
  fold (gmembers l fs). fold (sum (map (fun nf => data_size (snd nf)) fs)). fold (sum (map (fun nf => components (snd nf)) fs)).
  assert (E : round_up cur (base_align l g) + gsize l g <= M * (k + components g)) by (apply next_bound; try assumption; lia).
  pose proof (round_up_ge cur (base_align l g) A1).
  specialize (IH HB' HA' (round_up cur (base_align l g) + gsize l g) (k + components g) (d + data_size g)). lia.
Qed.

Lemma col_stride_bound l s r : (2 <= r <= 4)%nat ->
  N.of_nat r * scalar_size s <= col_stride l s r <= vec4_round l (vec_align s r) * N.of_nat r.
Proof.
  intros H. destruct r as [|[|[|[|[|r]]]]]; try lia; destruct l, s; vm_compute; split; discriminate.
Qed.

Lemma glsl_bounds l : forall g, gwf g -> bounded l g.
Proof.
  induction g as [s|s n|s c r|e n IH|n fs IH] using gty_ind'; intros H; unfold bounded.
  - cbn. destruct s; vm_compute; split; discriminate.
  - cbn [gwf] in H. cbn [data_size gsize base_align components]. split; [lia|].
    destruct n as [|[|[|[|[|n]]]]]; try lia; destruct s; vm_compute; discriminate.
  - cbn [gwf] in H. cbn [data_size gsize base_align components]. destruct (col_stride_bound l s r (proj2 H)) as [A B]. nia.
  - cbn [gwf] in H. destruct H as [Hn H]. destruct (IH H) as [A B]. pose proof (base_align_pow2 l e H) as P.
    destruct (vec4_round_pow2 l _ P) as [P4 L4]. cbn [data_size gsize base_align components].
    assert (Hr : round_up (gsize l e) (vec4_round l (base_align l e)) <= vec4_round l (base_align l e) * components e).
    { apply round_up_least; [now apply pow2_pos|nia|]. exists (components e). lia. }
    pose proof (round_up_ge (gsize l e) (vec4_round l (base_align l e)) (pow2_pos _ P4)). nia.
  - pose proof (base_align_pow2 l _ H) as PS. apply gwf_fields in H. destruct H as [Hne HF].
    rewrite gsize_struct, components_struct, data_size_struct. set (M := base_align l (GStruct n fs)) in *.
    assert (HB : Forall (fun nf => bounded l (snd nf)) fs).
    { apply Forall_forall. intros x Hx. rewrite Forall_forall in IH, HF. now apply IH, HF. }
    assert (HA : Forall (fun nf => 0 < base_align l (snd nf) /\ base_align l (snd nf) <= M /\ (base_align l (snd nf) | M)) fs).
    { apply Forall_forall. intros x Hx. rewrite Forall_forall in HF. pose proof (base_align_pow2 l _ (HF x Hx)) as P.
      assert (base_align l (snd x) <= M).
      { unfold M. cbn [base_align]. etransitivity; [apply fold_max_in, (in_map (fun nf => base_align l (snd nf))), Hx|].
        apply vec4_round_pow2, fold_max_pow2_ne; [destruct fs; [contradiction|discriminate]|].
        apply Forall_forall. intros y Hy. apply in_map_iff in Hy. destruct Hy as [z [<- Hz]]. now apply base_align_pow2, HF. }
      split; [now apply pow2_pos|]. split; [assumption|]. now apply pow2_divide. }
    destruct (members_bound l M fs HB HA 0 0 0 ltac:(lia)) as [A B]. pose proof (pow2_pos _ PS) as Hpos.
    pose proof (round_up_ge (members_end 0 (gmembers l fs)) M Hpos). split; [lia|].
    apply round_up_least; [assumption|lia|]. eexists. apply N.mul_comm.
Qed.

Lemma C83_size_bounds_proof : forall tg l h t g a,
  target_ok tg = true -> out_ty tg l h = Some t -> gty_of h = Some g -> std_align l t = Some a ->
  data_size g <= size_of tg t <= a * components g.
Proof.
  intros tg l h t g a Htg Ho Hg Ha. destruct (size_align_glsl tg Htg h l t g Ho Hg) as [E1 [E2 _]].
  unfold alN in E1. rewrite Ha in E1. rewrite E2, E1. apply glsl_bounds. eapply gwf_of; eassumption.
Qed.

Lemma C83_sequence_bounds_proof : forall tg l hs gs os s,
  target_ok tg = true -> map_opt gty_of hs = Some gs ->
  sizer_run tg l hs sizer_new = Some (Done (os, s)) ->
  let bound := largest (map (base_align l) gs) * sum (map components gs) in
  (t_checks tg = true \/ bound < umod tg) ->
  sum (map data_size gs) <= sizer_len s <= bound.
Proof.
  intros tg l hs gs os s Htg Hg Hr bound Hno. unfold bound in *. clear bound.
  apply map_opt_Forall2 in Hg. set (M := largest (map (base_align l) gs)) in *.
  assert (K : forall hs gs, Forall2 (fun h g => gty_of h = Some g) hs gs ->
    forall os s0 s k d, 
    (forall h g, In (h, g) (combine hs gs) -> (exists t, out_ty tg l h = Some t) -> base_align l g <= M /\ (base_align l g | M)) ->
    d <= sizer_len s0 <= M * k -> sizer_len s0 < umod tg ->
    (t_checks tg = true \/ M * (k + sum (map components gs)) < umod tg) ->
    sizer_run tg l hs s0 = Some (Done (os, s)) ->
    d + sum (map data_size gs) <= sizer_len s <= M * (k + sum (map components gs))).
  { clearbody M. clear - Htg. intros hs gs F. induction F as [|h g hs gs E F IH]; intros os s0 s k d HM Hs Hu Hno Hr.
    - injection Hr as <- <-. cbn. lia.
    - cbn [sizer_run] in Hr. destruct (sizer_add tg l h s0) as [[[o s1]|]|] eqn:A; try discriminate.
      destruct (sizer_run tg l hs s1) as [[[os2 s2]|]|] eqn:R; try discriminate. injection Hr as <- <-.
      assert (Ho : exists t a, out_ty tg l h = Some t /\ std_align l t = Some a).
      { unfold sizer_add, sizer_add_std in A. destruct (out_ty tg l h) as [t|]; [|discriminate]. destruct (std_align l t) as [a|] eqn:Ea; [|discriminate]. eauto. }
      destruct Ho as [t [a [Ho Ha]]]. pose proof Htg as Htg'.
      destruct (size_align_glsl tg Htg h l t g Ho E) as [E1 [E2 E3]]. unfold alN in E1. rewrite Ha in E1. subst a.
      assert (Bd : bounded l g) by (apply glsl_bounds; eapply gwf_of; eassumption). destruct Bd as [B1 B2].
      destruct (HM h g (or_introl eq_refl) (ex_intro _ t Ho)) as [M1 M2]. pose proof (pow2_pos _ E3) as Hp.
      cbn [map sum fold_right] in *. fold (sum (map components gs)) in *. fold (sum (map data_size gs)).
      pose proof (next_bound M (base_align l g) (sizer_len s0) k (components g) (gsize l g) Hp M2 M1 ltac:(lia) B2) as NB.
      pose proof (round_up_ge (sizer_len s0) (base_align l g) Hp) as GE.
      assert (Oa : out_align tg l h = Some (base_align l g)) by (unfold out_align; now rewrite Ho).
      assert (Os : std_size_static tg l h = Some (gsize l g)) by (unfold std_size_static; rewrite Ho; now rewrite E2).
      assert (LA : least_aligned (base_align l g) (sizer_len s0) (round_up (sizer_len s0) (base_align l g))).
      { apply least_aligned_spec. now apply round_up_align_offset. }
      assert (S1 : sizer_len s1 = round_up (sizer_len s0) (base_align l g) + gsize l g
                   /\ sizer_len s1 < umod tg).
      { destruct (t_checks tg) eqn:C.
        - destruct (C12_sizer_overflow_proof tg l h _ _ s0 _ Htg C Oa Os Hu LA) as [[L [s' [X Y]]]|[_ X]]; [|congruence].
          rewrite X in A. injection A as <- <-. lia.
        - destruct Hno as [|Hno]; [discriminate|].
          assert (L : round_up (sizer_len s0) (base_align l g) + gsize l g < umod tg) by nia.
          destruct (C01_sizer_add_proof tg l h _ _ s0 _ Htg Oa Os LA L) as [s' [X Y]].
          rewrite X in A. injection A as <- <-. lia. }
      destruct S1 as [S1 S2].
      specialize (IH os2 s1 s2 (k + components g) (d + data_size g)). 
      rewrite <- !N.add_assoc in IH. rewrite !N.add_assoc in *. apply IH; [|lia|assumption| |exact R].
      + intros h' g' Hin. apply HM. now right.
      + destruct Hno as [Hno|Hno]; [now left|right]. exact Hno. }
  specialize (K hs gs Hg os sizer_new s 0 0). rewrite !N.add_0_l in K. apply K; [|cbn; lia| |assumption|exact Hr].
  - intros h g Hin [t Ho]. assert (Hgt : forall hs' gs', Forall2 (fun h g => gty_of h = Some g) hs' gs' ->
      In (h, g) (combine hs' gs') -> gty_of h = Some g /\ In g gs').
    { clear. intros hs' gs' F. induction F as [|a b hs' gs' E F IH]; [contradiction|].
      intros [X|X]; [injection X as -> ->; split; [assumption|now left]|].
      destruct (IH X) as [P Q]. split; [assumption|now right]. }
    destruct (Hgt hs gs Hg Hin) as [Eg Hi].
    assert (Le : base_align l g <= M) by (unfold M, largest; now apply fold_max_in, in_map). split; [assumption|].
    destruct (size_align_glsl tg Htg h l t g Ho Eg) as [_ [_ P]]. apply pow2_divide; [assumption| |assumption].
    assert (PM : forall hs' gs' s0 r, Forall2 (fun h g => gty_of h = Some g) hs' gs' ->
      sizer_run tg l hs' s0 = Some (Done r) -> Forall (fun g => pow2 (base_align l g)) gs').
    { clear - Htg. intros hs' gs' s0 r F. revert s0 r. induction F as [|a b hs' gs' E F IH]; intros s0 r Hr; [constructor|].
      cbn [sizer_run] in Hr. destruct (sizer_add tg l a s0) as [[[o s1]|]|] eqn:A; try discriminate.
      destruct (sizer_run tg l hs' s1) as [[[os2 s2]|]|] eqn:R; try discriminate.
      constructor; [|eapply IH; exact R].
      unfold sizer_add, sizer_add_std in A. destruct (out_ty tg l a) as [t|] eqn:Ho; [|discriminate].
      eapply size_align_glsl; eassumption. }
    pose proof (PM hs gs _ _ Hg Hr) as PF. unfold M, largest. apply fold_max_pow2_ne.
    + intros X. apply map_eq_nil in X. subst gs. contradiction.
    + apply Forall_forall. intros x Hx. apply in_map_iff in Hx. destruct Hx as [y [<- Hy]]. rewrite Forall_forall in PF. now apply PF.
  - cbn. apply umod_pos.
Qed.

(** the bounds are reached *)
Lemma C83_ex_proof :
  (exists t g, out_ty x86_64 L140 (HStruct "S" [("x", HPrim PF32)]) = Some t
     /\ gty_of (HStruct "S" [("x", HPrim PF32)]) = Some g /\ std_align L140 t = Some 16
     /\ size_of x86_64 t = 16 /\ components g = 1 /\ data_size g = 4)
  /\ (exists t g, out_ty x86_64 L430 point_light = Some t /\ gty_of point_light = Some g
     /\ std_align L430 t = Some 16 /\ size_of x86_64 t = 32 /\ components g = 7 /\ data_size g = 28)
  /\ (exists gs os s, map_opt gty_of [HPrim PU32; point_light; HBool; vec3f] = Some gs
     /\ sizer_run x86_64 L140 [HPrim PU32; point_light; HBool; vec3f] sizer_new = Some (Done (os, s))
     /\ sizer_len s = 76 /\ sum (map data_size gs) = 48 /\ largest (map (base_align L140) gs) = 16 /\ sum (map components gs) = 12).
Proof.
  split; [|split].
  - do 2 eexists. conjs; vm_compute; reflexivity.
  - do 2 eexists. conjs; vm_compute; reflexivity.
  - do 3 eexists. conjs; vm_compute; reflexivity.
Qed.
