(** * C67: equality of std140 vectors *)

From Coq Require Import NArith String Bool List Lia ZArith.
From Coq Require Import ZifyBool ZifyN ZifyNat.
From Coq Require Import Strings.Byte.
From Verif Require Import Rust Internal Prims Derive Host Rows Buffer Equality SpecEq SpecBuf SpecGlsl SpecHost SpecTypes
  Arith RustFacts DeriveFacts TypeFacts HostFacts Samples Proofs_Types.
Import ListNotations.
Local Open Scope string_scope.
Local Open Scope N_scope.

(** ** Numbers from their bits *)

Section Float.
  Variables eb mb : N.
  Hypothesis Heb : 0 < eb.
  Let B := 2 ^ mb.
  Let E := 2 ^ eb.
  Let r_ex (r : N) := r / B.
  Let r_frac (r : N) := r mod B.
  Let mag (r : N) : N := if r_ex r =? 0 then r_frac r else (B + r_frac r) * 2 ^ (r_ex r - 1).

  Lemma B_pos : 0 < B.
  Proof. unfold B. pose proof (N.pow_nonzero 2 mb). lia. Qed.
  Lemma E_ge2 : 2 <= E.
  Proof. unfold E. change 2 with (2 ^ 1) at 1. apply N.pow_le_mono_r; lia. Qed.

  Lemma mag_mono r r' : r < r' -> mag r < mag r'.
  Proof.
    intros H. pose proof B_pos as HB. unfold mag, r_ex, r_frac.
    pose proof (N.div_mod r B ltac:(lia)) as D. pose proof (N.div_mod r' B ltac:(lia)) as D'.
    pose proof (N.mod_lt r B ltac:(lia)) as L. pose proof (N.mod_lt r' B ltac:(lia)) as L'.
    pose proof (N.div_le_mono r r' B ltac:(lia) ltac:(lia)) as M.
    set (e := r / B) in *. set (e' := r' / B) in *. set (f := r mod B) in *. set (f' := r' mod B) in *.
    destruct (N.eq_dec e e') as [Ee|Ee].
    - rewrite <- Ee in *. assert (f < f') by lia.
      destruct (e =? 0); [assumption|]. apply N.mul_lt_mono_pos_r; [|lia]. pose proof (N.pow_nonzero 2 (e - 1)). lia.
    - assert (He : e < e') by lia.
      destruct (N.eqb_spec e' 0) as [X|_]; [lia|].
      assert (G : B * 2 ^ (e' - 1) <= (B + f') * 2 ^ (e' - 1)) by (apply N.mul_le_mono_r; lia).
      destruct (N.eqb_spec e 0) as [X|X].
      + assert (1 <= 2 ^ (e' - 1)) by (pose proof (N.pow_nonzero 2 (e' - 1)); lia).
        assert (B * 1 <= B * 2 ^ (e' - 1)) by (apply N.mul_le_mono_l; assumption). lia.
      + assert (G1 : (B + f) * 2 ^ (e - 1) < (2 * B) * 2 ^ (e - 1)).
        { apply N.mul_lt_mono_pos_r; [|lia]. pose proof (N.pow_nonzero 2 (e - 1)). lia. }
        assert (G2 : (2 * B) * 2 ^ (e - 1) = B * 2 ^ e).
        { replace e with (N.succ (e - 1)) at 2 by lia. rewrite N.pow_succ_r'. lia. }
        assert (G3 : B * 2 ^ e <= B * 2 ^ (e' - 1)).
        { apply N.mul_le_mono_l. apply N.pow_le_mono_r; lia. }
        lia.
  Qed.

  Lemma mag_inj r r' : mag r = mag r' -> r = r'.
  Proof. intros H. destruct (N.lt_trichotomy r r') as [X|[X|X]]; [apply mag_mono in X; lia|assumption|apply mag_mono in X; lia]. Qed.

  Lemma mag_0 r : mag r = 0 <-> r = 0.
  Proof.
    assert (H : mag 0 = 0).
    { unfold mag, r_ex, r_frac. pose proof B_pos. rewrite N.div_0_l, N.mod_0_l by lia. reflexivity. }
    split; [|intros ->; exact H]. intros E0. apply mag_inj. congruence.
  Qed.

  (** [n] as sign and rest *)
  Let M := B * E.
  Let inf := (E - 1) * B.
  Lemma M_pos : 0 < M.
  Proof. unfold M. pose proof B_pos. pose proof E_ge2. apply N.mul_pos_pos; lia. Qed.

  Lemma fdecode_eq n : n < 2 * M -> fdecode eb mb n =
    let r := n mod M in let neg := negb (n / M =? 0) in
    if r <? inf then FFin (if neg then - Z.of_N (mag r) else Z.of_N (mag r))
    else if r =? inf then FInf neg else FNaN.
  Proof.
    intros Hn. pose proof B_pos as HB. pose proof E_ge2 as HE. pose proof M_pos as HM.
    unfold fdecode. fold B E. rewrite N.pow_add_r. fold B E. fold M.
    set (r := n mod M).
    assert (Er : n = M * (n / M) + r) by (apply N.div_mod; lia).
    assert (Lr : r < M) by (apply N.mod_lt; lia).
    assert (Hf : n mod B = r_frac r).
    { unfold r_frac. rewrite Er at 1. unfold M. rewrite <- N.mul_assoc, N.add_comm, N.mul_comm. apply N.mod_add. lia. }
    assert (He : (n / B) mod E = r_ex r).
    { unfold r_ex. rewrite Er at 1. unfold M. replace (B * E * (n / (B * E)) + r) with (r + (E * (n / (B * E))) * B) by lia.
      rewrite N.div_add by lia. rewrite (N.mul_comm E), N.mod_add by lia. apply N.mod_small.
      apply N.div_lt_upper_bound; [lia|]. exact Lr. }
    rewrite Hf, He.
    assert (Hs : N.odd (n / M) = negb (n / M =? 0)).
    { assert (Hq : n / M < 2) by (apply N.div_lt_upper_bound; [lia|]; rewrite N.mul_comm; exact Hn). clear - Hq.
      generalize dependent (n / M). intros q Hq. destruct (N.eq_dec q 0) as [->|]; [reflexivity|]. replace q with 1 by lia. reflexivity. }
    rewrite Hs. cbv zeta.
    pose proof (N.div_mod r B ltac:(lia)) as D. fold (r_ex r) in D. fold (r_frac r) in D.
    pose proof (N.mod_lt r B ltac:(lia)) as L. fold (r_frac r) in L.
    assert (Hex : r_ex r < E) by (unfold r_ex; apply N.div_lt_upper_bound; lia).
    destruct (N.eqb_spec (r_ex r) (E - 1)) as [X|X].
    - rewrite (proj2 (N.ltb_ge r inf)) by (unfold inf; rewrite D, X; lia).
      destruct (N.eqb_spec (r_frac r) 0) as [Y|Y].
      + replace (r =? inf) with true; [reflexivity|]. symmetry. apply N.eqb_eq. unfold inf. rewrite D, X, Y. lia.
      + replace (r =? inf) with false; [reflexivity|]. symmetry. apply N.eqb_neq. unfold inf. rewrite D, X. lia.
    - assert (r < inf).
      { unfold inf. rewrite D. assert (B * r_ex r + B <= (E - 1) * B); [|lia].
        replace (B * r_ex r + B) with ((r_ex r + 1) * B) by lia. apply N.mul_le_mono_r. lia. }
      rewrite (proj2 (N.ltb_lt r inf)) by assumption. reflexivity.
  Qed.

  Lemma fnum_eq_spec a b : a < 2 * M -> b < 2 * M ->
    fnum_eq (fdecode eb mb a) (fdecode eb mb b) = true <->
    ~ inf < a mod M /\ ~ inf < b mod M /\ (a = b \/ (a mod M = 0 /\ b mod M = 0)).
  Proof.
    intros Ha Hb. pose proof M_pos as HM. pose proof E_ge2 as HE. pose proof B_pos as HB. rewrite !fdecode_eq by assumption. cbv zeta.
    assert (Ea : a = M * (a / M) + a mod M) by (apply N.div_mod; lia). assert (Eb : b = M * (b / M) + b mod M) by (apply N.div_mod; lia).
    assert (Sa : a / M < 2) by (apply N.div_lt_upper_bound; lia). assert (Sb : b / M < 2) by (apply N.div_lt_upper_bound; lia).
    assert (Hinf : 0 < inf) by (unfold inf; apply N.mul_pos_pos; lia).
    set (ra := a mod M) in *. set (rb := b mod M) in *. set (sa := a / M) in *. set (sb := b / M) in *.
    assert (Key : forall s s' : N, s < 2 -> s' < 2 -> negb (s =? 0) = negb (s' =? 0) -> s = s') by lia.
    destruct (N.ltb_spec ra inf) as [La|La]; [|destruct (N.eqb_spec ra inf) as [Ia|Ia]];
    (destruct (N.ltb_spec rb inf) as [Lb|Lb]; [|destruct (N.eqb_spec rb inf) as [Ib|Ib]]); cbn [fnum_eq];
      try (split; [discriminate|intros [X1 [X2 X3]]; exfalso]).
    - split.
      + intros H. split; [lia|]. split; [lia|]. apply Z.eqb_eq in H.
        assert (Hm : mag ra = mag rb) by (destruct (negb (sa =? 0)), (negb (sb =? 0)); lia).
        apply mag_inj in Hm. destruct (N.eq_dec ra 0) as [Z0|Z0]; [right; lia|]. left.
        assert (0 < mag ra) by (pose proof (proj1 (mag_0 ra)); lia).
        assert (Es : negb (sa =? 0) = negb (sb =? 0)) by (destruct (negb (sa =? 0)), (negb (sb =? 0)); try reflexivity; lia).
        apply (Key sa sb Sa Sb) in Es. rewrite Ea, Eb, Es, Hm. reflexivity.
      + intros [_ [_ [H|[H1 H2]]]].
        * assert (ra = rb) by (unfold ra, rb; now rewrite H). assert (sa = sb) by (unfold sa, sb; now rewrite H).
          rewrite H0, H1. apply Z.eqb_refl.
        * rewrite H1, H2. assert (Hz : mag 0 = 0) by (now apply mag_0). rewrite Hz. destruct (negb (sa =? 0)), (negb (sb =? 0)); reflexivity.
    - destruct X3 as [H|[H1 H2]]; [|lia]. assert (ra = rb) by (unfold ra, rb; now rewrite H). lia.
    - destruct X3 as [H|[H1 H2]]; lia.
    - destruct X3 as [H|[H1 H2]]; [|lia]. assert (ra = rb) by (unfold ra, rb; now rewrite H). lia.
    - split.
      + intros H. split; [lia|]. split; [lia|]. left. apply eqb_prop in H. apply (Key sa sb Sa Sb) in H. rewrite Ea, Eb, H, Ia, Ib. reflexivity.
      + intros [_ [_ [H|[H1 H2]]]]; [|lia]. assert (sa = sb) by (unfold sa, sb; now rewrite H). rewrite H0. apply eqb_reflx.
    - lia.
    - lia.
    - lia.
    - lia.
  Qed.
End Float.

Lemma prim_eq_spec p a b : pbits_ok p a = true -> pbits_ok p b = true -> prim_eq p a b = true <-> comp_same p a b.
Proof.
  unfold pbits_ok. intros Ha Hb. apply N.ltb_lt in Ha, Hb. destruct p; cbn [prim_eq comp_same psize] in *; try apply N.eqb_eq.
  - apply (fnum_eq_spec 8 23 eq_refl a b Ha Hb).
  - apply (fnum_eq_spec 11 52 eq_refl a b Ha Hb).
Qed.

(** ** Vectors *)

Lemma fields_eq_spec p vs1 vs2 : forall fs xs ys, length xs = length fs -> length ys = length fs ->
  Forall (fun x => pbits_ok p x = true) xs -> Forall (fun y => pbits_ok p y = true) ys ->
  Forall2 (fun f x => assoc f vs1 = Some (SBits x)) fs xs -> Forall2 (fun f y => assoc f vs2 = Some (SBits y)) fs ys ->
  exists b, fields_eq p fs (SRec vs1) (SRec vs2) = Some b /\ (b = true <-> Forall2 (comp_same p) xs ys).
Proof.
  induction fs as [|f fs IH]; intros [|x xs] [|y ys] Lx Ly Bx By Fx Fy; try discriminate; cbn [fields_eq].
  - exists true. split; [reflexivity|]. split; [constructor|reflexivity].
  - inversion Bx; subst. inversion By; subst. inversion Fx; subst. inversion Fy; subst.
    cbn [length] in *. destruct (IH xs ys) as [b [E H]]; try assumption; try lia.
    unfold sfield at 1 2. match goal with A : assoc f vs1 = _, B : assoc f vs2 = _ |- _ => rewrite A, B end. rewrite E.
    eexists. split; [reflexivity|]. rewrite andb_true_iff, H. rewrite prim_eq_spec by assumption.
    split; [intros [? ?]; now constructor|intros X; inversion X; now split].
Qed.

Lemma vec_val_fields (fs : list string) : NoDup fs -> forall xs, length xs = length fs ->
  Forall2 (fun f x => assoc f (combine fs (map SBits xs)) = Some (SBits x)) fs xs.
Proof.
  induction fs as [|f fs IH]; intros ND [|x xs] L; try discriminate; [constructor|].
  cbn [map combine]. inversion ND; subst. constructor.
  - unfold assoc. cbn [find fst]. rewrite String.eqb_refl. reflexivity.
  - assert (IH' := IH H2 xs ltac:(cbn [length] in L; lia)). clear - IH' H1.
    set (vs := combine fs (map SBits xs)) in *. clearbody vs.
    induction IH' as [|g y gs ys E _ IHs]; constructor.
    + unfold assoc. cbn [find fst]. destruct (String.eqb_spec g f) as [->|]; [exfalso; apply H1; now left|exact E].
    + apply IHs. intros X. apply H1. now right.
Qed.

Lemma vectors140_facts r : In r vectors140 ->
  NoDup (vr_fields r) /\ find (fun q => String.eqb (vr_name r) (vr_name q)) vectors140 = Some r
  /\ sty_eqb (vec_sty L140 r) (vec_sty L140 r) = true /\ find_std L140 (vr_name r) = Some (vec_sty L140 r).
Proof.
  intros H. unfold vectors140 in H. cbn [In] in H.
  repeat (destruct H as [<-|H]; [split; [repeat constructor; cbn; intuition congruence|repeat split; vm_compute; reflexivity]|]). contradiction.
Qed.

(** C67.  [==] on the std140 vector types compares component by component: integers and booleans
    by their words; floating-point numbers by value, so that the two zeros are equal and NaN is
    unequal to everything. *)
Lemma C67_vector_equality_proof : forall r xs ys, In r vectors140 ->
  length xs = length (vr_fields r) -> length ys = length (vr_fields r) ->
  Forall (fun x => pbits_ok (vr_prim r) x = true) xs -> Forall (fun y => pbits_ok (vr_prim r) y = true) ys ->
  exists b, std_eq (vec_sty L140 r) (vec_of r xs) (vec_of r ys) = Some b
    /\ (b = true <-> Forall2 (comp_same (vr_prim r)) xs ys).
Proof.
  intros r xs ys Hr Lx Ly Bx By. destruct (vectors140_facts r Hr) as [ND [F [S _]]].
  unfold std_eq. unfold vec_sty at 1. rewrite F. rewrite S. unfold vec_of.
  apply fields_eq_spec; try assumption; now apply vec_val_fields.
Qed.

Lemma comp_same_refl p x : comp_same p x x <-> ~ comp_nan p x.
Proof. destruct p; cbn; unfold float_same; tauto. Qed.

Lemma comp_same_eq p x y : comp_same p x y -> ~ comp_fzero p x -> x = y.
Proof. destruct p; cbn; unfold float_same; tauto. Qed.

Lemma comp_same_sym p x y : comp_same p x y -> comp_same p y x.
Proof. destruct p; cbn; unfold float_same; try congruence; intros [? [? [->|[? ?]]]]; tauto. Qed.

Lemma comp_same_trans p x y z : comp_same p x y -> comp_same p y z -> comp_same p x z.
Proof. destruct p; cbn; unfold float_same; try congruence; intros [? [? [->|[? ?]]]] [? [? [<-|[? ?]]]]; tauto. Qed.

Lemma F2_refl {A} (P : A -> A -> Prop) xs : Forall2 P xs xs <-> Forall (fun x => P x x) xs.
Proof. induction xs; split; intros H; inversion H; subst; constructor; tauto. Qed.
Lemma F2_sym {A} (P : A -> A -> Prop) (HP : forall x y, P x y -> P y x) xs ys : Forall2 P xs ys -> Forall2 P ys xs.
Proof. induction 1; constructor; auto. Qed.
Lemma F2_trans {A} (P : A -> A -> Prop) (HP : forall x y z, P x y -> P y z -> P x z) xs ys : Forall2 P xs ys -> forall zs, Forall2 P ys zs -> Forall2 P xs zs.
Proof. induction 1; intros zs H1; inversion H1; subst; constructor; eauto. Qed.

Lemma Some_inj {A} (a b : A) : Some a = Some b -> a = b.
Proof. congruence. Qed.

Lemma vec_of_inj r xs ys : length xs = length (vr_fields r) -> length ys = length (vr_fields r) -> vec_of r xs = vec_of r ys -> xs = ys.
Proof.
  unfold vec_of. intros Lx Ly E. injection E as E. revert xs ys Lx Ly E.
  induction (vr_fields r) as [|f fs IH]; intros [|x xs] [|y ys] Lx Ly E; try discriminate; [reflexivity|].
  cbn in E. injection E as -> E. f_equal. apply IH; cbn in *; auto.
Qed.

Lemma vec_of_has_sty r xs : length xs = length (vr_fields r) -> Forall (fun x => pbits_ok (vr_prim r) x = true) xs ->
  has_sty (vec_sty L140 r) (vec_of r xs) = true.
Proof.
  unfold vec_of, vec_sty. cbn [has_sty]. revert xs.
  induction (vr_fields r) as [|f fs IH]; intros [|x xs] Lx Bx; try discriminate; [reflexivity|].
  cbn [map combine]. inversion Bx; subst. rewrite String.eqb_refl. cbn [has_sty andb]. rewrite H1. cbn [andb]. apply IH; [cbn in Lx; auto|assumption].
Qed.

(** C67.  [==] is symmetric and transitive, and reflexive exactly on vectors without NaN. *)
Lemma C67_equivalence_proof : forall r xs ys zs, In r vectors140 ->
  Forall (fun vs => length vs = length (vr_fields r) /\ Forall (fun x => pbits_ok (vr_prim r) x = true) vs) [xs; ys; zs] ->
  let eq a b := std_eq (vec_sty L140 r) (vec_of r a) (vec_of r b) in
  eq xs ys = eq ys xs
  /\ (eq xs ys = Some true -> eq ys zs = Some true -> eq xs zs = Some true)
  /\ (eq xs xs = Some true <-> Forall (fun x => ~ comp_nan (vr_prim r) x) xs).
Proof.
  intros r xs ys zs Hr H eq. inversion H as [|? ? [Lx Bx] H1]; subst. inversion H1 as [|? ? [Ly By] H2]; subst. inversion H2 as [|? ? [Lz Bz] _]; subst. clear H H1 H2.
  assert (K : forall a b, length a = length (vr_fields r) -> length b = length (vr_fields r) ->
    Forall (fun x => pbits_ok (vr_prim r) x = true) a -> Forall (fun y => pbits_ok (vr_prim r) y = true) b ->
    exists e, eq a b = Some e /\ (e = true <-> Forall2 (comp_same (vr_prim r)) a b)).
  { intros a b La Lb Ba Bb. exact (C67_vector_equality_proof r a b Hr La Lb Ba Bb). }
  split; [|split].
  - destruct (K xs ys Lx Ly Bx By) as [e [E1 E2]], (K ys xs Ly Lx By Bx) as [e' [E1' E2']]. rewrite E1, E1'. f_equal.
    apply eq_true_iff_eq. rewrite E2, E2'. split; apply F2_sym; intros; now apply comp_same_sym.
  - destruct (K xs ys Lx Ly Bx By) as [e [E1 E2]], (K ys zs Ly Lz By Bz) as [e' [E1' E2']], (K xs zs Lx Lz Bx Bz) as [e'' [E1'' E2'']].
    rewrite E1, E1', E1''. intros X Y. injection X as ->. injection Y as ->. f_equal. apply E2''. eapply F2_trans; [intros; eapply comp_same_trans; eassumption|now apply E2|now apply E2'].
  - destruct (K xs xs Lx Lx Bx Bx) as [e [E1 E2]]. rewrite E1. rewrite F2_refl in E2.
    assert (R : Forall (fun x => comp_same (vr_prim r) x x) xs <-> Forall (fun x => ~ comp_nan (vr_prim r) x) xs).
    { split; apply Forall_impl; intros a; apply comp_same_refl. }
    rewrite <- R, <- E2. split; [intros X; now injection X|now intros ->].
Qed.

(** C67.  Vectors that are equal and have no floating-point zero have the same bytes; vectors
    with the same bytes and no NaN are equal.  So for integer and boolean vectors [==] is
    equality of the bytes. *)
Lemma C67_equality_and_bytes_proof : forall tg r xs ys, target_ok tg = true -> In r vectors140 ->
  length xs = length (vr_fields r) -> length ys = length (vr_fields r) ->
  Forall (fun x => pbits_ok (vr_prim r) x = true) xs -> Forall (fun y => pbits_ok (vr_prim r) y = true) ys ->
  let t := vec_sty L140 r in
  (std_eq t (vec_of r xs) (vec_of r ys) = Some true -> Forall (fun x => ~ comp_fzero (vr_prim r) x) xs ->
     bytes_of tg t (vec_of r xs) = bytes_of tg t (vec_of r ys))
  /\ (bytes_of tg t (vec_of r xs) = bytes_of tg t (vec_of r ys) -> Forall (fun x => ~ comp_nan (vr_prim r) x) xs ->
     std_eq t (vec_of r xs) (vec_of r ys) = Some true).
Proof.
  intros tg r xs ys Htg Hr Lx Ly Bx By t.
  destruct (C67_vector_equality_proof r xs ys Hr Lx Ly Bx By) as [e [E1 E2]]. fold t in E1. split.
  - intros X Z. rewrite E1 in X. injection X as ->. replace ys with xs; [reflexivity|].
    assert (F : Forall2 (comp_same (vr_prim r)) xs ys) by (now apply E2). clear - F Z.
    induction F as [|x y xs ys P _ IH]; [reflexivity|]. inversion Z; subst. f_equal; [eapply comp_same_eq; eassumption|auto].
  - intros X Z. destruct (vectors140_facts r Hr) as [_ [_ [_ Ef]]].
    pose proof (good_nopad _ _ _ (table_good tg L140 _ _ Htg Ef)) as G. fold t in G.
    pose proof (vec_of_has_sty r xs Lx Bx) as Hx. pose proof (vec_of_has_sty r ys Ly By) as Hy. fold t in Hx, Hy.
    rewrite (bytes_of_flat tg t _ G Hx), (bytes_of_flat tg t _ G Hy) in X. apply Some_inj in X.
    pose proof (from_bytes_flat tg t _ G Hx) as P. pose proof (from_bytes_flat tg t _ G Hy) as Q. rewrite X in P. rewrite P in Q.
    apply Some_inj in Q. apply (vec_of_inj r xs ys Lx Ly) in Q. subst ys. rewrite E1. f_equal. apply E2. apply F2_refl.
    revert Z. apply Forall_impl. intros a. apply comp_same_refl.
Qed.

(** C67.  [==] is neither equality of the bytes nor of what a shader sees: a vector with NaN is
    not equal to itself, vectors that differ in the sign of a zero are equal, and boolean
    vectors whose components are the same for a shader can be unequal. *)
Lemma C67_equality_is_sameness_refuted_proof : forall tg, target_ok tg = true ->
  exists v3 b2, In v3 vectors140 /\ In b2 vectors140 /\ vr_glsl v3 = "vec3" /\ vr_glsl b2 = "bvec2"
  /\ std_eq (vec_sty L140 v3) (vec_of v3 [2143289344; 0; 0]) (vec_of v3 [2143289344; 0; 0]) = Some false
  /\ std_eq (vec_sty L140 v3) (vec_of v3 [0; 0; 0]) (vec_of v3 [2147483648; 0; 0]) = Some true
  /\ bytes_of tg (vec_sty L140 v3) (vec_of v3 [0; 0; 0]) <> bytes_of tg (vec_sty L140 v3) (vec_of v3 [2147483648; 0; 0])
  /\ std_eq (vec_sty L140 b2) (vec_of b2 [1; 0]) (vec_of b2 [2; 0]) = Some false
  /\ map bool_from_Bool [1; 0] = map bool_from_Bool [2; 0].
Proof.
  intros tg Htg. exists (VecRow 16 "vec3" "Vec3" PF32 ["x"; "y"; "z"]), (VecRow 8 "bvec2" "BVec2" PBool ["x"; "y"]).
  set (v3 := VecRow 16 "vec3" "Vec3" PF32 ["x"; "y"; "z"]).
  assert (I3 : In v3 vectors140) by (right; now left).
  split; [exact I3|]. split; [cbn; intuition|]. split; [reflexivity|]. split; [reflexivity|]. split; [vm_compute; reflexivity|]. split; [vm_compute; reflexivity|].
  split; [|split; vm_compute; reflexivity].
  intros X. destruct (vectors140_facts v3 I3) as [_ [_ [_ Ef]]].
  pose proof (good_nopad _ _ _ (table_good tg L140 _ _ Htg Ef)) as G.
  assert (Hx : has_sty (vec_sty L140 v3) (vec_of v3 [0; 0; 0]) = true) by reflexivity.
  assert (Hy : has_sty (vec_sty L140 v3) (vec_of v3 [2147483648; 0; 0]) = true) by reflexivity.
  rewrite (bytes_of_flat tg _ _ G Hx), (bytes_of_flat tg _ _ G Hy) in X. apply Some_inj in X.
  pose proof (from_bytes_flat tg _ _ G Hx) as P. pose proof (from_bytes_flat tg _ _ G Hy) as Q. rewrite X in P. rewrite P in Q. discriminate.
Qed.

(** C67: two dvec4 values, equal although one has a negative zero; one with another last component. *)
Lemma C67_ex_proof :
  let r := VecRow 32 "dvec4" "DVec4" PF64 ["x"; "y"; "z"; "w"] in
  let a := [0; 4607182418800017408; 9218868437227405312; 5] in
  let b := [9223372036854775808; 4607182418800017408; 9218868437227405312; 5] in
  let c := [0; 4607182418800017408; 9218868437227405312; 6] in
  In r vectors140 /\ Forall (fun vs => length vs = length (vr_fields r) /\ Forall (fun x => pbits_ok (vr_prim r) x = true) vs) [a; b; c]
  /\ std_eq (vec_sty L140 r) (vec_of r a) (vec_of r b) = Some true
  /\ std_eq (vec_sty L140 r) (vec_of r a) (vec_of r c) = Some false
  /\ fdecode 8 23 1065353216 = FFin (2 ^ 149)%Z /\ fdecode 8 23 3212836864 = FFin (- 2 ^ 149)%Z.
Proof. cbv zeta. split; [cbn; intuition|]. split; [repeat constructor|]. repeat split; vm_compute; reflexivity. Qed.
