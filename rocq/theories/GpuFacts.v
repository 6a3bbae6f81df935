(** * Shader stores: lemmas *)

From Coq Require Import NArith String Bool List Lia ZArith.
From Coq Require Import ZifyBool ZifyN ZifyNat.
From Coq Require Import Strings.Byte.
From Verif Require Import Rust Internal Prims Derive Host SpecGlsl SpecHost SpecTypes SpecBuf SpecUse SpecGpu
  Arith RustFacts DeriveFacts TypeFacts HostFacts GlslFacts Proofs_Types Proofs_Use.
Import ListNotations.
Local Open Scope string_scope.
Local Open Scope N_scope.

(** ** types without alignment 0 *)
Fixpoint gpos (l : lay) (g : gty) : bool :=
  (0 <? base_align l g) &&
  match g with
  | GArr e _ => gpos l e
  | GStruct _ fs => forallb (fun nf => gpos l (snd nf)) fs
  | _ => true
  end.

Lemma gpos_align l g : gpos l g = true -> 0 < base_align l g.
Proof. destruct g; cbn [gpos]; rewrite andb_true_iff, N.ltb_lt; tauto. Qed.

Lemma scalar_size_pos s : 0 < scalar_size s.
Proof. destruct s; reflexivity. Qed.
Lemma vec_align_pos s n : 0 < vec_align s n.
Proof. pose proof (scalar_size_pos s). destruct n as [|[|[|n]]]; cbn [vec_align]; lia. Qed.
Lemma vec4_round_pos l a : 0 < a -> 0 < vec4_round l a.
Proof.
  intros H. destruct l; cbn [vec4_round]; [|assumption].
  pose proof (round_up_ge a 16 ltac:(lia)). lia.
Qed.

Lemma gpos_vecmat l g : is_vecmat g = true -> gpos l g = true /\ gpos l (cgty g) = true.
Proof.
  destruct g; try discriminate; intros _; cbn [gpos cgty base_align]; rewrite !andb_true_r, !N.ltb_lt;
    pose proof scalar_size_pos; pose proof vec_align_pos; pose proof vec4_round_pos; auto.
Qed.

Lemma gpos_of tg : target_ok tg = true -> forall h l t g, out_ty tg l h = Some t -> gty_of h = Some g -> gpos l g = true.
Proof.
  intros Htg. induction h as [p| |r s fs IH|r m IH|h IH|n fs IH|l' h IH] using hty_ind'; intros l t g Ho Hg.
  - cbn [gty_of] in Hg. destruct (prim_gscalar p) as [s|]; [|discriminate]. injection Hg as <-.
    cbn [gpos base_align]. rewrite andb_true_r. apply N.ltb_lt, scalar_size_pos.
  - injection Hg as <-. reflexivity.
  - destruct (gty_of_HEasy _ _ _ _ Hg) as [gs [Eg _]].
    destruct (easy_facts _ _ _ _ _ _ Ho) as [outs [ln [n [al [decl [E1 _]]]]]].
    destruct (table_shape tg l s g t Htg Eg E1) as [? [? [? [_ [_ [_ [Hvm _]]]]]]].
    now apply gpos_vecmat.
  - cbn [out_ty gty_of] in *. eauto.
  - discriminate.
  - destruct (size_align_glsl tg Htg _ l t g Ho Hg) as [_ [_ [k Hk]]].
    destruct (struct_members tg l n fs t g Htg Ho Hg) as [outs [gs [E [Egs [-> _]]]]].
    cbn [gpos]. apply andb_true_iff. split.
    + apply N.ltb_lt. rewrite Hk. apply N.neq_0_lt_0, N.pow_nonzero. lia.
    + apply forallb_forall. intros [f gf] Hin. cbn [snd].
      apply gfields_Forall2 in Egs. apply out_fields_Forall2 in E.
      clear - IH Egs E Hin. revert outs E Hin. induction Egs as [|[f1 h1] [f2 g2] fs gs [A B] _ IHe]; intros outs E Hin; [contradiction|].
      inversion E as [|? [f3 t3] ? outs' [C D] E']; subst. inversion IH; subst. cbn [fst snd] in *.
      destruct Hin as [Hin|Hin]; [injection Hin as -> ->; eauto|eauto].
  - destruct (out_ty_HOut _ _ _ _ _ Ho) as [A _]. cbn [gty_of] in Hg. eauto.
Qed.

(** ** reading depends only on the bytes of the variable *)
Definition agree (lo hi : N) (a b : list byte) : Prop :=
  len a = len b /\ forall i, lo <= i < hi -> byte_at a i = byte_at b i.

Lemma agree_sub lo hi lo' hi' a b : agree lo hi a b -> lo <= lo' -> hi' <= hi -> agree lo' hi' a b.
Proof. intros [H1 H2] ? ?. split; [assumption|]. intros i Hi. apply H2. lia. Qed.
Lemma agree_sym lo hi a b : agree lo hi a b -> agree lo hi b a.
Proof. intros [H1 H2]. split; [now symmetry|]. intros i Hi. symmetry. now apply H2. Qed.

Lemma read_at_agree_half a b off n c : agree off (off + n) a b -> read_at a off n = Some c -> read_at b off n = Some c.
Proof.
  intros [H1 H2] H. pose proof (read_at_len _ _ _ _ H) as Hl. rewrite <- Hl in H |- *.
  apply read_at_bytes in H. apply read_at_bytes. destruct H as [A B]. split; [congruence|].
  intros i Hi. rewrite <- H2 by lia. now apply B.
Qed.
Lemma read_at_agree a b off n : agree off (off + n) a b -> read_at a off n = read_at b off n.
Proof.
  intros H. destruct (read_at a off n) as [c|] eqn:E.
  - symmetry. eapply read_at_agree_half; eassumption.
  - destruct (read_at b off n) as [d|] eqn:E'; [|reflexivity].
    pose proof (read_at_agree_half b a off n d (agree_sym _ _ _ _ H) E'). congruence.
Qed.

Lemma strided_agree rd rd' stride n : forall off,
  (forall k, (k < n)%nat -> rd (off + N.of_nat k * stride) = rd' (off + N.of_nat k * stride)) ->
  gread_strided rd off stride n = gread_strided rd' off stride n.
Proof.
  induction n as [|n IH]; intros off H; [reflexivity|]. cbn [gread_strided].
  pose proof (H 0%nat ltac:(lia)) as H0. replace (off + N.of_nat 0 * stride) with off in H0 by lia.
  rewrite H0, IH; [reflexivity|]. intros k Hk.
  replace (off + stride + N.of_nat k * stride) with (off + N.of_nat (S k) * stride) by lia. apply H. lia.
Qed.

Lemma cstride_ge l g : is_vecmat g = true -> gsize l (cgty g) <= cstride l g /\ N.of_nat (ncomps g) * cstride l g = gsize l g.
Proof.
  destruct g; try discriminate; intros _; cbn [cgty gsize cstride ncomps]; split; try lia.
  unfold col_stride. apply round_up_ge, vec4_round_pos, vec_align_pos.
Qed.

Lemma comp_end l g k : is_vecmat g = true -> (k < ncomps g)%nat -> N.of_nat k * cstride l g + gsize l (cgty g) <= gsize l g.
Proof.
  intros Hv Hk. destruct (cstride_ge l g Hv) as [H1 H2]. rewrite <- H2.
  assert (N.of_nat (S k) * cstride l g <= N.of_nat (ncomps g) * cstride l g) by (apply N.mul_le_mono_r; lia). lia.
Qed.

Lemma scalar_agree tg s a b off : agree off (off + scalar_size s) a b -> gread_scalar tg s a off = gread_scalar tg s b off.
Proof. intros H. unfold gread_scalar. now rewrite (read_at_agree _ _ _ _ H). Qed.

Lemma vec_agree tg s n a b off : agree off (off + N.of_nat n * scalar_size s) a b -> gread_vec tg s n a off = gread_vec tg s n b off.
Proof.
  intros H. unfold gread_vec. rewrite (strided_agree _ (gread_scalar tg s b)); [reflexivity|].
  intros k Hk. apply scalar_agree. eapply agree_sub; [exact H|lia|].
  assert (N.of_nat (S k) * scalar_size s <= N.of_nat n * scalar_size s) by (apply N.mul_le_mono_r; lia). lia.
Qed.

Lemma gmembers_cons l f g fs : gmembers l ((f, g) :: fs) = (base_align l g, gsize l g) :: gmembers l fs.
Proof. reflexivity. Qed.

Lemma members_end_ge l fs : forallb (fun nf => gpos l (snd nf)) fs = true -> forall cur, cur <= members_end cur (gmembers l fs).
Proof.
  induction fs as [|[f g] fs IH]; intros H cur; [cbn; lia|]. cbn [forallb snd] in H. apply andb_true_iff in H. destruct H as [H1 H2].
  rewrite gmembers_cons. cbn [members_end]. specialize (IH H2 (round_up cur (base_align l g) + gsize l g)).
  pose proof (round_up_ge cur _ (gpos_align _ _ H1)). lia.
Qed.

Lemma gsize_struct l n fs : gsize l (GStruct n fs) = round_up (members_end 0 (gmembers l fs)) (base_align l (GStruct n fs)).
Proof. reflexivity. Qed.

Lemma gread_agree tg l : forall g a b off, gpos l g = true -> agree off (off + gsize l g) a b -> gread tg l g a off = gread tg l g b off.
Proof.
  fix IH 1. intros [s|s n|s c r|e n|name fs] a b off Hp H.
  - now apply scalar_agree.
  - now apply vec_agree.
  - cbn [gread]. rewrite (strided_agree _ (gread_vec tg s r b)); [reflexivity|].
    intros k Hk. apply vec_agree. pose proof (comp_end l (GMat s c r) k eq_refl Hk) as Hc. cbn [cgty cstride] in Hc. cbn [gsize] in Hc, H.
    eapply agree_sub; [exact H|lia|lia].
  - cbn [gread]. rewrite (strided_agree _ (gread tg l e b)); [reflexivity|].
    cbn [gpos] in Hp. apply andb_true_iff in Hp. destruct Hp as [Hp1 Hp2].
    intros k Hk. apply IH; [assumption|]. cbn [gsize] in H. fold (array_stride l e) in H.
    assert (gsize l e <= array_stride l e) by (apply round_up_ge, vec4_round_pos, gpos_align; assumption).
    assert (N.of_nat (S k) * array_stride l e <= N.of_nat n * array_stride l e) by (apply N.mul_le_mono_r; lia).
    eapply agree_sub; [exact H|lia|lia].
  - rewrite !gread_struct. rewrite gsize_struct in H.
    pose proof (gpos_align _ _ Hp) as Hal. cbn [gpos] in Hp. apply andb_true_iff in Hp. destruct Hp as [_ Hp].
    pose proof (round_up_ge (members_end 0 (gmembers l fs)) _ Hal) as Hge.
    assert (H' : agree (off + 0) (off + members_end 0 (gmembers l fs)) a b) by (eapply agree_sub; [exact H|lia|lia]). clear H Hge Hal.
    enough (E : forall cur, agree (off + cur) (off + members_end cur (gmembers l fs)) a b ->
      gread_fields tg l a off cur fs = gread_fields tg l b off cur fs) by (now rewrite (E 0 H')).
    clear H'. induction fs as [|[f g] fs IHfs]; intros cur H; [reflexivity|].
    cbn [forallb snd] in Hp. apply andb_true_iff in Hp. destruct Hp as [Hp1 Hp2].
    rewrite gmembers_cons in H. cbn [members_end] in H. cbn [gread_fields]. cbn zeta.
    pose proof (round_up_ge cur _ (gpos_align _ _ Hp1)).
    pose proof (members_end_ge l fs Hp2 (round_up cur (base_align l g) + gsize l g)).
    rewrite (IH g a b), (IHfs Hp2); [reflexivity| |assumption|].
    + eapply agree_sub; [exact H|lia|lia].
    + eapply agree_sub; [exact H|lia|lia].
Qed.

(** ** parts lie inside *)
Lemma member_within l f gf : forall fs cur o, forallb (fun nf => gpos l (snd nf)) fs = true ->
  assoc f (combine (map fst fs) (member_offsets cur (gmembers l fs))) = Some o -> assoc f fs = Some gf ->
  cur <= o /\ o + gsize l gf <= members_end cur (gmembers l fs).
Proof.
  induction fs as [|[f1 g1] fs IH]; intros cur o Hp Ho Hf; [discriminate|].
  cbn [forallb snd] in Hp. apply andb_true_iff in Hp. destruct Hp as [Hp1 Hp2].
  rewrite gmembers_cons in *. cbn [map fst member_offsets combine members_end] in *. cbn zeta in Ho.
  rewrite assoc_cons in Ho. rewrite (@assoc_cons gty) in Hf.
  pose proof (round_up_ge cur _ (gpos_align _ _ Hp1)).
  pose proof (members_end_ge l fs Hp2 (round_up cur (base_align l g1) + gsize l g1)).
  destruct (String.eqb f f1).
  - injection Ho as <-. injection Hf as <-. lia.
  - destruct (IH _ _ Hp2 Ho Hf). lia.
Qed.

Lemma index_of_lt f names k : index_of f names = Some k -> (N.to_nat k < length names)%nat.
Proof. intros H. apply index_of_nth in H. apply nth_error_Some. congruence. Qed.

Lemma gpath_vecmat l g f r o g' : is_vecmat g = true -> gpath_offset l g (f :: r) = Some (o, g') ->
  exists k o', index_of f (firstn (ncomps g) comp_names) = Some k /\ (N.to_nat k < ncomps g)%nat
    /\ gpath_offset l (cgty g) r = Some (o', g') /\ o = k * cstride l g + o'.
Proof.
  intros Hv H. assert (G : exists k o', index_of f (firstn (ncomps g) comp_names) = Some k
    /\ gpath_offset l (cgty g) r = Some (o', g') /\ o = k * cstride l g + o').
  { destruct g; try discriminate Hv; cbn [gpath_offset] in H; cbn [ncomps cgty cstride].
    - destruct (index_of f (firstn n comp_names)) as [k|]; [|discriminate].
      destruct (gpath_offset l (GScalar s) r) as [[o' g'']|] eqn:E; [|discriminate]. injection H as <- <-. eauto.
    - destruct (index_of f (firstn cols comp_names)) as [k|]; [|discriminate].
      destruct (gpath_offset l (GVec s rows) r) as [[o' g'']|] eqn:E; [|discriminate]. injection H as <- <-. eauto. }
  destruct G as [k [o' [A [B C]]]]. exists k, o'. repeat (split; [assumption|]).
  split; [|auto]. apply index_of_lt in A. rewrite firstn_length in A. lia.
Qed.

Lemma gpath_struct l n fs f r o g' : gpath_offset l (GStruct n fs) (f :: r) = Some (o, g') ->
  exists of gf o', assoc f (combine (map fst fs) (goffsets l fs)) = Some of /\ assoc f fs = Some gf
    /\ gpath_offset l gf r = Some (o', g') /\ o = of + o'.
Proof.
  cbn [gpath_offset]. destruct (assoc f (combine _ _)) as [of|]; [|discriminate]. destruct (assoc f fs) as [gf|]; [|discriminate].
  destruct (gpath_offset l gf r) as [[o' g'']|] eqn:E; [|discriminate]. intros H. injection H as <- <-. exists of, gf, o'. auto.
Qed.

Lemma gpath_shape l g f r o g' : gpath_offset l g (f :: r) = Some (o, g') ->
  is_vecmat g = true \/ exists n fs, g = GStruct n fs.
Proof. destruct g; try discriminate; eauto. Qed.

Lemma forallb_assoc {A} (P : A -> bool) (fs : list (string * A)) f a :
  forallb (fun nf => P (snd nf)) fs = true -> assoc f fs = Some a -> P a = true.
Proof. intros H E. rewrite forallb_forall in H. apply (H (f, a)). now apply assoc_in. Qed.

Lemma path_within l path : forall g o g', gpos l g = true -> gpath_offset l g path = Some (o, g') ->
  o + gsize l g' <= gsize l g /\ gpos l g' = true.
Proof.
  induction path as [|f r IH]; intros g o g' Hp H.
  - injection H as <- <-. split; [lia|assumption].
  - destruct (gpath_shape _ _ _ _ _ _ H) as [Hv|[n [fs ->]]].
    + destruct (gpath_vecmat _ _ _ _ _ _ Hv H) as [k [o' [_ [Hk [E ->]]]]].
      destruct (gpos_vecmat l g Hv) as [_ Hc]. destruct (IH _ _ _ Hc E) as [A B]. split; [|assumption].
      pose proof (comp_end l g _ Hv Hk). rewrite N2Nat.id in *. lia.
    + destruct (gpath_struct _ _ _ _ _ _ _ H) as [of [gf [o' [Eo [Ef [E ->]]]]]].
      pose proof (gpos_align _ _ Hp) as Hal. cbn [gpos] in Hp. apply andb_true_iff in Hp. destruct Hp as [_ Hp].
      destruct (IH _ _ _ (forallb_assoc (gpos l) _ _ _ Hp Ef) E) as [A B]. split; [|assumption].
      destruct (member_within l f gf fs 0 of Hp Eo Ef). rewrite gsize_struct.
      pose proof (round_up_ge (members_end 0 (gmembers l fs)) _ Hal). lia.
Qed.

(** ** assignment on GLSL values *)
Fixpoint put_nth {A} (k : nat) (y : A) (xs : list A) : list A :=
  match xs, k with
  | [], _ => []
  | _ :: r, O => y :: r
  | x :: r, S k' => x :: put_nth k' y r
  end.

Fixpoint gset (x : gval) (path : list string) (y : gval) : option gval :=
  match path with
  | [] => Some y
  | f :: r =>
    match x with
    | GVStruct xs =>
      match assoc f xs with
      | Some z => match gset z r y with Some z' => Some (GVStruct (put f z' xs)) | None => None end
      | None => None
      end
    | GVVec xs | GVMat xs =>
      match index_of f (firstn (length xs) comp_names) with
      | Some k =>
        match nth_error xs (N.to_nat k) with
        | Some z => match gset z r y with
                    | Some z' => Some (match x with GVVec _ => GVVec (put_nth (N.to_nat k) z' xs)
                                       | _ => GVMat (put_nth (N.to_nat k) z' xs) end)
                    | None => None end
        | None => None
        end
      | None => None
      end
    | _ => None
    end
  end.

Lemma gset_wrap g xs f r y : is_vecmat g = true ->
  gset (gwrap g xs) (f :: r) y =
  match index_of f (firstn (length xs) comp_names) with
  | Some k => match nth_error xs (N.to_nat k) with
              | Some z => match gset z r y with Some z' => Some (gwrap g (put_nth (N.to_nat k) z' xs)) | None => None end
              | None => None end
  | None => None
  end.
Proof. destruct g; try discriminate; reflexivity. Qed.

Lemma put_nth_length {A} (y : A) xs : forall k, length (put_nth k y xs) = length xs.
Proof. induction xs as [|x xs IH]; intros [|k]; cbn [put_nth length]; auto. Qed.
Lemma put_nth_same {A} (y : A) xs : forall k, (k < length xs)%nat -> nth_error (put_nth k y xs) k = Some y.
Proof. induction xs as [|x xs IH]; intros [|k] H; cbn [put_nth length nth_error] in *; try lia; auto. apply IH. lia. Qed.
Lemma put_nth_other {A} (y : A) xs : forall k j, k <> j -> nth_error (put_nth k y xs) j = nth_error xs j.
Proof. induction xs as [|x xs IH]; intros [|k] [|j] H; cbn [put_nth nth_error]; try congruence; auto. Qed.

Lemma gread_strided_inv rd stride n : forall off xs, gread_strided rd off stride n = Some xs ->
  length xs = n /\ forall k x, nth_error xs k = Some x -> rd (off + N.of_nat k * stride) = Some x.
Proof.
  induction n as [|n IH]; intros off xs H; cbn [gread_strided] in H.
  - injection H as <-. split; [reflexivity|]. intros [|k] x Hk; discriminate.
  - destruct (rd off) as [v|] eqn:E; [|discriminate]. destruct (gread_strided rd (off + stride) stride n) as [vs|] eqn:E'; [|discriminate].
    injection H as <-. destruct (IH _ _ E') as [A B]. split; [cbn [length]; congruence|].
    intros [|k] x Hk; cbn [nth_error] in Hk.
    + injection Hk as <-. now replace (off + N.of_nat 0 * stride) with off by lia.
    + replace (off + N.of_nat (S k) * stride) with (off + stride + N.of_nat k * stride) by lia. now apply B.
Qed.

Lemma stored_agree tg l g x off buf buf' lo hi : stored tg l g x off buf buf' ->
  hi <= off \/ off + gsize l g <= lo -> agree lo hi buf' buf.
Proof. intros [H1 [_ H3]] H. split; [assumption|]. intros i Hi. apply H3. lia. Qed.

Lemma assoc_put {A} f (y : A) xs g : assoc g (put f y xs) = if String.eqb g f then match assoc f xs with Some _ => Some y | None => None end else assoc g xs.
Proof.
  induction xs as [|[h x] xs IH]; [now destruct (String.eqb g f)|].
  cbn [put]. rewrite (assoc_cons f). destruct (String.eqb_spec f h) as [->|Hn].
  - rewrite !assoc_cons. destruct (String.eqb g h); reflexivity.
  - rewrite !assoc_cons, IH. destruct (String.eqb_spec g h) as [E|]; [|reflexivity].
    destruct (String.eqb_spec g f) as [E'|]; [congruence|reflexivity].
Qed.
Lemma put_names {A} f (y : A) xs : map fst (put f y xs) = map fst xs.
Proof. induction xs as [|[h x] xs IH]; [reflexivity|]. cbn [put]. destruct (String.eqb f h); cbn [map fst]; congruence. Qed.

Lemma fields_put tg l buf buf' off f gf x' o' g' y' r : forall fs cur of xs,
  forallb (fun nf => gpos l (snd nf)) fs = true ->
  assoc f (combine (map fst fs) (member_offsets cur (gmembers l fs))) = Some of -> assoc f fs = Some gf ->
  gread_fields tg l buf off cur fs = Some xs ->
  o' + gsize l g' <= gsize l gf -> stored tg l g' x' (off + (of + o')) buf buf' ->
  (forall y, gread tg l gf buf (off + of) = Some y -> gset y r x' = Some y' /\ gread tg l gf buf' (off + of) = Some y') ->
  exists y, assoc f xs = Some y /\ gset y r x' = Some y' /\ gread_fields tg l buf' off cur fs = Some (put f y' xs).
Proof.
  induction fs as [|[f1 g1] fs IH]; intros cur of xs Hp Ho Hf Hr Hw Hst Hy; [discriminate|].
  cbn [forallb snd] in Hp. apply andb_true_iff in Hp. destruct Hp as [Hp1 Hp2].
  rewrite gmembers_cons in *. cbn [map fst member_offsets combine] in *. cbn zeta in Ho.
  rewrite assoc_cons in Ho. rewrite (@assoc_cons gty) in Hf.
  cbn [gread_fields] in *. cbn zeta in *.
  set (o1 := round_up cur (base_align l g1)) in *.
  destruct (gread tg l g1 buf (off + o1)) as [y1|] eqn:E1; [|discriminate].
  destruct (gread_fields tg l buf off (o1 + gsize l g1) fs) as [ys|] eqn:E2; [|discriminate]. injection Hr as <-.
  rewrite assoc_cons. destruct (String.eqb_spec f f1) as [->|Hne].
  - injection Ho as <-. injection Hf as ->. destruct (Hy _ E1) as [A B]. exists y1. split; [reflexivity|]. split; [assumption|].
    rewrite B.
    assert (E : gread_fields tg l buf' off (o1 + gsize l gf) fs = gread_fields tg l buf off (o1 + gsize l gf) fs).
    { assert (Hag : agree (off + (o1 + gsize l gf)) (off + members_end (o1 + gsize l gf) (gmembers l fs)) buf' buf)
        by (eapply stored_agree; [exact Hst|lia]).
      revert Hag. clear - Hp2. generalize (o1 + gsize l gf) as cu. clear o1.
      induction fs as [|[f g] fs IHfs]; intros cu H; [reflexivity|].
      cbn [forallb snd] in Hp2. apply andb_true_iff in Hp2. destruct Hp2 as [Hp1 Hp2].
      rewrite gmembers_cons in H. cbn [members_end] in H. cbn [gread_fields]. cbn zeta.
      pose proof (round_up_ge cu _ (gpos_align _ _ Hp1)).
      pose proof (members_end_ge l fs Hp2 (round_up cu (base_align l g) + gsize l g)).
      rewrite (gread_agree tg l g buf' buf), (IHfs Hp2); [reflexivity| |assumption|].
      + eapply agree_sub; [exact H|lia|lia].
      + eapply agree_sub; [exact H|lia|lia]. }
    rewrite E, E2. cbn [put]. now rewrite String.eqb_refl.
  - destruct (member_within l f gf fs _ _ Hp2 Ho Hf) as [W1 W2].
    destruct (IH _ _ _ Hp2 Ho Hf E2 Hw Hst Hy) as [y [A [B C]]]. exists y. split; [assumption|]. split; [assumption|].
    rewrite (gread_agree tg l g1 buf' buf), E1, C.
    + cbn [put]. apply String.eqb_neq in Hne. now rewrite Hne.
    + assumption.
    + eapply stored_agree; [exact Hst|]. left. lia.
Qed.

(** a store through a path is an assignment to the value *)
Lemma gread_gset tg l x' buf buf' path : forall g off o g' X, gpos l g = true ->
  gpath_offset l g path = Some (o, g') -> gread tg l g buf off = Some X ->
  stored tg l g' x' (off + o) buf buf' ->
  exists X', gset X path x' = Some X' /\ gread tg l g buf' off = Some X'.
Proof.
  induction path as [|f r IH]; intros g off o g' X Hp H Hr Hst.
  - injection H as <- <-. exists x'. split; [reflexivity|]. destruct Hst as [_ [Hst _]]. now rewrite N.add_0_r in Hst.
  - destruct (gpath_shape _ _ _ _ _ _ H) as [Hv|[n [fs ->]]].
    + destruct (gpath_vecmat _ _ _ _ _ _ Hv H) as [k [o' [Hi [Hk [E ->]]]]].
      destruct (gpos_vecmat l g Hv) as [_ Hc].
      rewrite (gread_comps tg l g buf) in Hr by assumption.
      destruct (gread_strided _ _ _ _) as [xs|] eqn:Es in Hr; [|discriminate]. injection Hr as <-.
      destruct (gread_strided_inv _ _ _ _ _ Es) as [Hlen Hxs].
      destruct (nth_error xs (N.to_nat k)) as [z|] eqn:Ez; [|apply nth_error_None in Ez; lia].
      pose proof (Hxs _ _ Ez) as Hz. rewrite N2Nat.id in Hz.
      destruct (IH (cgty g) _ o' g' z Hc E Hz) as [z' [Z1 Z2]]; [now rewrite <- N.add_assoc|].
      rewrite gset_wrap by assumption. rewrite Hlen, Hi, Ez, Z1. eexists. split; [reflexivity|].
      rewrite gread_comps by assumption.
      destruct (path_within l r _ _ _ Hc E) as [W1 _].
      destruct (cstride_ge l g Hv) as [Hcs _].
      rewrite <- Hlen at 1. rewrite <- (put_nth_length z' xs (N.to_nat k)). rewrite (gread_strided_spec _ _ (put_nth (N.to_nat k) z' xs)); [reflexivity|].
      intros j y Hj. destruct (Nat.eq_dec (N.to_nat k) j) as [Ej|Hne].
      * rewrite <- Ej in *. rewrite put_nth_same in Hj by lia. injection Hj as <-. rewrite N2Nat.id. exact Z2.
      * rewrite put_nth_other in Hj by assumption. pose proof (Hxs _ _ Hj) as Hy. rewrite <- Hy.
        apply gread_agree; [assumption|]. eapply stored_agree; [exact Hst|].
        destruct (Nat.lt_ge_cases j (N.to_nat k)).
        -- left. assert (N.of_nat (S j) * cstride l g <= k * cstride l g) by (apply N.mul_le_mono_r; lia). lia.
        -- right. assert ((k + 1) * cstride l g <= N.of_nat j * cstride l g) by (apply N.mul_le_mono_r; lia). lia.
    + destruct (gpath_struct _ _ _ _ _ _ _ H) as [of [gf [o' [Eo [Ef [E ->]]]]]].
      cbn [gpos] in Hp. apply andb_true_iff in Hp. destruct Hp as [_ Hp].
      rewrite gread_struct in Hr. destruct (gread_fields tg l buf off 0 fs) as [xs|] eqn:Er; [|discriminate]. injection Hr as <-.
      pose proof (forallb_assoc (gpos l) _ _ _ Hp Ef) as Hpf. destruct (path_within l r _ _ _ Hpf E) as [W _].
      (* the member is readable *)
      assert (Hm : exists y, gread tg l gf buf (off + of) = Some y).
      { clear - Eo Ef Er. unfold goffsets in Eo. revert Eo Er. generalize 0 as cur. revert xs.
        induction fs as [|[f1 g1] fs IHfs]; intros xs cur Eo Er; [discriminate|].
        rewrite gmembers_cons in Eo. cbn [map fst member_offsets combine] in Eo. cbn zeta in Eo. rewrite assoc_cons in Eo. rewrite (@assoc_cons gty) in Ef.
        cbn [gread_fields] in Er. cbn zeta in Er.
        destruct (gread tg l g1 buf _) as [y1|] eqn:E1; [|discriminate]. destruct (gread_fields tg l buf off _ fs) as [ys|] eqn:E2; [|discriminate].
        destruct (String.eqb f f1); [injection Eo as <-; injection Ef as <-; eauto|]. eapply IHfs; eassumption. }
      destruct Hm as [y Hy].
      destruct (IH gf _ o' g' y Hpf E Hy) as [y' [Y1 Y2]]; [now rewrite <- N.add_assoc|].
      destruct (fields_put tg l buf buf' off f gf x' o' g' y' r fs 0 of xs Hp Eo Ef Er W Hst) as [y2 [A [B C]]].
      { intros y0 Hy0. assert (y0 = y) as -> by congruence. auto. }
      cbn [gset]. rewrite A, B. eexists. split; [reflexivity|]. rewrite gread_struct, C. reflexivity.
Qed.
