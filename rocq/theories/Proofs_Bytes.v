(** * The bytes of a host value, computed from its GLSL value *)

From Coq Require Import NArith String Bool List Lia ZArith PeanoNat.
From Coq Require Import ZifyBool ZifyN ZifyNat.
From Coq Require Import Strings.Byte.
From Verif Require Import Rust Internal Prims Derive Host Rows Buffer SpecGlsl SpecHost SpecTypes SpecBuf SpecUse SpecGpu SpecBytes
  Arith RustFacts DeriveFacts TypeFacts HostFacts GlslFacts PadFacts Proofs_Types Proofs_Use GpuFacts Proofs_Gpu Samples.
Import ListNotations.
Local Open Scope string_scope.
Local Open Scope N_scope.

(** ** booleans stored as 0 or 1 *)

Definition norm_scalar (tg : target) (s : gscalar) (B : list byte) (off : N) : Prop :=
  s = GBool -> forall bs, read_at B off 4 = Some bs -> dec_bytes tg bs <= 1.
Definition norm_strided (P : N -> Prop) (off stride : N) (n : nat) : Prop :=
  forall k, (k < n)%nat -> P (off + N.of_nat k * stride).
Definition norm_vec (tg : target) (s : gscalar) (n : nat) (B : list byte) (off : N) : Prop :=
  norm_strided (norm_scalar tg s B) off (scalar_size s) n.
Fixpoint gnorm (tg : target) (l : lay) (g : gty) (B : list byte) (off : N) {struct g} : Prop :=
  match g with
  | GScalar s => norm_scalar tg s B off
  | GVec s n => norm_vec tg s n B off
  | GMat s c r => norm_strided (norm_vec tg s r B) off (col_stride l s r) c
  | GArr e n => norm_strided (gnorm tg l e B) off (array_stride l e) n
  | GStruct _ fs =>
    (fix go (cur : N) (fs : list (string * gty)) : Prop :=
       match fs with
       | [] => True
       | (_, ft) :: fs' =>
         let o := round_up cur (base_align l ft) in gnorm tg l ft B (off + o) /\ go (o + gsize l ft) fs'
       end) 0 fs
  end.

Fixpoint gnorm_fields (tg : target) (l : lay) (B : list byte) (off cur : N) (fs : list (string * gty)) : Prop :=
  match fs with
  | [] => True
  | (_, ft) :: fs' =>
    let o := round_up cur (base_align l ft) in gnorm tg l ft B (off + o) /\ gnorm_fields tg l B off (o + gsize l ft) fs'
  end.
Lemma gnorm_struct tg l n fs B off : gnorm tg l (GStruct n fs) B off <-> gnorm_fields tg l B off 0 fs.
Proof.
  cbn [gnorm]. generalize 0 as cur. induction fs as [|[f g] fs IH]; intros cur; [reflexivity|].
  cbn [gnorm_fields]. rewrite <- IH. reflexivity.
Qed.
Lemma gnorm_comps tg l g B off : is_vecmat g = true ->
  gnorm tg l g B off <-> norm_strided (gnorm tg l (cgty g) B) off (cstride l g) (ncomps g).
Proof. destruct g; try discriminate; reflexivity. Qed.

Lemma gnorm_fields_spec tg l B off gs : forall cur,
  Forall2 (fun g o => gnorm tg l (snd g) B (off + o)) gs (member_offsets cur (gmembers l gs)) ->
  gnorm_fields tg l B off cur gs.
Proof.
  induction gs as [|[f g] gs IH]; intros cur H; [exact I|].
  rewrite gmembers_cons in H. cbn [member_offsets] in H. inversion H; subst. cbn [gnorm_fields]. cbn zeta. auto.
Qed.

Lemma dec_bool_word tg (b : bool) : dec_bytes tg (enc_prim tg PU32 (if b then 1 else 0)) = if b then 1 else 0.
Proof. apply dec_enc. destruct b; reflexivity. Qed.

(** the conversions only produce the words 0 and 1 for booleans *)
Lemma norm_all tg : target_ok tg = true -> forall h l t g v s B off,
  plain h = true -> out_ty tg l h = Some t -> gty_of h = Some g -> hval_ok tg h v = true ->
  as_std tg l h v = Some s -> read_at B off (size_of tg t) = Some (flat tg t s) -> gnorm tg l g B off.
Proof.
  intros Htg. induction h as [p| |r std fs IH|r m IH|h IH|n fs IH|l' h IH] using hty_ind';
    intros l t g v s B off Hpl Ho Hg Hv Hs Hr.
  - cbn [gty_of plain] in *. destruct p; try discriminate; injection Hg as <-; cbn [gnorm]; intros E; discriminate.
  - cbn [out_ty gty_of] in *. injection Ho as <-. injection Hg as <-. destruct v as [|b| | | |]; try discriminate.
    cbn [as_std] in Hs. injection Hs as <-. cbn [gnorm]. intros _ bs Hbs.
    change (size_of tg (TPrim PBool)) with 4 in Hr. rewrite Hr in Hbs. injection Hbs as <-.
    change (flat tg (TPrim PBool) (SBits (Bool_from_bool b))) with (enc_prim tg PU32 (Bool_from_bool b)).
    replace (Bool_from_bool b) with (if b then 1 else 0) by (now destruct b).
    change (enc_prim tg PBool (if b then 1 else 0)) with (enc_prim tg PU32 (if b then 1 else 0)). rewrite dec_bool_word. destruct b; lia.
  - destruct v as [| |vs| | |]; try discriminate. rewrite hval_ok_easy in Hv.
    destruct (as_std_easy_detail _ _ _ _ _ _ _ Htg Ho Hv) as [outs [inits [ln [n [al [decl [E1 [Et [E2 [Hn [Hnd [Hd [Hconv E3]]]]]]]]]]]]].
    rewrite E3 in Hs. injection Hs as <-.
    destruct (gty_of_HEasy _ _ _ _ Hg) as [gs [G1 [G2 [G3 G4]]]].
    destruct (table_shape tg l std g t Htg G1 E1) as [n' [al' [decl' [T1 [T2 [T3 [T4 [T5 [_ T6]]]]]]]]].
    rewrite T1 in Et. injection Et as <- <- <- <-. subst al'.
    assert (Hgood : good tg l t) by (eapply table_good; eassumption).
    pose proof (good_nopad _ _ _ Hgood) as Hnp0.
    destruct (conv_total tg Htg _ l t Ho) as [Hc1 _].
    destruct (Hc1 (HVRec vs)) as [s' [Q1 [Q2 _]]]; [now rewrite hval_ok_easy|].
    rewrite E3 in Q1. injection Q1 as <-.
    subst t. rewrite nopad_size_of in Hr by assumption. rewrite has_sty_struct in Q2.
    pose proof (nopad_all _ _ _ _ _ Hnp0) as Hnp.
    rewrite flat_struct in Hr. rewrite gnorm_comps by assumption. intros k Hk.
    assert (Hlen : length (firstn (ncomps g) comp_names) = ncomps g).
    { rewrite firstn_length. cbn [comp_names length]. lia. }
    destruct (nth_error (firstn (ncomps g) comp_names) k) as [f|] eqn:Ef; [|apply nth_error_None in Ef; lia].
    destruct (G3 f (nth_error_In _ _ Ef)) as [gc [D3 D4]].
    destruct (Forall2_assoc_r (fun h g => gty_of h = Some g) fs gs f gc (proj1 (gfields_Forall2 _ _) G2) D3) as [hf [Hf D2]].
    apply is_comp_eq in D4. destruct D4 as [-> _].
    destruct (field_at tg decl' (updated decl' inits) 0 f _ (T6 k f Ef) Hnp Q2) as [ft [sf [P1 [P2 [P3 [_ [_ P6]]]]]]].
    destruct (updated_assoc_inv decl' inits f ft sf Hnd (assoc_in _ _ _ P1) P2) as [U|[U _]].
    + destruct (conv_assoc _ _ _ _ _ _ _ _ Hconv U) as [hf' [w [ct [C1 [C2 [C3 [C4 [C5 C6]]]]]]]].
      assert (hf' = hf) by congruence. subst hf'.
      rewrite (Hd f ct (assoc_in _ _ _ C3)) in P1. injection P1 as <-.
      pose proof (proj1 (Forall_forall _ _) IH _ (assoc_in _ _ _ C1)) as IHf. cbn [snd] in IHf.
      apply (IHf l ct (cgty g) w sf); try assumption.
      * cbn [plain] in Hpl. rewrite forallb_forall in Hpl. apply (Hpl _ (assoc_in _ _ _ C1)).
      * apply P6. rewrite N.add_0_r. exact Hr.
    + exfalso. clear -Hconv Hf U. induction Hconv as [|f0 h0 w t s0 fs vs outs ss ? ? ? ? ? _ IHc]; [discriminate|].
      rewrite assoc_cons in Hf. rewrite assoc_cons in U. destruct (String.eqb f f0); [discriminate|auto].
  - cbn [plain out_ty gty_of] in *. destruct v; try discriminate. cbn [hval_ok as_std] in *. eapply IH; eassumption.
  - discriminate.
  - destruct v as [| |vs| | |]; try discriminate. rewrite hval_ok_struct in Hv.
    destruct (as_std_struct_detail _ _ _ _ _ _ Htg Ho Hv) as [outs [inits [E1 [Et [_ [_ [Hconv E3]]]]]]].
    rewrite E3 in Hs. injection Hs as <-.
    destruct (struct_members _ _ _ _ _ _ Htg Ho Hg) as [outs' [gs [E1' [E2 [-> [_ [Hn [Hnd [Hd [HG [Hsz Hpos]]]]]]]]]]].
    rewrite E1 in E1'. injection E1' as <-.
    destruct (conv_total tg Htg _ l t Ho) as [Hc1 _].
    destruct (Hc1 (HVRec vs)) as [s' [Q1 [Q2 _]]]; [now rewrite hval_ok_struct|].
    rewrite E3 in Q1. injection Q1 as <-.
    destruct (derived_props tg l n outs HG) as [Hgood [Hsize _]]. subst t.
    rewrite Hsize in Hr. unfold derived in *. rewrite has_sty_struct in Q2.
    pose proof (nopad_all _ _ _ _ _ (good_nopad _ _ _ Hgood)) as Hnp.
    rewrite flat_struct in Hr. set (decl := derived_fields tg l outs) in *.
    apply gnorm_struct, gnorm_fields_spec. fold (goffsets l gs).
    apply gfields_Forall2 in E2.
    assert (Hsub : forall f gf o, In (f, gf) gs -> assoc f gs = Some gf -> field_pos tg 0 decl f = Some o -> gnorm tg l gf B (off + o)).
    { intros f gf o Hin Ha Hp.
      destruct (Forall2_assoc_r (fun h g => gty_of h = Some g) fs gs f gf E2 Ha) as [hf [Hf D2]].
      destruct (field_at tg decl (updated decl inits) 0 f _ Hp Hnp Q2) as [ft [sf [P1 [P2 [P3 [_ [_ P6]]]]]]].
      destruct (updated_assoc_inv decl inits f ft sf Hnd (assoc_in _ _ _ P1) P2) as [U|[U _]].
      - destruct (conv_assoc _ _ _ _ _ _ _ _ Hconv U) as [hf' [w [ct [C1 [C2 [C3 [C4 [C5 C6]]]]]]]].
        assert (hf' = hf) by congruence. subst hf'.
        rewrite (Hd f ct (assoc_in _ _ _ C3)) in P1. injection P1 as <-.
        pose proof (proj1 (Forall_forall _ _) IH _ (assoc_in _ _ _ C1)) as IHf. cbn [snd] in IHf.
        apply (IHf l ct gf w sf); try assumption.
        + cbn [plain] in Hpl. rewrite forallb_forall in Hpl. apply (Hpl _ (assoc_in _ _ _ C1)).
        + apply P6. rewrite N.add_0_r. exact Hr.
      - exfalso. clear -Hconv Hf U. induction Hconv as [|f0 h0 w t s0 fs vs outs ss ? ? ? ? ? _ IHc]; [discriminate|].
        rewrite assoc_cons in Hf. rewrite assoc_cons in U. destruct (String.eqb f f0); [discriminate|auto]. }
    assert (Hnn : NoDup (map fst gs)).
    { replace (map fst gs) with (map fst fs); [assumption|]. clear -E2. induction E2 as [|? ? ? ? [A _] _ IHE]; [reflexivity|]. cbn [map]. now rewrite A, IHE. }
    clear -Hsub Hpos Hnn.
    assert (G : forall xs os, (forall x, In x xs -> In x gs) ->
      Forall2 (fun g o => field_pos tg 0 decl (fst g) = Some o) xs os -> Forall2 (fun g o => gnorm tg l (snd g) B (off + o)) xs os).
    { intros xs os Hin H. induction H as [|[f gf] o xs os A H IHh]; constructor.
      - cbn [fst snd] in *. assert (In (f, gf) gs) by (apply Hin; now left). apply (Hsub f gf o); auto. now apply assoc_nodup.
      - apply IHh. intros x Hx. apply Hin. now right. }
    apply G; auto.
  - discriminate.
Qed.

(** ** the components a shader reads are the bytes at their places *)

Definition slot_of (p : placement) : N * N := (fst p, len (snd p)).

Definition fits (B : list byte) (ps : list placement) (off : N) (cov : N -> bool) (sl : list (N * N)) : Prop :=
  (forall o c, In (o, c) ps -> read_at B o (len c) = Some c)
  /\ (forall i, cov i = true -> exists o c, In (o, c) ps /\ o <= off + i < o + len c)
  /\ map slot_of ps = sl.

Lemma strided_places B rd (P : N -> Prop) place cov sl stride :
  (forall off x, rd off = Some x -> P off -> exists ps, place x off = Some ps /\ fits B ps off cov (sl off)) ->
  forall n off xs, gread_strided rd off stride n = Some xs -> norm_strided P off stride n ->
  length xs = n /\ exists ps, place_strided place xs off stride = Some ps
    /\ fits B ps off (strided_covers cov stride n) (slots_strided sl off stride n).
Proof.
  intros H n off xs Hx HP.
  assert (G : length xs = n /\ exists ps, place_strided place xs off stride = Some ps
    /\ (forall o c, In (o, c) ps -> read_at B o (len c) = Some c)
    /\ (forall k i, (k < n)%nat -> cov i = true -> exists o c, In (o, c) ps /\ o <= off + N.of_nat k * stride + i < o + len c)
    /\ map slot_of ps = slots_strided sl off stride n).
  { revert off xs Hx HP. induction n as [|n IH]; intros off xs Hx HP; cbn [gread_strided] in Hx.
    - injection Hx as <-. split; [reflexivity|]. exists []. cbn. split; [reflexivity|]. split; [intros ? ? []|].
      split; [intros; lia|reflexivity].
    - destruct (rd off) as [x|] eqn:E; [|discriminate].
      destruct (gread_strided rd (off + stride) stride n) as [r|] eqn:E'; [|discriminate]. injection Hx as <-.
      destruct (H off x E) as [p [P1 [P2 [P3 P4]]]].
      { specialize (HP 0%nat ltac:(lia)). now replace (off + N.of_nat 0 * stride) with off in HP by lia. }
      destruct (IH (off + stride) r E') as [L [q [Q1 [Q2 [Q3 Q4]]]]].
      { intros k Hk. specialize (HP (S k) ltac:(lia)).
        now replace (off + stride + N.of_nat k * stride) with (off + N.of_nat (S k) * stride) by lia. }
      split; [cbn [length]; congruence|]. exists (p ++ q)%list. cbn [place_strided slots_strided].
      rewrite P1, Q1. split; [reflexivity|]. split; [|split].
      + intros o c Hin. apply in_app_or in Hin. destruct Hin; auto.
      + intros [|k] i Hk Hi.
        * destruct (P3 i Hi) as [o [c [A1 A2]]]. exists o, c. split; [apply in_or_app; now left|lia].
        * destruct (Q3 k i ltac:(lia) Hi) as [o [c [A1 A2]]]. exists o, c. split; [apply in_or_app; now right|lia].
      + rewrite map_app. congruence. }
  destruct G as [L [ps [G1 [G2 [G3 G4]]]]]. split; [assumption|]. exists ps. split; [assumption|]. split; [assumption|]. split; [|assumption].
  intros i Hi. unfold strided_covers in Hi. apply existsb_exists in Hi. destruct Hi as [k [Hk Hi]].
  apply in_seq in Hk. apply andb_true_iff in Hi. destruct Hi as [H1 H2]. apply N.leb_le in H1.
  destruct (G3 k _ ltac:(lia) H2) as [o [c [A1 A2]]]. exists o, c. split; [assumption|lia].
Qed.

Lemma scalar_places tg s B off x : gread_scalar tg s B off = Some x -> norm_scalar tg s B off ->
  exists ps, place_scalar tg s x off = Some ps /\ fits B ps off (fun j => j <? scalar_size s) (slot_scalar s off).
Proof.
  unfold gread_scalar. intros H HN. destruct (read_at B off (scalar_size s)) as [bs|] eqn:E; [|discriminate].
  injection H as <-. pose proof (read_at_len _ _ _ _ E) as L.
  assert (W : scalar_bytes tg s match s with GBool => GVBool (negb (dec_bytes tg bs =? 0)) | _ => GVBits (dec_bytes tg bs) end = Some bs).
  { destruct s; cbn [scalar_bytes scalar_size] in *; f_equal; try (now apply enc_dec).
    specialize (HN eq_refl bs E). rewrite <- (enc_dec tg PU32 bs) at 2 by assumption. f_equal.
    destruct (N.eqb_spec (dec_bytes tg bs) 0); cbn [negb]; lia. }
  exists [(off, bs)]. unfold place_scalar. rewrite W. split; [reflexivity|]. split; [|split].
  - intros o c [Hin|[]]. injection Hin as <- <-. now rewrite L.
  - intros i Hi. apply N.ltb_lt in Hi. exists off, bs. split; [now left|]. lia.
  - unfold slot_scalar. rewrite <- L. reflexivity.
Qed.

Lemma vec_places tg s n B off x : gread_vec tg s n B off = Some x -> norm_vec tg s n B off ->
  exists ps, place_vec tg s n x off = Some ps /\ fits B ps off (vec_covers s n) (slot_vec s n off).
Proof.
  unfold gread_vec. destruct (gread_strided _ _ _ _) as [xs|] eqn:E; [|discriminate]. intros H HN. injection H as <-.
  destruct (strided_places B _ (norm_scalar tg s B) (place_scalar tg s) _ (slot_scalar s) (scalar_size s)
              (fun o y => scalar_places tg s B o y) n off xs E HN) as [L [ps [A1 A2]]].
  exists ps. cbn [place_vec]. rewrite L, Nat.eqb_refl. auto.
Qed.

Fixpoint gplaces_fields (tg : target) (l : lay) (off cur : N) (fs : list (string * gty)) (xs : list (string * gval)) : option (list placement) :=
  match fs, xs with
  | [], [] => Some []
  | (f, ft) :: fs', (f', y) :: xs' =>
    let o := round_up cur (base_align l ft) in
    if String.eqb f f' then
      match gplaces tg l ft y (off + o), gplaces_fields tg l off (o + gsize l ft) fs' xs' with
      | Some a, Some b => Some (a ++ b)%list
      | _, _ => None
      end
    else None
  | _, _ => None
  end.
Lemma gplaces_struct tg l n fs xs off : gplaces tg l (GStruct n fs) (GVStruct xs) off = gplaces_fields tg l off 0 fs xs.
Proof.
  cbn [gplaces]. generalize 0 as cur. revert xs. induction fs as [|[f g] fs IH]; intros [|[f' x] xs] cur; try reflexivity.
  cbn [gplaces_fields]. rewrite <- IH. reflexivity.
Qed.

Fixpoint gslots_fields (l : lay) (off cur : N) (fs : list (string * gty)) : list (N * N) :=
  match fs with
  | [] => []
  | (_, ft) :: fs' =>
    let o := round_up cur (base_align l ft) in (gslots l ft (off + o) ++ gslots_fields l off (o + gsize l ft) fs')%list
  end.
Lemma gslots_struct l n fs off : gslots l (GStruct n fs) off = gslots_fields l off 0 fs.
Proof.
  cbn [gslots]. generalize 0 as cur. induction fs as [|[f g] fs IH]; intros cur; [reflexivity|].
  cbn [gslots_fields]. rewrite <- IH. reflexivity.
Qed.

Lemma read_places tg l : forall g B off x, gread tg l g B off = Some x -> gnorm tg l g B off ->
  exists ps, gplaces tg l g x off = Some ps /\ fits B ps off (gcovers l g) (gslots l g off).
Proof.
  fix IH 1. intros [s|s n|s c r|e n|name fs] B off x Hx HN.
  - now apply scalar_places.
  - now apply vec_places.
  - cbn [gread] in Hx. destruct (gread_strided _ _ _ _) as [xs|] eqn:E; [|discriminate]. injection Hx as <-.
    destruct (strided_places B _ (norm_vec tg s r B) (place_vec tg s r) _ (slot_vec s r) (col_stride l s r)
                (fun o y => vec_places tg s r B o y) c off xs E HN) as [L [ps [A1 A2]]].
    exists ps. cbn [gplaces]. rewrite L, Nat.eqb_refl. auto.
  - cbn [gread] in Hx. destruct (gread_strided _ _ _ _) as [xs|] eqn:E; [|discriminate]. injection Hx as <-.
    destruct (strided_places B _ (gnorm tg l e B) (gplaces tg l e) _ (gslots l e) (array_stride l e)
                (fun o y => IH e B o y) n off xs E HN) as [L [ps [A1 A2]]].
    exists ps. cbn [gplaces]. rewrite L, Nat.eqb_refl. auto.
  - rewrite gread_struct in Hx. destruct (gread_fields tg l B off 0 fs) as [xs|] eqn:E; [|discriminate]. injection Hx as <-.
    rewrite gplaces_struct, gslots_struct. apply gnorm_struct in HN.
    assert (G : forall cur xs, gread_fields tg l B off cur fs = Some xs -> gnorm_fields tg l B off cur fs ->
      exists ps, gplaces_fields tg l off cur fs xs = Some ps
        /\ (forall o c, In (o, c) ps -> read_at B o (len c) = Some c)
        /\ (forall i, gcovers_fields l i cur fs = true -> exists o c, In (o, c) ps /\ o <= off + i < o + len c)
        /\ map slot_of ps = gslots_fields l off cur fs).
    { clear xs E HN. induction fs as [|[f g] fs IHfs]; intros cur xs Hx HN; cbn [gread_fields gnorm_fields] in *; cbn zeta in *.
      - injection Hx as <-. exists []. split; [reflexivity|]. split; [intros ? ? []|]. split; [discriminate|reflexivity].
      - set (o := round_up cur (base_align l g)) in *.
        destruct (gread tg l g B (off + o)) as [y|] eqn:E1; [|discriminate].
        destruct (gread_fields tg l B off (o + gsize l g) fs) as [r|] eqn:E2; [|discriminate]. injection Hx as <-.
        destruct HN as [N1 N2]. destruct (IH g B (off + o) y E1 N1) as [p [P1 [P2 [P3 P4]]]].
        destruct (IHfs _ _ E2 N2) as [q [Q1 [Q2 [Q3 Q4]]]].
        exists (p ++ q)%list. cbn [gplaces_fields gslots_fields gcovers_fields]. cbn zeta. fold o.
        rewrite String.eqb_refl, P1, Q1. split; [reflexivity|]. split; [|split].
        + intros a c Hin. apply in_app_or in Hin. destruct Hin; auto.
        + intros i Hi. apply orb_true_iff in Hi. destruct Hi as [Hi|Hi].
          * apply andb_true_iff in Hi. destruct Hi as [H1 H2]. apply N.leb_le in H1.
            destruct (P3 _ H2) as [a [c [A1 A2]]]. exists a, c. split; [apply in_or_app; now left|lia].
          * destruct (Q3 _ Hi) as [a [c [A1 A2]]]. exists a, c. split; [apply in_or_app; now right|lia].
        + rewrite map_app. congruence. }
    destruct (G 0 xs E HN) as [ps [G1 [G2 [G3 G4]]]]. exists ps. split; [assumption|]. split; [assumption|]. split; [|assumption].
    intros i Hi. rewrite gcovers_struct in Hi. now apply G3.
Qed.

Lemma plain_no_raw : forall h, plain h = true -> no_raw h = true.
Proof.
  induction h as [p| |r std fs IH|r m IH|h IH|n fs IH|l' h IH] using hty_ind'; cbn [plain no_raw]; auto.
  - intros H. apply forallb_forall. intros nf Hin. rewrite forallb_forall in H. rewrite Forall_forall in IH. auto.
  - intros H. apply forallb_forall. intros nf Hin. rewrite forallb_forall in H. rewrite Forall_forall in IH. auto.
Qed.

Lemma bytes_are_image tg l h t g v bs : target_ok tg = true -> out_ty tg l h = Some t -> gty_of h = Some g -> plain h = true ->
  hval_ok tg h v = true -> as_std_bytes tg l h v = Some bs ->
  exists x ps, gval_of tg h v = Some x /\ gplaces tg l g x 0 = Some ps /\ image ps (gsize l g) bs /\ map slot_of ps = gslots l g 0.
Proof.
  intros Htg Ho Hg Hp Hv Hb.
  destruct (as_bytes_facts tg l h t v Htg Ho Hv) as [s [A1 [A2 [A3 [A4 A5]]]]].
  rewrite A4 in Hb. injection Hb as <-.
  destruct (size_align_glsl tg Htg h l t g Ho Hg) as [_ [Hsz _]].
  assert (Hr : read_at (flat tg t s) 0 (size_of tg t) = Some (flat tg t s)).
  { rewrite <- A5. apply read_at_bytes. split; [lia|]. intros k Hk. now rewrite N.add_0_l. }
  assert (Hr' : read_at (flat tg t s) 0 (len (flat tg t s)) = Some (flat tg t s)) by (now rewrite A5).
  destruct (C23_gpu_reads_host_value_proof tg l h t g v _ _ 0 Htg Ho Hg Hv A4 Hr') as [x [X1 X2]].
  pose proof (norm_all tg Htg h l t g v s _ 0 Hp Ho Hg Hv A1 Hr) as HN.
  destruct (read_places tg l g _ 0 x X2 HN) as [ps [P1 [P2 [P3 P4]]]].
  exists x, ps. repeat (split; [assumption|]). split; [|assumption].
  split; [congruence|]. split; [assumption|].
  intros i Hi Hno. apply (C19_padding_is_zero_proof tg l h g v _ i Htg Hg (plain_no_raw _ Hp) Hv A4); [congruence|].
  destruct (gcovers l g i) eqn:E; [|reflexivity]. exfalso.
  destruct (P3 i E) as [o [c [B1 B2]]]. apply (Hno o c B1). lia.
Qed.

(** ** C70 *)

(** C70.  [v.as_stdN().as_bytes()] is completely determined by the GLSL value of [v]: it has
    the size of the GLSL type, holds the native-endian bytes of every scalar component at
    the place the layout prescribes (a [bool] as the word 0 or 1), and is zero elsewhere. *)
Lemma C70_exact_bytes_proof : forall tg l h t g v bs,
  target_ok tg = true -> out_ty tg l h = Some t -> gty_of h = Some g -> plain h = true ->
  hval_ok tg h v = true -> as_std_bytes tg l h v = Some bs ->
  exists x, gval_of tg h v = Some x /\ glsl_image tg l g x bs.
Proof.
  intros tg l h t g v bs Htg Ho Hg Hp Hv Hb.
  destruct (bytes_are_image tg l h t g v bs Htg Ho Hg Hp Hv Hb) as [x [ps [A [B [C _]]]]].
  exists x. split; [assumption|]. exists ps. auto.
Qed.

(** C70.  So two Rust types for the same GLSL type (say, the vectors of two math libraries)
    give the same bytes for values that mean the same GLSL value. *)
Lemma C70_same_glsl_same_bytes_proof : forall tg l h h' t t' g v v' x bs bs',
  target_ok tg = true -> out_ty tg l h = Some t -> out_ty tg l h' = Some t' ->
  gty_of h = Some g -> gty_of h' = Some g -> plain h = true -> plain h' = true ->
  hval_ok tg h v = true -> hval_ok tg h' v' = true ->
  gval_of tg h v = Some x -> gval_of tg h' v' = Some x ->
  as_std_bytes tg l h v = Some bs -> as_std_bytes tg l h' v' = Some bs' -> bs = bs'.
Proof.
  intros tg l h h' t t' g v v' x bs bs' Htg Ho Ho' Hg Hg' Hp Hp' Hv Hv' Hx Hx' Hb Hb'.
  destruct (bytes_are_image tg l h t g v bs Htg Ho Hg Hp Hv Hb) as [y [ps [A [B [C _]]]]].
  destruct (bytes_are_image tg l h' t' g v' bs' Htg Ho' Hg' Hp' Hv' Hb') as [y' [ps' [A' [B' [C' _]]]]].
  assert (y = x) by congruence. assert (y' = x) by congruence. subst y y'.
  assert (ps' = ps) by congruence. subst ps'. eapply image_unique; eassumption.
Qed.

(** ** places in the two layouts *)

Lemma strided_words place place' stride stride' :
  (forall x off off' ps ps', place x off = Some ps -> place' x off' = Some ps' -> map snd ps = map snd ps') ->
  forall xs off off' ps ps', place_strided place xs off stride = Some ps -> place_strided place' xs off' stride' = Some ps' ->
  map snd ps = map snd ps'.
Proof.
  intros H. induction xs as [|x xs IH]; intros off off' ps ps' A B; cbn [place_strided] in *.
  - injection A as <-. injection B as <-. reflexivity.
  - destruct (place x off) as [a|] eqn:E1; [|discriminate]. destruct (place_strided place xs _ _) as [b|] eqn:E2; [|discriminate]. injection A as <-.
    destruct (place' x off') as [a'|] eqn:E3; [|discriminate]. destruct (place_strided place' xs _ _) as [b'|] eqn:E4; [|discriminate]. injection B as <-.
    rewrite !map_app. f_equal; eauto.
Qed.
Lemma scalar_words tg s x off off' ps ps' : place_scalar tg s x off = Some ps -> place_scalar tg s x off' = Some ps' -> map snd ps = map snd ps'.
Proof. unfold place_scalar. destruct (scalar_bytes tg s x); intros A B; inversion A; inversion B; reflexivity. Qed.
Lemma vec_words tg s n x off off' ps ps' : place_vec tg s n x off = Some ps -> place_vec tg s n x off' = Some ps' -> map snd ps = map snd ps'.
Proof.
  destruct x; try discriminate. cbn [place_vec]. destruct (Nat.eqb _ _); [|discriminate].
  apply strided_words. intros x a b p q. apply scalar_words.
Qed.
Lemma gplaces_words tg l l' : forall g x off off' ps ps', gplaces tg l g x off = Some ps -> gplaces tg l' g x off' = Some ps' -> map snd ps = map snd ps'.
Proof.
  fix IH 1. intros [s|s n|s c r|e n|name fs] x off off' ps ps'.
  - apply scalar_words.
  - apply vec_words.
  - destruct x; try discriminate. cbn [gplaces]. destruct (Nat.eqb _ _); [|discriminate].
    apply strided_words. intros y a b p q. apply vec_words.
  - destruct x; try discriminate. cbn [gplaces]. destruct (Nat.eqb _ _); [|discriminate].
    apply strided_words. intros y a b p q. apply IH.
  - destruct x as [| | | | |xs]; try discriminate. rewrite !gplaces_struct. generalize 0 at 1 as cur. generalize 0 as cur'.
    revert xs ps ps'. induction fs as [|[f g] fs IHfs]; intros [|[f' y] xs] ps ps' cur cur' A B; cbn [gplaces_fields] in *; cbn zeta in *; try discriminate.
    + injection A as <-. injection B as <-. reflexivity.
    + destruct (String.eqb f f'); [|discriminate].
      destruct (gplaces tg l g y _) as [a|] eqn:E1; [|discriminate]. destruct (gplaces_fields tg l _ _ fs xs) as [b|] eqn:E2; [|discriminate]. injection A as <-.
      destruct (gplaces tg l' g y _) as [a'|] eqn:E3; [|discriminate]. destruct (gplaces_fields tg l' _ _ fs xs) as [b'|] eqn:E4; [|discriminate]. injection B as <-.
      rewrite !map_app. f_equal; eauto.
Qed.

Lemma places_eq (ps qs : list placement) : map slot_of ps = map slot_of qs -> map snd ps = map snd qs -> ps = qs.
Proof.
  revert qs. induction ps as [|[o c] ps IH]; intros [|[o' c'] qs] A B; try discriminate; [reflexivity|].
  cbn [map slot_of fst snd] in *. injection A as A1 A2 A3. injection B as B1 B2. subst. f_equal. auto.
Qed.

(** slots are disjoint and in order *)
Fixpoint chain (a : N) (sl : list (N * N)) (b : N) : Prop :=
  match sl with
  | [] => a <= b
  | (o, w) :: r => a <= o /\ chain (o + w) r b
  end.
Lemma chain_le sl : forall a b, chain a sl b -> a <= b.
Proof. induction sl as [|[o w] r IH]; intros a b H; cbn [chain] in H; [assumption|]. destruct H as [H1 H2]. apply IH in H2. lia. Qed.
Lemma chain_weaken sl : forall a a' b b', a' <= a -> b <= b' -> chain a sl b -> chain a' sl b'.
Proof. induction sl as [|[o w] r IH]; intros a a' b b' Ha Hb H; cbn [chain] in *; [lia|]. destruct H. split; [lia|]. eapply IH; [| |eassumption]; lia. Qed.
Lemma chain_app s1 s2 : forall a b c, chain a s1 b -> chain b s2 c -> chain a (s1 ++ s2) c.
Proof.
  induction s1 as [|[o w] r IH]; intros a b c H1 H2; cbn [chain app] in *.
  - eapply chain_weaken; [exact H1| |exact H2]. lia.
  - destruct H1. split; eauto.
Qed.
Lemma chain_within sl : forall a b o w, chain a sl b -> In (o, w) sl -> a <= o /\ o + w <= b.
Proof.
  induction sl as [|[o' w'] r IH]; intros a b o w H Hin; [contradiction|]. cbn [chain] in H. destruct H as [H1 H2].
  destruct Hin as [E|Hin]; [injection E as -> ->; apply chain_le in H2; lia|]. destruct (IH _ _ _ _ H2 Hin). lia.
Qed.
Lemma chain_disjoint sl : forall a b j k oj wj ok wk, chain a sl b -> (j < k)%nat ->
  nth_error sl j = Some (oj, wj) -> nth_error sl k = Some (ok, wk) -> oj + wj <= ok.
Proof.
  induction sl as [|[o w] r IH]; intros a b j k oj wj ok wk H Hjk Hj Hk; [destruct j; discriminate|].
  cbn [chain] in H. destruct H as [H1 H2]. destruct k as [|k]; [lia|]. cbn [nth_error] in Hk. destruct j as [|j]; cbn [nth_error] in Hj.
  - injection Hj as -> ->. destruct (chain_within _ _ _ _ _ H2 (nth_error_In _ _ Hk)). lia.
  - eapply (IH _ _ j k); [exact H2|lia|eassumption|eassumption].
Qed.

Lemma strided_chain sl stride size : (forall off, chain off (sl off) (off + size)) -> size <= stride ->
  forall n off, chain off (slots_strided sl off stride n) (off + N.of_nat n * stride).
Proof.
  intros H Hs. induction n as [|n IH]; intros off; cbn [slots_strided]; [cbn [chain]; lia|].
  eapply chain_app; [eapply chain_weaken; [| |apply (H off)]; [lia|]|].
  - instantiate (1 := off + stride). lia.
  - replace (off + N.of_nat (S n) * stride) with (off + stride + N.of_nat n * stride) by lia. apply IH.
Qed.
Lemma vec_chain s n off : chain off (slot_vec s n off) (off + N.of_nat n * scalar_size s).
Proof. apply (strided_chain _ _ (scalar_size s)); [|lia]. intros o. cbn. lia. Qed.
Lemma slots_chain l : forall g off, gpos l g = true -> chain off (gslots l g off) (off + gsize l g).
Proof.
  fix IH 1. intros [s|s n|s c r|e n|name fs] off Hp.
  - cbn. lia.
  - apply vec_chain.
  - cbn [gslots gsize]. apply (strided_chain _ _ (N.of_nat r * scalar_size s)); [intros o; apply vec_chain|].
    apply round_up_ge, vec4_round_pos, vec_align_pos.
  - cbn [gpos] in Hp. apply andb_true_iff in Hp. destruct Hp as [_ Hp]. cbn [gslots gsize]. fold (array_stride l e).
    apply (strided_chain _ _ (gsize l e)); [intros o; now apply IH|]. apply round_up_ge, vec4_round_pos, gpos_align. assumption.
  - rewrite gslots_struct, gsize_struct. pose proof (gpos_align _ _ Hp) as Hal.
    pose proof (round_up_ge (members_end 0 (gmembers l fs)) _ Hal) as Hge.
    cbn [gpos] in Hp. apply andb_true_iff in Hp. destruct Hp as [_ Hp].
    assert (G : forall cur, chain (off + cur) (gslots_fields l off cur fs) (off + members_end cur (gmembers l fs))).
    { clear Hal Hge. induction fs as [|[f g] fs IHfs]; intros cur; [cbn; lia|].
      cbn [forallb snd] in Hp. apply andb_true_iff in Hp. destruct Hp as [Hp1 Hp2].
      rewrite gmembers_cons. cbn [members_end gslots_fields]. cbn zeta. pose proof (round_up_ge cur _ (gpos_align _ _ Hp1)).
      eapply chain_app; [eapply chain_weaken; [| |apply (IH g _ Hp1)]; [lia|apply N.le_refl]|].
      rewrite <- N.add_assoc. now apply IHfs. }
    eapply chain_weaken; [| |apply (G 0)]; lia.
Qed.

(** a buffer whose slots all hold 0 or 1 is normal *)
Lemma slots_norm tg l : forall g B off,
  (forall o w bs, In (o, w) (gslots l g off) -> read_at B o w = Some bs -> dec_bytes tg bs <= 1) -> gnorm tg l g B off.
Proof.
  assert (S : forall (sl : N -> list (N * N)) (P : N -> Prop) (Q : N * N -> Prop) stride,
    (forall off, (forall p, In p (sl off) -> Q p) -> P off) ->
    forall n off, (forall p, In p (slots_strided sl off stride n) -> Q p) -> norm_strided P off stride n).
  { intros sl P Q stride H. induction n as [|n IHn]; intros off HQ k Hk; [lia|]. cbn [slots_strided] in HQ.
    destruct k as [|k].
    - replace (off + N.of_nat 0 * stride) with off by lia. apply H. intros p Hp. apply HQ, in_or_app. now left.
    - replace (off + N.of_nat (S k) * stride) with (off + stride + N.of_nat k * stride) by lia. apply IHn; [|lia].
      intros p Hp. apply HQ, in_or_app. now right. }
  assert (Sc : forall s B off, (forall p, In p (slot_scalar s off) -> forall bs, read_at B (fst p) (snd p) = Some bs -> dec_bytes tg bs <= 1) -> norm_scalar tg s B off).
  { intros s B off H -> bs Hr. apply (H (off, 4)); [now left|exact Hr]. }
  assert (V : forall s n B off, (forall p, In p (slot_vec s n off) -> forall bs, read_at B (fst p) (snd p) = Some bs -> dec_bytes tg bs <= 1) -> norm_vec tg s n B off).
  { intros s n B off H. eapply S; [|exact H]. intros o. apply Sc. }
  enough (G : forall g B off, (forall p, In p (gslots l g off) -> forall bs, read_at B (fst p) (snd p) = Some bs -> dec_bytes tg bs <= 1) -> gnorm tg l g B off).
  { intros g B off H. apply G. intros [o w] Hin bs. now apply H. }
  fix IH 1. intros [s|s n|s c r|e n|name fs] B off H.
  - now apply Sc.
  - now apply V.
  - eapply S; [|exact H]. intros o. apply V.
  - eapply S; [|exact H]. intros o. apply IH.
  - apply gnorm_struct. rewrite gslots_struct in H. revert H. generalize 0 as cur.
    induction fs as [|[f g] fs IHfs]; intros cur H; cbn [gnorm_fields gslots_fields] in *; [exact I|]. cbn zeta in *. split.
    + apply IH. intros p Hp. apply H, in_or_app. now left.
    + apply IHfs. intros p Hp. apply H, in_or_app. now right.
Qed.

Lemma slots_pos l : forall g off p, In p (gslots l g off) -> 0 < snd p.
Proof.
  assert (S : forall (sl : N -> list (N * N)) stride, (forall off p, In p (sl off) -> 0 < snd p) ->
    forall n off p, In p (slots_strided sl off stride n) -> 0 < snd p).
  { intros sl stride H. induction n as [|n IHn]; intros off p Hp; cbn [slots_strided] in Hp; [contradiction|].
    apply in_app_or in Hp. destruct Hp; eauto. }
  assert (Sc : forall s off p, In p (slot_scalar s off) -> 0 < snd p).
  { intros s off p [<-|[]]. apply scalar_size_pos. }
  assert (V : forall s n off p, In p (slot_vec s n off) -> 0 < snd p).
  { intros s n. unfold slot_vec. apply S, Sc. }
  fix IH 1. intros [s|s n|s c r|e n|name fs] off p.
  - apply Sc.
  - apply V.
  - cbn [gslots]. apply S, V.
  - cbn [gslots]. apply S, IH.
  - rewrite gslots_struct. generalize 0 at 1 as cur. induction fs as [|[f g] fs IHfs]; intros cur H; cbn [gslots_fields] in *; [contradiction|].
    cbn zeta in H. apply in_app_or in H. destruct H as [H|H]; [eapply IH; exact H|eapply IHfs; exact H].
Qed.

(** the word 1 of [w] bytes *)
Definition one_word (tg : target) (w : N) : list byte :=
  let bs := le_bytes (N.to_nat w) 1 in if t_big tg then rev bs else bs.
Definition one_pos (tg : target) (w : N) : N := if t_big tg then w - 1 else 0.

Lemma byte_at_repeat k i : i < N.of_nat k -> byte_at (repeat x00 k) i = Some x00.
Proof.
  unfold byte_at. intros H. assert (E : (N.to_nat i < k)%nat) by lia. revert E. generalize (N.to_nat i) as m. clear.
  induction k as [|k IH]; intros [|m] E; try lia; cbn [repeat nth_error]; [reflexivity|]. apply IH. lia.
Qed.

Lemma one_word_facts tg w : 0 < w -> len (one_word tg w) = w /\ dec_bytes tg (one_word tg w) <= 1
  /\ byte_at (one_word tg w) (one_pos tg w) = Some x01
  /\ forall i, i < w -> byte_at (one_word tg w) i <> Some x00 -> i = one_pos tg w.
Proof.
  intros Hw. unfold one_word, one_pos, dec_bytes.
  destruct (N.to_nat w) as [|k] eqn:E; [lia|].
  assert (E1 : le_bytes (S k) 1 = x01 :: repeat x00 k).
  { cbn [le_bytes]. rewrite <- le_bytes_0. reflexivity. }
  assert (Ev : le_val (x01 :: repeat x00 k) = 1).
  { rewrite <- E1, le_val_le_bytes. apply N.mod_small. apply N.pow_gt_1; lia. }
  rewrite E1. destruct (t_big tg).
  - rewrite rev_involutive. cbn [rev]. rewrite rev_repeat. split; [|split; [|split]].
    + unfold len. rewrite app_length, repeat_length. cbn [length]. lia.
    + lia.
    + unfold byte_at. rewrite nth_error_app2 by (rewrite repeat_length; lia). rewrite repeat_length.
      replace (N.to_nat (w - 1) - k)%nat with 0%nat by lia. reflexivity.
    + intros i Hi Hne. destruct (N.eq_dec i (w - 1)); [assumption|]. exfalso. apply Hne.
      unfold byte_at. rewrite nth_error_app1 by (rewrite repeat_length; lia). apply byte_at_repeat. lia.
  - split; [|split; [|split]].
    + unfold len. cbn [length]. rewrite repeat_length. lia.
    + lia.
    + reflexivity.
    + intros i Hi Hne. destruct (N.eq_dec i 0); [assumption|]. exfalso. apply Hne.
      unfold byte_at. destruct (N.to_nat i) as [|m] eqn:Em; [lia|]. cbn [nth_error].
      replace m with (N.to_nat (N.of_nat m)) by lia. apply byte_at_repeat. lia.
Qed.

Lemma dec_zeros tg k : dec_bytes tg (repeat x00 k) = 0.
Proof.
  unfold dec_bytes. rewrite rev_repeat. rewrite <- le_bytes_0.
  replace (if t_big tg then le_bytes k 0 else le_bytes k 0) with (le_bytes k 0) by (now destruct (t_big tg)).
  rewrite le_val_le_bytes. apply N.mod_0_l. apply N.pow_nonzero. lia.
Qed.

Lemma read_zeros B o w bs : read_at B o w = Some bs -> (forall i, o <= i < o + w -> byte_at B i = Some x00) ->
  bs = repeat x00 (N.to_nat w).
Proof.
  intros H Hz. pose proof (read_at_len _ _ _ _ H) as L. subst w. apply read_at_bytes in H. destruct H as [_ H].
  apply bytes_ext. intros i. destruct (N.lt_ge_cases i (len bs)) as [Hi|Hi].
  - rewrite <- H, Hz, byte_at_repeat by lia. reflexivity.
  - transitivity (@None byte); [|symmetry]; apply byte_at_None; [assumption|]. unfold len at 1. rewrite repeat_length. lia.
Qed.

(** a host value with exactly one nonzero component *)
Lemma one_component tg l h t g k p w : target_ok tg = true -> out_ty tg l h = Some t -> gty_of h = Some g -> plain h = true ->
  nth_error (gslots l g 0) k = Some (p, w) ->
  exists v x ps, hval_ok tg h v = true /\ gval_of tg h v = Some x /\ gplaces tg l g x 0 = Some ps
    /\ map slot_of ps = gslots l g 0
    /\ forall j o c, nth_error ps j = Some (o, c) -> if Nat.eqb j k then c = one_word tg w else c = repeat x00 (length c).
Proof.
  intros Htg Ho Hg Hp Hk. pose proof (gpos_of tg Htg h l t g Ho Hg) as Hpos.
  pose proof (slots_chain l g 0 Hpos) as Hch. rewrite N.add_0_l in Hch.
  destruct (chain_within _ _ _ _ _ Hch (nth_error_In _ _ Hk)) as [_ Hin].
  pose proof (slots_pos l g 0 _ (nth_error_In _ _ Hk)) as Hw. cbn [snd] in Hw.
  destruct (one_word_facts tg w Hw) as [W1 [W2 _]].
  set (Z := repeat x00 (N.to_nat (gsize l g))).
  assert (LZ : len Z = gsize l g) by (unfold len, Z; rewrite repeat_length; lia).
  destruct (copy_at_spec Z p (one_word tg w)) as [B [_ [LB HB]]]; [rewrite W1, LZ; assumption|].
  rewrite W1 in HB. rewrite LZ in LB.
  assert (HZ : forall i, i < gsize l g -> ~ (p <= i < p + w) -> byte_at B i = Some x00).
  { intros i Hi Hn. rewrite HB. destruct (N.leb_spec p i); cbn [andb].
    - destruct (N.ltb_spec i (p + w)); [lia|]. apply byte_at_repeat. lia.
    - apply byte_at_repeat. lia. }
  assert (HW : read_at B p w = Some (one_word tg w)).
  { rewrite <- W1 at 1. apply read_at_bytes. rewrite W1, LB. split; [assumption|]. intros i Hi. rewrite HB.
    replace (p <=? p + i) with true by (symmetry; apply N.leb_le; lia).
    replace (p + i <? p + w) with true by (symmetry; apply N.ltb_lt; lia). cbn [andb]. f_equal. lia. }
  assert (HS : forall j o u bs, nth_error (gslots l g 0) j = Some (o, u) -> read_at B o u = Some bs ->
    if Nat.eqb j k then bs = one_word tg w else bs = repeat x00 (N.to_nat u)).
  { intros j o u bs Hj Hr. destruct (Nat.eqb_spec j k) as [->|Hne].
    - rewrite Hk in Hj. injection Hj as <- <-. congruence.
    - eapply read_zeros; [exact Hr|]. destruct (chain_within _ _ _ _ _ Hch (nth_error_In _ _ Hj)) as [_ Hin'].
      intros i Hi. apply HZ; [lia|]. destruct (Nat.lt_ge_cases j k) as [Hlt|Hge].
      + pose proof (chain_disjoint _ _ _ _ _ _ _ _ _ Hch Hlt Hj Hk). lia.
      + pose proof (chain_disjoint _ _ _ k j _ _ _ _ Hch ltac:(lia) Hk Hj). lia. }
  destruct (size_align_glsl tg Htg h l t g Ho Hg) as [_ [Hsz _]].
  destruct (host_reads_exists tg l h t B 0 Htg Ho) as [v Hv]; [lia|].
  destruct (host_reads_facts tg l h t g B 0 v Htg Ho Hg Hv) as [V1 [_ [x [V2 V3]]]].
  destruct (read_places tg l g B 0 x V3) as [ps [P1 [P2 [_ P4]]]].
  { apply slots_norm. intros o u bs Hi Hr. apply In_nth_error in Hi. destruct Hi as [j Hj].
    specialize (HS j o u bs Hj Hr). destruct (Nat.eqb j k); subst bs; [assumption|]. rewrite dec_zeros. lia. }
  exists v, x, ps. repeat (split; [assumption|]).
  intros j o c Hj. assert (Hj' : nth_error (gslots l g 0) j = Some (o, len c)).
  { rewrite <- P4. rewrite nth_error_map, Hj. reflexivity. }
  specialize (HS j o (len c) c Hj' (P2 _ _ (nth_error_In _ _ Hj))).
  destruct (Nat.eqb j k); [assumption|]. rewrite HS at 1. f_equal. unfold len. lia.
Qed.

(** ** C71 *)

(** C71.  The std140 and the std430 bytes of a type are the same for every value if and only
    if the two layouts put every scalar component at the same place and have the same size. *)
Lemma C71_layouts_coincide_proof : forall tg h t1 t2 g,
  target_ok tg = true -> out_ty tg L140 h = Some t1 -> out_ty tg L430 h = Some t2 -> gty_of h = Some g -> plain h = true ->
  ((forall v bs1 bs2, hval_ok tg h v = true -> as_std_bytes tg L140 h v = Some bs1 -> as_std_bytes tg L430 h v = Some bs2 -> bs1 = bs2)
   <-> gslots L140 g 0 = gslots L430 g 0 /\ gsize L140 g = gsize L430 g).
Proof.
  intros tg h t1 t2 g Htg H1 H2 Hg Hp. split.
  - intros HE.
    assert (Hv0 : exists v, hval_ok tg h v = true).
    { destruct (host_reads_exists tg L140 h t1 (repeat x00 (N.to_nat (size_of tg t1))) 0 Htg H1) as [v Hv].
      { unfold len. rewrite repeat_length. lia. }
      exists v. apply (host_reads_facts tg L140 h t1 g _ 0 v Htg H1 Hg Hv). }
    assert (Hb : forall v, hval_ok tg h v = true -> exists bs, as_std_bytes tg L140 h v = Some bs /\ as_std_bytes tg L430 h v = Some bs).
    { intros v Hv. destruct (as_bytes_facts tg L140 h t1 v Htg H1 Hv) as [s1 [_ [_ [_ [A _]]]]].
      destruct (as_bytes_facts tg L430 h t2 v Htg H2 Hv) as [s2 [_ [_ [_ [B _]]]]].
      exists (flat tg t1 s1). split; [assumption|]. rewrite B. f_equal. symmetry. eapply HE; eassumption. }
    split.
    + assert (HK : forall k, nth_error (gslots L140 g 0) k = nth_error (gslots L430 g 0) k).
      { intros k.
        assert (HL : map snd (gslots L140 g 0) = map snd (gslots L430 g 0)).
        { destruct Hv0 as [v Hv]. destruct (Hb v Hv) as [bs [B1 B2]].
          destruct (bytes_are_image tg L140 h t1 g v bs Htg H1 Hg Hp Hv B1) as [x [ps [X [P1 [_ P3]]]]].
          destruct (bytes_are_image tg L430 h t2 g v bs Htg H2 Hg Hp Hv B2) as [x' [qs [X' [Q1 [_ Q3]]]]].
          assert (x' = x) by congruence. subst x'. rewrite <- P3, <- Q3.
          assert (E : forall r : list placement, map snd (map slot_of r) = map len (map snd r)).
          { intros r. rewrite !map_map. apply map_ext. intros [? ?]. reflexivity. }
          rewrite !E. f_equal. eapply gplaces_words; eassumption. }
        destruct (nth_error (gslots L140 g 0) k) as [[p w]|] eqn:Ek.
        2:{ symmetry. apply nth_error_None. apply nth_error_None in Ek. rewrite <- (map_length snd) in *. now rewrite <- HL. }
        destruct (nth_error (gslots L430 g 0) k) as [[q u]|] eqn:Ek2.
        2:{ exfalso. apply nth_error_None in Ek2. rewrite <- (map_length snd), <- HL, map_length in Ek2.
            apply nth_error_None in Ek2. congruence. }
        assert (u = w).
        { assert (A : nth_error (map snd (gslots L140 g 0)) k = Some w) by (rewrite nth_error_map, Ek; reflexivity).
          rewrite HL, nth_error_map, Ek2 in A. cbn in A. congruence. }
        subst u.
        destruct (one_component tg L140 h t1 g k p w Htg H1 Hg Hp Ek) as [v [x [ps [V1 [V2 [P1 [P3 P5]]]]]]].
        destruct (Hb v V1) as [bs [B1 B2]].
        destruct (bytes_are_image tg L140 h t1 g v bs Htg H1 Hg Hp V1 B1) as [x' [ps' [X' [P1' [I1 _]]]]].
        assert (x' = x) by congruence. subst x'. assert (ps' = ps) by congruence. subst ps'.
        destruct (bytes_are_image tg L430 h t2 g v bs Htg H2 Hg Hp V1 B2) as [x' [qs [X'' [Q1 [I2 Q3]]]]].
        assert (x' = x) by congruence. subst x'.
        pose proof (gplaces_words _ _ _ _ _ _ _ _ _ P1 Q1) as HWd.
        pose proof (slots_pos L140 g 0 _ (nth_error_In _ _ Ek)) as Hw. cbn [snd] in Hw.
        destruct (one_word_facts tg w Hw) as [W1 [_ [W3 W4]]].
        (* the nonzero byte of the std430 image *)
        assert (Hqs : nth_error qs k = Some (q, one_word tg w)).
        { destruct (nth_error qs k) as [[q' c]|] eqn:Eq.
          2:{ apply nth_error_None in Eq. rewrite <- (map_length slot_of), Q3 in Eq. apply nth_error_None in Eq. congruence. }
          assert (A : nth_error (map slot_of qs) k = Some (q', len c)) by (rewrite nth_error_map, Eq; reflexivity).
          rewrite Q3, Ek2 in A. injection A as -> _. f_equal. f_equal.
          assert (A : nth_error (map snd qs) k = Some c) by exact (map_nth_error snd k qs Eq).
          rewrite <- HWd in A. destruct (nth_error ps k) as [[o c']|] eqn:Ep.
          2:{ apply nth_error_None in Ep. assert (nth_error (map snd ps) k = None) by (apply nth_error_None; now rewrite map_length). congruence. }
          assert (A' : nth_error (map snd ps) k = Some c') by exact (map_nth_error snd k ps Ep).
          rewrite A in A'. injection A' as <-. specialize (P5 k o c Ep). rewrite Nat.eqb_refl in P5. assumption. }
        assert (Hpw : one_pos tg w < w) by (unfold one_pos; destruct (t_big tg); lia).
        assert (Hnz : byte_at bs (q + one_pos tg w) = Some x01).
        { destruct I2 as [_ [I2 _]]. specialize (I2 _ _ (nth_error_In _ _ Hqs)). apply read_at_bytes in I2.
          destruct I2 as [_ I2]. rewrite I2; [assumption|]. now rewrite W1. }
        (* where it can be in the std140 image *)
        destruct I1 as [L1 [I1 I1z]]. set (i := q + one_pos tg w) in *.
        destruct (covered_dec ps i) as [[o [c [Hin Hi]]]|Hno].
        2:{ exfalso. rewrite I1z in Hnz; [discriminate| |assumption].
            rewrite <- L1. destruct (N.lt_ge_cases i (len bs)) as [|Hge]; [assumption|].
            apply byte_at_None in Hge. congruence. }
        apply In_nth_error in Hin. destruct Hin as [j Hj].
        pose proof (I1 _ _ (nth_error_In _ _ Hj)) as R. apply read_at_bytes in R. destruct R as [_ R].
        specialize (R (i - o) ltac:(lia)). replace (o + (i - o)) with i in R by lia. rewrite Hnz in R.
        specialize (P5 j o c Hj). destruct (Nat.eqb_spec j k) as [Ejk|Hne]; [rewrite Ejk in *; clear j Ejk|].
        - assert (A : nth_error (map slot_of ps) k = Some (o, len c)) by exact (map_nth_error slot_of k ps Hj).
          rewrite P3, Ek in A. injection A as <- _. subst c.
          assert (i - p = one_pos tg w). { apply W4; [lia|]. rewrite <- R. discriminate. }
          f_equal. f_equal. unfold i in *. lia.
        - exfalso. rewrite P5, byte_at_repeat in R; [discriminate|]. unfold len in Hi. lia. }
      generalize dependent (gslots L430 g 0). generalize (gslots L140 g 0) as a. clear.
      induction a as [|x a IH]; intros [|y b] H; [reflexivity|specialize (H 0%nat); discriminate|specialize (H 0%nat); discriminate|].
      f_equal; [specialize (H 0%nat); now injection H|]. apply IH. intros k. exact (H (S k)).
    + destruct Hv0 as [v Hv]. destruct (Hb v Hv) as [bs [B1 B2]].
      destruct (bytes_are_image tg L140 h t1 g v bs Htg H1 Hg Hp Hv B1) as [x [ps [_ [_ [[L1 _] _]]]]].
      destruct (bytes_are_image tg L430 h t2 g v bs Htg H2 Hg Hp Hv B2) as [x' [qs [_ [_ [[L2 _] _]]]]]. congruence.
  - intros [HS HZ] v bs1 bs2 Hv B1 B2.
    destruct (bytes_are_image tg L140 h t1 g v bs1 Htg H1 Hg Hp Hv B1) as [x [ps [X [P1 [P2 P3]]]]].
    destruct (bytes_are_image tg L430 h t2 g v bs2 Htg H2 Hg Hp Hv B2) as [x' [qs [X' [Q1 [Q2 Q3]]]]].
    assert (x' = x) by congruence. subst x'.
    assert (ps = qs). { apply places_eq; [congruence|]. eapply gplaces_words; eassumption. }
    subst qs. rewrite HZ in P2. eapply image_unique; eassumption.
Qed.

Lemma round_up_mod16 a : a mod 16 = 0 -> round_up a 16 = a.
Proof. intros H. apply round_up_aligned; [lia|]. now apply N.mod_divide. Qed.

Definition same_in_both (g : gty) : Prop :=
  base_align L140 g = base_align L430 g /\ gsize L140 g = gsize L430 g /\ forall off, gslots L140 g off = gslots L430 g off.

Lemma slots_strided_ext sl sl' stride : (forall off, sl off = sl' off) -> forall n off, slots_strided sl off stride n = slots_strided sl' off stride n.
Proof. intros H. induction n as [|n IH]; intros off; cbn [slots_strided]; [reflexivity|]. now rewrite H, IH. Qed.

Lemma members_same fs : Forall (fun nf => same_in_both (snd nf)) fs ->
  fold_right N.max 0 (map (fun nf => base_align L140 (snd nf)) fs) = fold_right N.max 0 (map (fun nf => base_align L430 (snd nf)) fs)
  /\ gmembers L140 fs = gmembers L430 fs
  /\ forall off cur, gslots_fields L140 off cur fs = gslots_fields L430 off cur fs.
Proof.
  induction 1 as [|[f g] fs [A [B C]] H [I1 [I2 I3]]]; [repeat split|]. cbn [snd] in *. split; [|split].
  - cbn [map fold_right snd]. now rewrite A, I1.
  - rewrite !gmembers_cons. now rewrite A, B, I2.
  - intros off cur. cbn [gslots_fields]. cbn zeta. now rewrite A, B, C, I3.
Qed.

Lemma vec4_aligned_same : forall g, vec4_aligned g = true -> same_in_both g.
Proof.
  fix IH 1. intros [s|s n|s c r|e n|name fs] H.
  - repeat split.
  - repeat split.
  - cbn [vec4_aligned] in H. apply N.eqb_eq in H. pose proof (round_up_mod16 _ H) as E.
    assert (E2 : col_stride L140 s r = col_stride L430 s r) by (unfold col_stride; cbn [vec4_round]; now rewrite E).
    split; [exact E|]. split; [cbn [gsize]; now rewrite E2|]. intros off. cbn [gslots]. now rewrite E2.
  - cbn [vec4_aligned] in H. apply andb_true_iff in H. destruct H as [H1 H2]. apply N.eqb_eq in H1.
    destruct (IH e H2) as [A [B C]]. pose proof (round_up_mod16 _ H1) as E.
    assert (E2 : array_stride L140 e = array_stride L430 e) by (unfold array_stride; cbn [vec4_round]; now rewrite A, B, E).
    split; [cbn [base_align vec4_round]; now rewrite A, E|]. split; [cbn [gsize]; fold (array_stride L140 e) (array_stride L430 e); now rewrite E2|].
    intros off. cbn [gslots]. rewrite E2. now apply slots_strided_ext.
  - cbn [vec4_aligned] in H. apply andb_true_iff in H. destruct H as [H1 H2]. apply N.eqb_eq in H1.
    assert (HF : Forall (fun nf => same_in_both (snd nf)) fs).
    { clear H1. induction fs as [|[f g] fs IHfs]; constructor; cbn [forallb snd] in *; apply andb_true_iff in H2; destruct H2; auto. }
    destruct (members_same fs HF) as [A [B C]].
    assert (E : base_align L140 (GStruct name fs) = base_align L430 (GStruct name fs)).
    { cbn [base_align] in *. rewrite A. cbn [vec4_round] in *. now apply round_up_mod16. }
    split; [exact E|]. split; [rewrite !gsize_struct; now rewrite E, B|]. intros off. rewrite !gslots_struct. apply C.
Qed.

(** C71.  A condition that can be read off the declaration: if every matrix column and every
    structure in the type (the type itself included) has an std430 base alignment that is a
    multiple of 16, both layouts give the same bytes. *)
Lemma C71_vec4_aligned_proof : forall tg h g v bs1 bs2,
  target_ok tg = true -> gty_of h = Some g -> plain h = true -> vec4_aligned g = true -> hval_ok tg h v = true ->
  as_std_bytes tg L140 h v = Some bs1 -> as_std_bytes tg L430 h v = Some bs2 -> bs1 = bs2.
Proof.
  intros tg h g v bs1 bs2 Htg Hg Hp H4 Hv B1 B2.
  destruct (out_ty tg L140 h) as [t1|] eqn:H1; [|unfold as_std_bytes in B1; rewrite H1 in B1; discriminate].
  destruct (out_ty tg L430 h) as [t2|] eqn:H2; [|unfold as_std_bytes in B2; rewrite H2 in B2; discriminate].
  destruct (vec4_aligned_same g H4) as [_ [A C]].
  refine (proj2 (C71_layouts_coincide_proof tg h t1 t2 g Htg H1 H2 Hg Hp) (conj (C 0) A) v bs1 bs2 Hv B1 B2).
Qed.

(** C71.  For a struct all of whose members satisfy that condition (a struct without nested
    structs and without [mat2], for instance) the std140 bytes are the std430 bytes followed
    by fewer than 16 zero bytes. *)
Lemma C71_flat_struct_proof : forall tg n fs gs v bs1 bs2,
  target_ok tg = true -> gty_of (HStruct n fs) = Some (GStruct n gs) -> plain (HStruct n fs) = true ->
  forallb (fun nf => vec4_aligned (snd nf)) gs = true -> hval_ok tg (HStruct n fs) v = true ->
  as_std_bytes tg L140 (HStruct n fs) v = Some bs1 -> as_std_bytes tg L430 (HStruct n fs) v = Some bs2 ->
  exists k, (k < 16)%nat /\ bs1 = (bs2 ++ repeat x00 k)%list.
Proof.
  intros tg n fs gs v bs1 bs2 Htg Hg Hp H4 Hv B1 B2.
  destruct (out_ty tg L140 (HStruct n fs)) as [t1|] eqn:H1; [|unfold as_std_bytes in B1; rewrite H1 in B1; discriminate].
  destruct (out_ty tg L430 (HStruct n fs)) as [t2|] eqn:H2; [|unfold as_std_bytes in B2; rewrite H2 in B2; discriminate].
  assert (HF : Forall (fun nf => same_in_both (snd nf)) gs).
  { apply Forall_forall. intros nf Hin. apply vec4_aligned_same. rewrite forallb_forall in H4. auto. }
  destruct (members_same gs HF) as [A [B C]].
  destruct (bytes_are_image tg L140 _ t1 _ v bs1 Htg H1 Hg Hp Hv B1) as [x [ps [X [P1 [P2 P3]]]]].
  destruct (bytes_are_image tg L430 _ t2 _ v bs2 Htg H2 Hg Hp Hv B2) as [x' [qs [X' [Q1 [Q2 Q3]]]]].
  assert (x' = x) by congruence. subst x'.
  assert (qs = ps).
  { apply places_eq; [rewrite P3, Q3, !gslots_struct; symmetry; apply C|]. eapply gplaces_words; eassumption. }
  subst qs.
  set (s1 := gsize L140 (GStruct n gs)) in *. set (s2 := gsize L430 (GStruct n gs)) in *.
  assert (Hs : s2 <= s1 /\ s1 < s2 + 16).
  { unfold s1, s2. rewrite !gsize_struct. rewrite B. set (m := members_end 0 (gmembers L430 gs)).
    destruct (size_align_glsl tg Htg _ L430 t2 _ H2 Hg) as [_ [_ P]].
    cbn [base_align vec4_round] in *. rewrite A.
    set (a := fold_right N.max 0 (map (fun nf => base_align L430 (snd nf)) gs)) in *.
    rewrite round_up_pow2_16 by exact P. pose proof (pow2_pos _ P) as Ha.
    pose proof (round_up_ge m a Ha) as G1.
    assert (P16 : pow2 16) by (exists 4; reflexivity).
    destruct (N.le_gt_cases 16 a) as [Hle|Hgt].
    - replace (N.max 16 a) with a by lia. lia.
    - replace (N.max 16 a) with 16 by lia.
      pose proof (round_up_ge m 16 ltac:(lia)) as G2.
      assert (D : (a | round_up m 16)).
      { transitivity 16; [apply pow2_divide; [assumption|assumption|lia]|]. apply round_up_divide. lia. }
      assert (G3 : round_up m a <= round_up m 16).
      { destruct D as [q Hq]. unfold round_up at 1. rewrite Hq. apply N.mul_le_mono_r.
        assert ((m + (a - 1)) / a < q + 1); [|lia]. apply N.div_lt_upper_bound; lia. }
      assert (round_up m 16 < m + 16).
      { unfold round_up. pose proof (N.mul_div_le (m + (16 - 1)) 16 ltac:(lia)). lia. }
      lia. }
  exists (N.to_nat (s1 - s2)). split; [lia|].
  apply (image_unique ps s1); [assumption|]. destruct Q2 as [L2 [Q2 Z2]].
  assert (Happ : forall i, i < s2 -> byte_at (bs2 ++ repeat x00 (N.to_nat (s1 - s2))) i = byte_at bs2 i).
  { intros i Hi. unfold byte_at. apply nth_error_app1. unfold len in L2. lia. }
  split; [|split].
  - unfold len in *. rewrite app_length, repeat_length. lia.
  - intros o c Hin. specialize (Q2 o c Hin). apply read_at_bytes in Q2. destruct Q2 as [R1 R2]. apply read_at_bytes. split.
    + unfold len in *. rewrite app_length, repeat_length. lia.
    + intros k Hk. rewrite Happ by lia. now apply R2.
  - intros i Hi Hno. destruct (N.lt_ge_cases i s2) as [Hlt|Hge].
    + rewrite Happ by assumption. now apply Z2.
    + unfold byte_at. rewrite nth_error_app2 by (unfold len in L2; lia).
      replace (N.to_nat i - length bs2)%nat with (N.to_nat (i - s2)) by (unfold len in L2; lia).
      apply byte_at_repeat. lia.
Qed.

(** ** examples *)

(** the same vector in glam: [HMinty] *)
Definition glam_light : hty :=
  HStruct "PointLight" [("position", HMinty "glam::Vec3" vec3f); ("color", vec3f); ("brightness", HPrim PF32)].
Definition glam_light1 : hval := HVRec [("position", HVMinty (v3 f1_0 2 3)); ("color", v3 4 5 6); ("brightness", bits f1_0)].

Lemma C70_ex_proof :
  exists t t' g bs, out_ty x86_64 L140 point_light = Some t /\ out_ty x86_64 L140 glam_light = Some t'
    /\ gty_of point_light = Some g /\ gty_of glam_light = Some g /\ plain point_light = true /\ plain glam_light = true
    /\ hval_ok x86_64 point_light light1 = true /\ hval_ok x86_64 glam_light glam_light1 = true
    /\ gval_of x86_64 point_light light1 = gval_of x86_64 glam_light glam_light1
    /\ as_std_bytes x86_64 L140 point_light light1 = Some bs /\ as_std_bytes x86_64 L140 glam_light glam_light1 = Some bs
    /\ len bs = 32
    /\ match gval_of x86_64 point_light light1 with
       | Some x => match gplaces x86_64 L140 g x 0 with
                   | Some ps => map fst ps = [0; 4; 8; 16; 20; 24; 28] /\ nth_error ps 0 = Some (0, [x00; x00; x80; x3f])
                   | None => False end
       | None => False end.
Proof. do 4 eexists. repeat (split; [vm_compute; reflexivity|]). vm_compute. split; reflexivity. Qed.

(** a flat struct (the layouts differ only in the padding at the end), one where they do not
    differ at all, and two where they do *)
Definition flat_s : hty := HStruct "Flat" [("a", vec2f); ("b", HPrim PF32)].
Lemma C71_ex_proof :
  (exists t1 t2 g, out_ty x86_64 L140 point_light = Some t1 /\ out_ty x86_64 L430 point_light = Some t2
     /\ gty_of point_light = Some g /\ plain point_light = true /\ vec4_aligned g = true
     /\ gslots L140 g 0 = gslots L430 g 0 /\ gsize L140 g = gsize L430 g)
  /\ (exists gs, gty_of flat_s = Some (GStruct "Flat" gs) /\ plain flat_s = true
     /\ forallb (fun nf => vec4_aligned (snd nf)) gs = true /\ vec4_aligned (GStruct "Flat" gs) = false
     /\ exists b1 b2, as_std_bytes x86_64 L140 flat_s (HVRec [("a", v2 1 2); ("b", bits 3)]) = Some b1
        /\ as_std_bytes x86_64 L430 flat_s (HVRec [("a", v2 1 2); ("b", bits 3)]) = Some b2 /\ b1 = b2 /\ len b1 = 16)
  /\ (exists gs b1 b2, gty_of foo_s = Some (GStruct "Foo" gs) /\ forallb (fun nf => vec4_aligned (snd nf)) gs = true
        /\ as_std_bytes x86_64 L140 foo_s (HVRec [("x", bits 3)]) = Some b1
        /\ as_std_bytes x86_64 L430 foo_s (HVRec [("x", bits 3)]) = Some b2 /\ len b1 = 16 /\ len b2 = 4)
  /\ (exists g, gty_of mat2f = Some g /\ vec4_aligned g = false /\ gslots L140 g 0 = [(0,4);(4,4);(16,4);(20,4)]
        /\ gslots L430 g 0 = [(0,4);(4,4);(8,4);(12,4)]).
Proof.
  split; [|split; [|split]].
  - do 3 eexists. repeat (split; [vm_compute; reflexivity|]). vm_compute. reflexivity.
  - eexists. repeat (split; [vm_compute; reflexivity|]). do 2 eexists. repeat (split; [vm_compute; reflexivity|]). vm_compute. reflexivity.
  - do 3 eexists. repeat (split; [vm_compute; reflexivity|]). vm_compute. reflexivity.
  - eexists. repeat (split; [vm_compute; reflexivity|]). vm_compute. reflexivity.
Qed.
