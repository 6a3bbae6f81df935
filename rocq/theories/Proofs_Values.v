(** * Every GLSL value has exactly one Rust value *)

From Coq Require Import NArith String Bool List Lia ZArith PeanoNat.
From Coq Require Import ZifyBool ZifyN ZifyNat.
From Coq Require Import Strings.Byte.
From Verif Require Import Rust Internal Prims Derive Host Rows Buffer SpecGlsl SpecHost SpecTypes SpecBuf SpecUse SpecGpu SpecBytes SpecValues
  Arith RustFacts DeriveFacts TypeFacts HostFacts GlslFacts PadFacts Proofs_Types Proofs_Use GpuFacts Proofs_Gpu Proofs_Bytes Samples.
Import ListNotations.
Local Open Scope string_scope.
Local Open Scope N_scope.

(** ** a typed value has a place for every component, and is read back from there *)

Definition placed (rd : list byte -> N -> option gval) (place : gval -> N -> option (list placement))
  (sl : N -> list (N * N)) (x : gval) : Prop :=
  forall off, exists ps, place x off = Some ps /\ map slot_of ps = sl off
    /\ forall B, (forall o c, In (o, c) ps -> read_at B o (len c) = Some c) -> rd B off = Some x.

Lemma strided_placed rd place sl stride : forall xs, Forall (placed rd place sl) xs ->
  forall off, exists ps, place_strided place xs off stride = Some ps
    /\ map slot_of ps = slots_strided sl off stride (length xs)
    /\ forall B, (forall o c, In (o, c) ps -> read_at B o (len c) = Some c) ->
       gread_strided (rd B) off stride (length xs) = Some xs.
Proof.
  induction 1 as [|x xs H _ IH]; intros off.
  - exists []. cbn. auto.
  - destruct (H off) as [p [P1 [P2 P3]]]. destruct (IH (off + stride)) as [q [Q1 [Q2 Q3]]].
    exists (p ++ q)%list. cbn [place_strided length slots_strided gread_strided]. rewrite P1, Q1, map_app, P2, Q2.
    split; [reflexivity|]. split; [reflexivity|]. intros B HB.
    rewrite P3 by (intros o c Hin; apply HB, in_or_app; now left).
    now rewrite Q3 by (intros o c Hin; apply HB, in_or_app; now right).
Qed.

Lemma scalar_placed tg s x : scalar_has s x ->
  placed (fun B => gread_scalar tg s B) (place_scalar tg s) (slot_scalar s) x.
Proof.
  intros H off.
  assert (W : exists p n, scalar_bytes tg s x = Some (enc_prim tg p n) /\ psize p = scalar_size s /\ pbits_ok p n = true
    /\ x = match s with GBool => GVBool (negb (n =? 0)) | _ => GVBits n end).
  { destruct s, x as [n|b| | | |]; cbn [scalar_has] in H; try contradiction; cbn [scalar_bytes];
      (eexists _, _; split; [reflexivity|]; split; [reflexivity|]); unfold pbits_ok.
    all: try (split; [apply N.ltb_lt; exact H|reflexivity]).
    split; [|destruct b; reflexivity]. destruct b; reflexivity. }
  destruct W as [p [n [W1 [W2 [W3 W4]]]]].
  assert (L : len (enc_prim tg p n) = scalar_size s) by (rewrite <- W2; apply len_enc_prim).
  exists [(off, enc_prim tg p n)]. unfold place_scalar. rewrite W1. split; [reflexivity|]. split.
  - cbn [map]. unfold slot_of. cbn [fst snd]. now rewrite L.
  - intros B HB. specialize (HB _ _ (or_introl eq_refl)). rewrite L in HB. unfold gread_scalar. rewrite HB, dec_enc by assumption.
    now rewrite W4.
Qed.

Lemma vec_placed tg s n x : vec_has s n x ->
  placed (fun B => gread_vec tg s n B) (place_vec tg s n) (slot_vec s n) x.
Proof.
  destruct x as [| |xs| | |]; cbn [vec_has]; try contradiction. intros [L H] off.
  destruct (strided_placed (fun B => gread_scalar tg s B) (place_scalar tg s) (slot_scalar s) (scalar_size s) xs) with (off := off) as [ps [A [B C]]].
  { eapply Forall_impl; [|exact H]. intros y. apply scalar_placed. }
  exists ps. cbn [place_vec]. rewrite L in *. rewrite Nat.eqb_refl. split; [exact A|]. split; [exact B|].
  intros buf HB. unfold gread_vec. now rewrite C.
Qed.

Fixpoint has_fields (fs : list (string * gty)) (xs : list (string * gval)) : Prop :=
  match fs, xs with
  | [], [] => True
  | (f, ft) :: fs', (f', y) :: xs' => f = f' /\ gval_has ft y /\ has_fields fs' xs'
  | _, _ => False
  end.
Lemma has_struct n fs xs : gval_has (GStruct n fs) (GVStruct xs) <-> has_fields fs xs.
Proof.
  reflexivity.
Qed.

Lemma value_placed tg l : forall g x, gval_has g x ->
  placed (fun B => gread tg l g B) (gplaces tg l g) (gslots l g) x.
Proof.
  fix IH 1. intros [s|s n|s c r|e n|name fs] x H.
  - now apply scalar_placed.
  - now apply vec_placed.
  - destruct x as [| | |xs| |]; cbn [gval_has] in H; try contradiction. destruct H as [L H]. intros off.
    destruct (strided_placed (fun B => gread_vec tg s r B) (place_vec tg s r) (slot_vec s r) (col_stride l s r) xs) with (off := off) as [ps [A [B C]]].
    { eapply Forall_impl; [|exact H]. intros y. apply vec_placed. }
    exists ps. cbn [gplaces gslots gread]. rewrite L in *. rewrite Nat.eqb_refl. split; [exact A|]. split; [exact B|].
    intros buf HB. now rewrite C.
  - destruct x as [| | | |xs|]; cbn [gval_has] in H; try contradiction. destruct H as [L H]. intros off.
    destruct (strided_placed (fun B => gread tg l e B) (gplaces tg l e) (gslots l e) (array_stride l e) xs) with (off := off) as [ps [A [B C]]].
    { eapply Forall_impl; [|exact H]. intros y. apply IH. }
    exists ps. cbn [gplaces gslots gread]. rewrite L in *. rewrite Nat.eqb_refl. split; [exact A|]. split; [exact B|].
    intros buf HB. now rewrite C.
  - destruct x as [| | | | |xs]; try (cbn [gval_has] in H; contradiction). apply has_struct in H. intros off.
    rewrite gplaces_struct, gslots_struct.
    assert (G : forall cur, exists ps, gplaces_fields tg l off cur fs xs = Some ps
      /\ map slot_of ps = gslots_fields l off cur fs
      /\ forall B, (forall o c, In (o, c) ps -> read_at B o (len c) = Some c) -> gread_fields tg l B off cur fs = Some xs).
    { revert xs H. induction fs as [|[f ft] fs IHfs]; intros [|[f' y] xs] H cur; cbn [has_fields] in H; try contradiction.
      - exists []. cbn. auto.
      - destruct H as [<- [H1 H2]]. cbn [gplaces_fields gslots_fields gread_fields].
        destruct (IH ft y H1 (off + round_up cur (base_align l ft))) as [p [P1 [P2 P3]]].
        destruct (IHfs xs H2 (round_up cur (base_align l ft) + gsize l ft)) as [q [Q1 [Q2 Q3]]].
        exists (p ++ q)%list. cbv zeta. rewrite String.eqb_refl, P1, Q1, map_app, P2, Q2.
        split; [reflexivity|]. split; [reflexivity|]. intros B HB.
        rewrite P3 by (intros o c Hin; apply HB, in_or_app; now left).
        now rewrite Q3 by (intros o c Hin; apply HB, in_or_app; now right). }
    destruct (G 0) as [ps [A [B C]]]. exists ps. split; [exact A|]. split; [exact B|].
    intros buf HB. rewrite gread_struct. now rewrite C.
Qed.

(** ** what is read is typed *)

Lemma strided_has rd (P : gval -> Prop) stride : (forall off x, rd off = Some x -> P x) ->
  forall n off xs, gread_strided rd off stride n = Some xs -> length xs = n /\ Forall P xs.
Proof.
  intros H. induction n as [|n IH]; intros off xs E; cbn [gread_strided] in E.
  - injection E as <-. split; [reflexivity|constructor].
  - destruct (rd off) as [x|] eqn:E1; [|discriminate]. destruct (gread_strided rd (off + stride) stride n) as [r|] eqn:E2; [|discriminate].
    injection E as <-. destruct (IH _ _ E2) as [L F]. split; [cbn [length]; congruence|]. constructor; [eapply H; eassumption|assumption].
Qed.

Lemma scalar_read_has tg s B off x : gread_scalar tg s B off = Some x -> scalar_has s x.
Proof.
  unfold gread_scalar. destruct (read_at B off (scalar_size s)) as [bs|] eqn:E; [|discriminate]. intros H. injection H as <-.
  pose proof (read_at_len _ _ _ _ E) as L.
  destruct s; cbn [scalar_has scalar_size] in *; try exact I.
  - apply N.ltb_lt. exact (dec_ok tg PF32 bs L).
  - apply N.ltb_lt. exact (dec_ok tg PF64 bs L).
  - apply N.ltb_lt. exact (dec_ok tg PI32 bs L).
  - apply N.ltb_lt. exact (dec_ok tg PU32 bs L).
Qed.

Lemma vec_read_has tg s n B off x : gread_vec tg s n B off = Some x -> vec_has s n x.
Proof.
  unfold gread_vec. destruct (gread_strided _ _ _ _) as [xs|] eqn:E; [|discriminate]. intros H. injection H as <-.
  cbn [vec_has]. eapply strided_has; [|exact E]. intros o y. apply scalar_read_has.
Qed.

Lemma read_has tg l : forall g B off x, gread tg l g B off = Some x -> gval_has g x.
Proof.
  fix IH 1. intros [s|s n|s c r|e n|name fs] B off x H.
  - eapply scalar_read_has; exact H.
  - eapply vec_read_has; exact H.
  - cbn [gread] in H. destruct (gread_strided _ _ _ _) as [xs|] eqn:E; [|discriminate]. injection H as <-.
    cbn [gval_has]. eapply strided_has; [|exact E]. intros o y. apply vec_read_has.
  - cbn [gread] in H. destruct (gread_strided _ _ _ _) as [xs|] eqn:E; [|discriminate]. injection H as <-.
    cbn [gval_has]. eapply strided_has; [|exact E]. intros o y. apply IH.
  - rewrite gread_struct in H. destruct (gread_fields tg l B off 0 fs) as [xs|] eqn:E; [|discriminate]. injection H as <-.
    apply has_struct. revert xs E. generalize 0 as cur. induction fs as [|[f ft] fs IHfs]; intros cur xs E; cbn [gread_fields] in E.
    + injection E as <-. exact I.
    + cbv zeta in E. destruct (gread tg l ft B _) as [y|] eqn:E1; [|discriminate]. destruct (gread_fields tg l B off _ fs) as [r|] eqn:E2; [|discriminate].
      injection E as <-. cbn [has_fields]. split; [reflexivity|]. split; [eapply IH; exact E1|]. eapply IHfs; exact E2.
Qed.

(** ** images exist *)

Lemma chain_increasing : forall (ps : list placement) a b, chain a (map slot_of ps) b -> increasing a ps b.
Proof.
  induction ps as [|[o c] ps IH]; intros a b H; cbn [map chain increasing] in *; [assumption|].
  unfold slot_of in H at 1. cbn [fst snd] in H. destruct H. split; [assumption|]. auto.
Qed.

Lemma image_exists tg l g x : gpos l g = true -> gval_has g x ->
  exists bs, glsl_image tg l g x bs /\ gread tg l g bs 0 = Some x.
Proof.
  intros Hp Hx. destruct (value_placed tg l g x Hx 0) as [ps [A [B C]]].
  pose proof (slots_chain l g 0 Hp) as Hch. rewrite N.add_0_l, <- B in Hch.
  pose proof (chain_increasing _ _ _ Hch) as Hin.
  destruct (copy_all_spec ps (repeat x00 (N.to_nat (gsize l g)))) as [b [_ [L [R Z]]]].
  { eapply increasing_apart; exact Hin. }
  { intros o c Hi. unfold len at 2. rewrite repeat_length, N2Nat.id. apply (chain_within _ _ _ o (len c) Hch).
    apply (in_map slot_of) in Hi. exact Hi. }
  unfold len at 2 in L. rewrite repeat_length, N2Nat.id in L.
  exists b. split; [|now apply C]. exists ps. split; [assumption|]. split; [assumption|]. split; [assumption|].
  intros i Hi Hno. rewrite Z by assumption. apply byte_at_repeat. lia.
Qed.

(** ** C72 *)

(** C72.  The values of a Rust type and the values of its GLSL type correspond one to one:
    every Rust value stands for a GLSL value of the type, and every GLSL value of the type
    is stood for by exactly one Rust value. *)
Lemma C72_one_to_one_proof : forall tg l h t g,
  target_ok tg = true -> out_ty tg l h = Some t -> gty_of h = Some g -> plain h = true ->
  (forall v, hval_ok tg h v = true -> exists x, gval_of tg h v = Some x /\ gval_has g x)
  /\ (forall x, gval_has g x -> exists! v, hval_ok tg h v = true /\ gval_of tg h v = Some x).
Proof.
  intros tg l h t g Htg Ho Hg Hp. split.
  - intros v Hv. destruct (as_bytes_facts tg l h t v Htg Ho Hv) as [s [A1 [A2 [A3 [A4 A5]]]]].
    assert (Hr' : read_at (flat tg t s) 0 (len (flat tg t s)) = Some (flat tg t s)).
    { apply read_at_bytes. split; [lia|]. intros k Hk. now rewrite N.add_0_l. }
    destruct (C23_gpu_reads_host_value_proof tg l h t g v _ _ 0 Htg Ho Hg Hv A4 Hr') as [x [X1 X2]].
    exists x. split; [assumption|]. eapply read_has; exact X2.
  - intros x Hx. destruct (image_exists tg l g x (gpos_of tg Htg h l t g Ho Hg) Hx) as [bs [[ps [P1 [P2 _]]] Hr]].
    destruct (size_align_glsl tg Htg h l t g Ho Hg) as [_ [Hsz _]].
    destruct (host_reads_exists tg l h t bs 0 Htg Ho) as [v Hv]; [lia|].
    destruct (host_reads_facts tg l h t g bs 0 v Htg Ho Hg Hv) as [V1 [_ [x' [V2 V3]]]].
    assert (x' = x) as -> by congruence.
    exists v. split; [auto|]. intros v' [W1 W2]. eapply (gval_inj tg l Htg h t g); eassumption.
Qed.

(** C72.  So a byte string is [v.as_stdN().as_bytes()] for some Rust value [v] if and only if
    it is the image of some GLSL value of the type, and every such value has exactly one
    image. *)
Lemma C72_which_bytes_proof : forall tg l h t g,
  target_ok tg = true -> out_ty tg l h = Some t -> gty_of h = Some g -> plain h = true ->
  (forall bs, (exists v, hval_ok tg h v = true /\ as_std_bytes tg l h v = Some bs)
              <-> (exists x, gval_has g x /\ glsl_image tg l g x bs))
  /\ (forall x, gval_has g x -> exists! bs, glsl_image tg l g x bs).
Proof.
  intros tg l h t g Htg Ho Hg Hp.
  destruct (C72_one_to_one_proof tg l h t g Htg Ho Hg Hp) as [H1 H2].
  assert (U : forall x a b, glsl_image tg l g x a -> glsl_image tg l g x b -> a = b).
  { intros x a b [p [P1 P2]] [q [Q1 Q2]]. assert (q = p) as -> by congruence. eapply image_unique; eassumption. }
  split.
  - intros bs. split.
    + intros [v [Hv Hb]]. destruct (C70_exact_bytes_proof tg l h t g v bs Htg Ho Hg Hp Hv Hb) as [x [X1 X2]].
      exists x. split; [|assumption]. destruct (H1 v Hv) as [x' [E1 E2]]. assert (x' = x) as -> by congruence. assumption.
    + intros [x [Hx Hi]]. destruct (H2 x Hx) as [v [[V1 V2] _]]. exists v. split; [assumption|].
      destruct (as_bytes_facts tg l h t v Htg Ho V1) as [s [_ [_ [_ [A4 _]]]]]. rewrite A4. f_equal.
      destruct (C70_exact_bytes_proof tg l h t g v _ Htg Ho Hg Hp V1 A4) as [x' [X1 X2]].
      assert (x' = x) as -> by congruence. eapply U; eassumption.
  - intros x Hx. destruct (image_exists tg l g x (gpos_of tg Htg h l t g Ho Hg) Hx) as [bs [B1 _]].
    exists bs. split; [assumption|]. intros bs'. now apply U.
Qed.

(** C72.  Whatever a shader stores into a block, the host reads a Rust value with exactly that
    meaning; writing it back gives a block in which the shader reads the same value again. *)
Lemma C72_any_shader_value_proof : forall tg l h t g x off buf buf',
  target_ok tg = true -> out_ty tg l h = Some t -> gty_of h = Some g -> plain h = true ->
  off + gsize l g <= len buf -> gval_has g x -> stored tg l g x off buf buf' ->
  exists v bs, host_reads tg l h buf' off v /\ gval_of tg h v = Some x
    /\ (forall v', host_reads tg l h buf' off v' -> v' = v)
    /\ as_std_bytes tg l h v = Some bs /\ gread tg l g bs 0 = Some x.
Proof.
  intros tg l h t g x off buf buf' Htg Ho Hg Hp Hl Hx [S1 [S2 S3]].
  destruct (size_align_glsl tg Htg h l t g Ho Hg) as [_ [Hsz _]].
  destruct (host_reads_exists tg l h t buf' off Htg Ho) as [v Hv]; [rewrite S1; lia|].
  destruct (host_reads_facts tg l h t g buf' off v Htg Ho Hg Hv) as [V1 [_ [x' [V2 V3]]]].
  assert (x' = x) as -> by congruence.
  destruct (as_bytes_facts tg l h t v Htg Ho V1) as [s [_ [_ [_ [A4 A5]]]]].
  exists v, (flat tg t s). split; [assumption|]. split; [assumption|]. split; [|split; [assumption|]].
  - intros v' Hv'. destruct (host_reads_facts tg l h t g buf' off v' Htg Ho Hg Hv') as [W1 [_ [x' [W2 W3]]]].
    assert (x' = x) as -> by congruence. eapply (gval_inj tg l Htg h t g); eassumption.
  - assert (Hr' : read_at (flat tg t s) 0 (len (flat tg t s)) = Some (flat tg t s)).
    { apply read_at_bytes. split; [lia|]. intros k Hk. now rewrite N.add_0_l. }
    destruct (C23_gpu_reads_host_value_proof tg l h t g v _ _ 0 Htg Ho Hg V1 A4 Hr') as [y [Y1 Y2]]. congruence.
Qed.

(** ** Examples *)

(** a GLSL value of [struct ContainsBools { bool x; bvec2 y; }] and the Rust value for it; a
    word other than 0 or 1 is read as [true] and written back as 1 *)
Lemma C72_ex_proof :
  exists t g, out_ty x86_64 L430 contains_bools = Some t /\ gty_of contains_bools = Some g /\ plain contains_bools = true
    /\ gval_has g (GVStruct [("x", GVBool true); ("y", GVVec [GVBool false; GVBool true])])
    /\ gval_of x86_64 contains_bools (HVRec [("x", HVBool true); ("y", HVRec [("x", HVBool false); ("y", HVBool true)])])
       = Some (GVStruct [("x", GVBool true); ("y", GVVec [GVBool false; GVBool true])])
    /\ as_std_bytes x86_64 L430 contains_bools (HVRec [("x", HVBool true); ("y", HVRec [("x", HVBool false); ("y", HVBool true)])])
       = Some [x01;x00;x00;x00; x00;x00;x00;x00; x00;x00;x00;x00; x01;x00;x00;x00]
    /\ stored x86_64 L430 g (GVStruct [("x", GVBool true); ("y", GVVec [GVBool false; GVBool true])]) 0 (repeat x00 16)
         [xff;x00;x00;x00; x00;x00;x00;x00; x00;x00;x00;x00; x00;x02;x00;x00]
    /\ ~ gval_has g (GVStruct [("x", GVBool true); ("y", GVVec [GVBool false])])
    /\ ~ gval_has (GScalar GUint) (GVBits (2 ^ 32)).
Proof.
  do 2 eexists. repeat (split; [vm_compute; reflexivity|]). split.
  { cbn [gval_has vec_has scalar_has length]. repeat split; repeat constructor. }
  repeat (split; [vm_compute; reflexivity|]). split.
  { split; [reflexivity|]. split; [vm_compute; reflexivity|].
    replace (0 + gsize L430 _) with 16 by (vm_compute; reflexivity). intros i [Hi|Hi]; [lia|].
    unfold byte_at. rewrite !(proj2 (nth_error_None _ _)); [reflexivity| |]; cbn [length repeat]; lia. }
  split.
  - cbn [gval_has vec_has]. intros [_ [_ [_ [[H _] _]]]]. discriminate H.
  - cbn [gval_has scalar_has]. lia.
Qed.
