(** * WGSL declarations of the same types *)

From Coq Require Import NArith String Bool List Lia ZArith PeanoNat.
From Coq Require Import ZifyBool ZifyN ZifyNat.
From Coq Require Import Strings.Byte.
From Verif Require Import Rust Internal Prims Derive Host Rows Buffer SpecGlsl SpecHost SpecTypes SpecBuf SpecBytes SpecBlock SpecUse SpecGpu SpecWgsl
  Arith RustFacts DeriveFacts TypeFacts HostFacts GlslFacts BufferFacts WriterFacts Proofs_Types Proofs_Slices GpuFacts Proofs_RowMajor
  Proofs_Use Proofs_Vulkan Proofs_Gpu Proofs_Bytes Samples.
Import ListNotations.
Local Open Scope string_scope.
Local Open Scope N_scope.
Ltac Zify.zify_post_hook ::= Z.to_euclidean_division_equations.

Section WtyInd.
  Variable P : wty -> Prop.
  Hypothesis Hs : forall s, P (WScalar s).
  Hypothesis Hv : forall s n, P (WVec s n).
  Hypothesis Hm : forall c r, P (WMat c r).
  Hypothesis Ha : forall e n, P e -> P (WArr e n).
  Hypothesis Hst : forall n ms, Forall (fun m => P (snd m)) ms -> P (WStruct n ms).
  Fixpoint wty_ind' (t : wty) : P t :=
    match t with
    | WScalar s => Hs s
    | WVec s n => Hv s n
    | WMat c r => Hm c r
    | WArr e n => Ha e n (wty_ind' e)
    | WStruct n ms => Hst n ms ((fix go ms : Forall (fun m => P (snd m)) ms :=
        match ms with [] => Forall_nil _ | m :: r => Forall_cons m (wty_ind' (snd m)) (go r) end) ms)
    end.
End WtyInd.

Notation wmember := (string * (option N * option N) * wty)%type.
Definition mpair (m : wmember) : N * N := (given (m_align m) (w_align (m_type m)), given (m_size m) (w_size (m_type m))).
Definition mfield (m : wmember) : string * gty := (m_name m, glsl_of (m_type m)).

(** ** reading a structure *)
Fixpoint wread_fields (buf : list byte) (off : N) (ms : list wmember) (offs : list N) : option (list (string * gval)) :=
  match ms, offs with
  | m :: ms', o :: offs' =>
    match wread (snd m) buf (off + o), wread_fields buf off ms' offs' with
    | Some v, Some vs => Some ((m_name m, v) :: vs)
    | _, _ => None
    end
  | _, _ => Some []
  end.
Lemma wread_struct n ms buf off :
  wread (WStruct n ms) buf off = match wread_fields buf off ms (w_offsets ms) with Some vs => Some (GVStruct vs) | None => None end.
Proof.
  cbn [wread].
  match goal with |- match ?a with _ => _ end = match ?b with _ => _ end => assert (E : a = b); [|now rewrite E] end.
  generalize (w_offsets ms). induction ms as [|m ms IH]; intros [|o offs]; [reflexivity..|].
  cbn [wread_fields]. rewrite <- IH. reflexivity.
Qed.

Lemma wread_fields_glsl tg l buf off ms :
  Forall (fun m => forall buf off, wread (snd m) buf off = gread tg l (glsl_of (snd m)) buf off) ms ->
  forall cur, wread_fields buf off ms (member_offsets cur (gmembers l (map mfield ms))) = gread_fields tg l buf off cur (map mfield ms).
Proof.
  induction 1 as [|m ms Hm H IH]; intros cur; [reflexivity|].
  change (map mfield (m :: ms)) with ((m_name m, glsl_of (snd m)) :: map mfield ms). rewrite gmembers_cons.
  cbn [member_offsets wread_fields gread_fields]. cbv zeta. rewrite Hm, IH. reflexivity.
Qed.

Lemma struct_read tg l n ms :
  Forall (fun m => forall buf off, wread (snd m) buf off = gread tg l (glsl_of (snd m)) buf off) ms ->
  w_offsets ms = goffsets l (map mfield ms) ->
  forall buf off, wread (WStruct n ms) buf off = gread tg l (glsl_of (WStruct n ms)) buf off.
Proof.
  intros H E buf off. rewrite wread_struct. cbn [glsl_of]. fold mfield. rewrite gread_struct, E. unfold goffsets.
  now rewrite (wread_fields_glsl tg l).
Qed.

Lemma le_val_fold bs : le_val bs = fold_right (fun b acc => Byte.to_N b + 256 * acc) 0 bs.
Proof. reflexivity. Qed.

Lemma scalar_read tg s buf off : t_big tg = false -> wread_scalar buf off = gread_scalar tg (glsl_scalar s) buf off.
Proof.
  intros Hb. unfold wread_scalar, gread_scalar. destruct s; cbn [glsl_scalar scalar_size];
    (destruct (read_at buf off 4); [|reflexivity]); unfold dec_bytes; rewrite Hb; reflexivity.
Qed.
Lemma vec_read tg s n buf off : t_big tg = false -> wread_vec n buf off = gread_vec tg (glsl_scalar s) n buf off.
Proof.
  intros Hb. unfold wread_vec, gread_vec. replace (scalar_size (glsl_scalar s)) with 4 by now destruct s.
  rewrite (vread_strided (wread_scalar buf) (gread_scalar tg (glsl_scalar s) buf)); [reflexivity|].
  intros o. now apply scalar_read.
Qed.

Lemma w_vec_align_eq s n : (2 <= n <= 4)%nat -> vec_align (glsl_scalar s) n = w_vec_align n.
Proof. intros H. destruct n as [|[|[|[|[|n]]]]]; try lia; destruct s; reflexivity. Qed.
Lemma w_vec_align_float n : (2 <= n <= 4)%nat -> vec_align GFloat n = w_vec_align n.
Proof. apply (w_vec_align_eq WF32). Qed.

Lemma no_attrs_fields n ms : no_attrs (WStruct n ms) = true <->
  Forall (fun m => m_align m = None /\ m_size m = None /\ no_attrs (snd m) = true) ms.
Proof.
  cbn [no_attrs]. rewrite forallb_forall, Forall_forall. unfold m_type. split; intros H m Hin; specialize (H m Hin).
  - destruct (m_align m), (m_size m); try discriminate. auto.
  - destruct H as [-> [-> H]]. exact H.
Qed.

Lemma gwf_members n ms : gwf (glsl_of (WStruct n ms)) <-> ms <> [] /\ Forall (fun m => gwf (glsl_of (snd m))) ms.
Proof.
  cbn [glsl_of]. fold mfield. rewrite gwf_fields. split; intros [A B]; split.
  - intros ->. now apply A.
  - rewrite Forall_map in B. exact B.
  - intros E. apply map_eq_nil in E. contradiction.
  - apply Forall_map. exact B.
Qed.
(** member names are distinct *)
Fixpoint gdist (g : gty) : Prop :=
  match g with
  | GScalar _ | GVec _ _ | GMat _ _ _ => True
  | GArr e _ => gdist e
  | GStruct _ fs => NoDup (map fst fs) /\ (fix go fs := match fs with [] => True | nf :: r => gdist (snd nf) /\ go r end) fs
  end.
Lemma gdist_fields n fs : gdist (GStruct n fs) <-> NoDup (map fst fs) /\ Forall (fun nf => gdist (snd nf)) fs.
Proof.
  cbn [gdist]. assert (E : forall xs : list (string * gty),
    (fix go fs := match fs with [] => True | nf :: r => gdist (snd nf) /\ go r end) xs <-> Forall (fun nf => gdist (snd nf)) xs).
  { induction xs as [|x xs IH]; [split; constructor|]. rewrite IH. split; [intros [A B]; now constructor|intros H; inversion H; now split]. }
  rewrite E. reflexivity.
Qed.
Lemma gdist_members n ms : gdist (glsl_of (WStruct n ms)) <-> NoDup (map m_name ms) /\ Forall (fun m => gdist (glsl_of (snd m))) ms.
Proof.
  cbn [glsl_of]. fold mfield. rewrite gdist_fields, map_map. cbn [mfield fst]. split; intros [A B]; split; try assumption.
  - rewrite Forall_map in B. exact B.
  - apply Forall_map. exact B.
Qed.
Lemma gnd_gdist : forall g, gnd g -> gdist g.
Proof.
  induction g as [s|s n|s c r|e n IH|n fs IH] using gty_ind'; intros H; try exact I; [destruct H|].
  apply gnd_fields in H. destruct H as [A B]. apply gdist_fields. split; [assumption|].
  rewrite Forall_forall in *. auto.
Qed.
Lemma gnd_members n ms : gnd (glsl_of (WStruct n ms)) <-> NoDup (map m_name ms) /\ Forall (fun m => gnd (glsl_of (snd m))) ms.
Proof.
  cbn [glsl_of]. fold mfield. rewrite gnd_fields, map_map. cbn [mfield fst]. split; intros [A B]; split; try assumption.
  - rewrite Forall_map in B. exact B.
  - apply Forall_map. exact B.
Qed.

(** ** declarations without attributes have the std430 layout *)
Definition plain_ok (w : wty) : Prop :=
  w_align w = base_align L430 (glsl_of w) /\ w_size w = gsize L430 (glsl_of w)
  /\ forall tg, t_big tg = false -> forall buf off, wread w buf off = gread tg L430 (glsl_of w) buf off.

Lemma plain_pairs ms :
  Forall (fun m => m_align m = None /\ m_size m = None /\ no_attrs (snd m) = true) ms -> Forall (fun m => plain_ok (snd m)) ms ->
  map mpair ms = gmembers L430 (map mfield ms).
Proof.
  intros H1 H2. induction ms as [|m ms IH]; [reflexivity|]. inversion_clear H1 as [|? ? [A [B _]] H1']. inversion_clear H2 as [|? ? [C [D _]] H2'].
  change (map mfield (m :: ms)) with ((m_name m, glsl_of (snd m)) :: map mfield ms). rewrite gmembers_cons. cbn [map]. f_equal; [|now apply IH]. unfold mpair. rewrite A, B. cbn [given]. unfold m_type. now rewrite C, D.
Qed.

Lemma no_attrs_std430 : forall w, no_attrs w = true -> gwf (glsl_of w) -> plain_ok w.
Proof.
  induction w as [s|s n|c r|e n IH|n ms IH] using wty_ind'; intros Hn Hw.
  - repeat split; cbn [w_align w_size glsl_of base_align gsize]; [now destruct s..|]. intros tg Hb buf off. cbn [wread gread]. now apply scalar_read.
  - cbn [glsl_of gwf] in Hw. split; [|split]; cbn [w_align w_size glsl_of base_align gsize].
    + symmetry. now apply w_vec_align_eq.
    + destruct s; cbn [glsl_scalar scalar_size]; lia.
    + intros tg Hb buf off. cbn [wread gread]. now apply vec_read.
  - cbn [glsl_of gwf] in Hw. destruct Hw as [_ Hr].
    assert (E : col_stride L430 GFloat r = round_up (4 * N.of_nat r) (w_vec_align r)).
    { unfold col_stride. cbn [vec4_round scalar_size]. rewrite w_vec_align_float by assumption. f_equal. lia. }
    split; [|split]; cbn [w_align w_size glsl_of base_align gsize vec4_round].
    + symmetry. now apply w_vec_align_float.
    + now rewrite E.
    + intros tg Hb buf off. cbn [wread gread]. rewrite E.
      rewrite (vread_strided (wread_vec r buf) (gread_vec tg GFloat r buf)); [reflexivity|]. intros o. now apply (vec_read tg WF32).
  - cbn [no_attrs] in Hn. cbn [glsl_of gwf] in Hw. destruct (IH Hn (proj2 Hw)) as [A [B C]].
    split; [|split]; cbn [w_align w_size glsl_of base_align gsize vec4_round].
    + exact A.
    + now rewrite A, B.
    + intros tg Hb buf off. cbn [wread gread]. unfold array_stride. cbn [vec4_round]. rewrite A, B.
      rewrite (vread_strided (wread e buf) (gread tg L430 (glsl_of e) buf)); [reflexivity|]. intros o. now apply C.
  - apply gwf_members in Hw. destruct Hw as [Hne HF]. pose proof (proj1 (no_attrs_fields n ms) Hn) as HA.
    assert (HP : Forall (fun m => plain_ok (snd m)) ms).
    { rewrite Forall_forall in *. intros m Hin. apply IH; [assumption|apply HA; assumption|now apply HF]. }
    pose proof (plain_pairs ms HA HP) as E.
    assert (EA : w_align (WStruct n ms) = base_align L430 (glsl_of (WStruct n ms))).
    { cbn [w_align glsl_of base_align vec4_round]. fold mfield. rewrite map_map. cbn [mfield snd]. f_equal.
      transitivity (map fst (map mpair ms)); [now rewrite map_map|]. rewrite E. unfold gmembers. rewrite !map_map. reflexivity. }
    split; [exact EA|]. split.
    + cbn [w_size]. fold mpair. rewrite E, EA. cbn [glsl_of]. fold mfield. now rewrite gsize_struct.
    + intros tg Hb. apply struct_read.
      * eapply Forall_impl; [|exact HP]. intros m [_ [_ C]]. now apply C.
      * unfold w_offsets, goffsets. fold mpair. now rewrite E.
Qed.

Lemma w_valid_struct c n ms : w_valid c (WStruct n ms) <->
  ms <> [] /\ NoDup (map m_name ms) /\ Forall (fun m => w_valid c (snd m)) ms
  /\ (forall m n, In m ms -> m_align m = Some n -> (exists k, n = 2 ^ k) /\ (required_align c (m_type m) | n))
  /\ (forall m n, In m ms -> m_size m = Some n -> w_size (m_type m) <= n)
  /\ (forall i m o, nth_error ms i = Some m -> nth_error (w_offsets ms) i = Some o -> (required_align c (m_type m) | o))
  /\ (c = WUniform -> forall i j m o o', (i < j)%nat -> nth_error ms i = Some m -> is_wstruct (m_type m) = true ->
        nth_error (w_offsets ms) i = Some o -> nth_error (w_offsets ms) j = Some o' ->
        o + round_up (w_size (m_type m)) 16 <= o').
Proof.
  cbn [w_valid]. assert (E : forall xs : list wmember,
    (fix all ms := match ms with [] => True | m :: r => w_valid c (snd m) /\ all r end) xs <-> Forall (fun m => w_valid c (snd m)) xs).
  { induction xs as [|x xs IH]; [split; constructor|]. rewrite IH. split; [intros [A B]; now constructor|intros H; inversion H; now split]. }
  rewrite E. reflexivity.
Qed.

Lemma storage_valid : forall w, no_attrs w = true -> gwf (glsl_of w) ->
  gdist (glsl_of w) -> w_valid WStorage w.
Proof.
  induction w as [s|s n|c r|e n IH|n ms IH] using wty_ind'; intros Hn Hw Hd.
  - exact I.
  - exact Hw.
  - exact Hw.
  - cbn [no_attrs glsl_of gwf gdist] in *. destruct Hw as [Hk Hw]. cbn [w_valid]. split; [assumption|]. split; [now apply IH|].
    cbv zeta. split; [|discriminate]. cbn [required_align]. apply round_up_divide.
    destruct (no_attrs_std430 e Hn Hw) as [-> _]. apply pow2_pos, base_align_pow2, Hw.
  - pose proof Hw as Hw'. apply gwf_members in Hw'. destruct Hw' as [Hne HF]. apply gdist_members in Hd. destruct Hd as [Hnd HD].
    pose proof (proj1 (no_attrs_fields n ms) Hn) as HA. rewrite Forall_forall in *.
    apply w_valid_struct. split; [assumption|]. split; [assumption|]. split; [|split; [|split; [|split]]].
    + apply Forall_forall. intros m Hin. apply IH; auto. apply HA; assumption.
    + intros m k Hin E. destruct (HA m Hin) as [A _]. congruence.
    + intros m k Hin E. destruct (HA m Hin) as [_ [A _]]. congruence.
    + intros i m o Em Eo. unfold w_offsets in Eo. fold mpair in Eo.
      pose proof (nth_error_In _ _ Em) as Hin.
      assert (HP : Forall (fun m => plain_ok (snd m)) ms).
      { apply Forall_forall. intros m' Hin'. apply no_attrs_std430; [apply HA; assumption|now apply HF]. }
      rewrite plain_pairs in Eo; [|now apply Forall_forall|assumption].
      destruct (member_offsets_at (gmembers L430 (map mfield ms)) 0 i o) as [a [z [E D]]]; [|exact Eo|].
      { apply gmembers_pos. apply Forall_map, Forall_forall. intros m' Hin'. now apply HF. }
      unfold gmembers in E. rewrite !nth_error_map, Em in E. cbn in E. injection E as <- _.
      cbn [required_align]. rewrite Forall_forall in HP. destruct (HP m Hin) as [E _]. unfold m_type. rewrite E. exact D.
    + discriminate.
Qed.

(** ** std140 *)

(** the shareable types have alignments up to 16 *)
Lemma plain_align_le : forall w, no_attrs w = true -> gwf (glsl_of w) -> w_align w <= 16.
Proof.
  induction w as [s|s n|c r|e n IH|n ms IH] using wty_ind'; intros Hn Hw; cbn [w_align].
  - lia.
  - destruct n as [|[|[|n]]]; cbn [w_vec_align]; lia.
  - destruct r as [|[|[|r]]]; cbn [w_vec_align]; lia.
  - cbn [no_attrs glsl_of gwf] in *. now apply IH.
  - apply gwf_members in Hw. destruct Hw as [_ HF]. apply no_attrs_fields in Hn.
    induction ms as [|m ms IHm]; cbn [map fold_right]; [lia|].
    inversion_clear IH as [|? ? I1 I2]. inversion_clear HF as [|? ? F1 F2]. inversion_clear Hn as [|? ? [N1 [_ N2]] N3].
    specialize (IHm I2 N3 F2). rewrite N1. cbn [given]. unfold m_type in *. specialize (I1 N2 F1). lia.
Qed.

Lemma struct_align140 : forall w, no_attrs w = true -> gwf (glsl_of w) -> base_align L140 (glsl_of w) <= 16
  /\ (is_wstruct w = true -> base_align L140 (glsl_of w) = 16).
Proof.
  induction w as [s|s n|c r|e n IH|n ms IH] using wty_ind'; intros Hn Hw.
  - split; [destruct s; cbn; lia|discriminate].
  - split; [|discriminate]. cbn [glsl_of gwf base_align] in *. rewrite w_vec_align_eq by assumption. destruct n as [|[|[|n]]]; cbn [w_vec_align]; lia.
  - split; [|discriminate]. cbn [glsl_of gwf base_align vec4_round] in *. rewrite w_vec_align_float by apply Hw.
    destruct r as [|[|[|r]]]; cbn [w_vec_align]; vm_compute; discriminate.
  - split; [|discriminate]. cbn [no_attrs glsl_of gwf base_align vec4_round] in *. destruct Hw as [_ Hw].
    rewrite round_up_pow2_16 by now apply base_align_pow2. specialize (IH Hn Hw). lia.
  - pose proof (base_align_pow2 L140 _ Hw) as HP. pose proof Hw as Hw'. apply gwf_members in Hw'. destruct Hw' as [Hne HF].
    assert (E : base_align L140 (glsl_of (WStruct n ms)) = 16); [|now rewrite E].
    cbn [glsl_of base_align vec4_round] in *. fold mfield in *. rewrite map_map in *. cbn [mfield snd] in *.
    rewrite round_up_pow2_16.
    2:{ apply fold_max_pow2_ne; [destruct ms; [congruence|discriminate]|]. apply Forall_map.
        eapply Forall_impl; [|exact HF]. intros m. apply base_align_pow2. }
    assert (fold_right N.max 0 (map (fun x => base_align L140 (glsl_of (m_type x))) ms) <= 16); [|lia].
    apply no_attrs_fields in Hn. clear HP Hne Hw. induction ms as [|m ms IHm]; cbn [map fold_right]; [lia|].
    inversion_clear IH as [|? ? I1 I2]. inversion_clear HF as [|? ? F1 F2]. inversion_clear Hn as [|? ? [_ [_ N2]] N3].
    specialize (IHm I2 N3 F2). specialize (I1 N2 F1). unfold m_type in *. lia.
Qed.

(** other types: no difference between the layouts *)
Lemma leaf_same w : is_wstruct w = false -> gwf (glsl_of w) -> gnd (glsl_of w) -> has_mat2 (glsl_of w) = false -> no_attrs w = true ->
  base_align L140 (glsl_of w) = w_align w /\ gsize L140 (glsl_of w) = w_size w
  /\ forall tg, t_big tg = false -> forall buf off, wread w buf off = gread tg L140 (glsl_of w) buf off.
Proof.
  intros Hs Hw Hd Hm Hn. destruct (no_attrs_std430 w Hn Hw) as [A [B C]]. rewrite A, B.
  destruct w as [s|s n|c r|e n|n ms]; [now repeat split; auto..| |destruct Hd|discriminate].
  cbn [glsl_of gwf has_mat2] in *. apply Nat.eqb_neq in Hm.
  assert (E : vec4_round L140 (vec_align GFloat r) = vec_align GFloat r) by (destruct r as [|[|[|[|[|r]]]]]; try lia; reflexivity).
  assert (E2 : col_stride L140 GFloat r = col_stride L430 GFloat r) by (unfold col_stride; rewrite E; reflexivity).
  split; [exact E|]. split; [cbn [gsize]; now rewrite E2|]. intros tg Hb buf off. rewrite (C tg Hb). cbn [gread]. now rewrite E2.
Qed.

Lemma mat2_members n ms : has_mat2 (glsl_of (WStruct n ms)) = false <-> Forall (fun m => has_mat2 (glsl_of (snd m)) = false) ms.
Proof.
  cbn [glsl_of has_mat2]. fold mfield. rewrite Forall_forall. split.
  - intros H m Hin. destruct (has_mat2 (glsl_of (snd m))) eqn:E; [|reflexivity].
    assert (X : existsb (fun nf => has_mat2 (snd nf)) (map mfield ms) = true); [|congruence].
    apply existsb_exists. exists (mfield m). split; [now apply in_map|exact E].
  - intros H. destruct (existsb _ _) eqn:E; [|reflexivity]. apply existsb_exists in E. destruct E as [nf [Hin E]].
    apply in_map_iff in Hin. destruct Hin as [m [<- Hin]]. specialize (H m Hin). cbn [mfield snd] in E. unfold m_type in E. congruence.
Qed.

(** with [@align(16)] and [@size] on the members that are structures *)
Definition attr_member (m : wmember) : wmember :=
  (m_name m,
   (if is_wstruct (m_type m) then (Some 16, Some (gsize L140 (glsl_of (m_type m)))) else (None, None)),
   std140_attrs (m_type m)).

Lemma std140_attrs_struct n ms : std140_attrs (WStruct n ms) = WStruct n (map attr_member ms).
Proof. reflexivity. Qed.

Lemma glsl_std140_attrs : forall w, glsl_of (std140_attrs w) = glsl_of w /\ is_wstruct (std140_attrs w) = is_wstruct w.
Proof.
  induction w as [s|s n|c r|e n IH|n ms IH] using wty_ind'; try (split; reflexivity).
  - split; [|reflexivity]. cbn [std140_attrs glsl_of]. now rewrite (proj1 IH).
  - split; [|reflexivity]. rewrite std140_attrs_struct. cbn [glsl_of]. f_equal. rewrite map_map. apply map_ext_in.
    intros m Hin. rewrite Forall_forall in IH. unfold attr_member. cbn [m_name m_type fst snd]. f_equal. apply (IH m Hin).
Qed.

Definition attrs_ok (w : wty) : Prop :=
  let w' := std140_attrs w in
  pow2 (w_align w') /\ w_align w' <= 16
  /\ (is_wstruct w = false -> w_align w' = base_align L140 (glsl_of w) /\ w_size w' = gsize L140 (glsl_of w))
  /\ w_size w' <= gsize L140 (glsl_of w)
  /\ w_valid WUniform w'
  /\ forall tg, t_big tg = false -> forall buf off, wread w' buf off = gread tg L140 (glsl_of w) buf off.

Lemma round_up_mono_div m a b : pow2 a -> pow2 b -> a <= b -> round_up m a <= round_up m b.
Proof.
  intros Ha Hb Hab. apply round_up_least; [now apply pow2_pos|apply round_up_ge; now apply pow2_pos|].
  transitivity b; [now apply pow2_divide|apply round_up_divide; now apply pow2_pos].
Qed.

Lemma attrs_std140 : forall w, no_attrs w = true -> gwf (glsl_of w) -> gnd (glsl_of w) -> has_mat2 (glsl_of w) = false -> attrs_ok w.
Proof.
  induction w as [s|s n|c r|e n IH|n ms IH] using wty_ind'; intros Hn Hw Hd Hm.
  1-3: match goal with |- attrs_ok ?w =>
    destruct (leaf_same w eq_refl Hw Hd Hm Hn) as [A [B C]]; unfold attrs_ok; change (std140_attrs w) with w; cbv zeta;
    assert (HP : pow2 (w_align w)) by (rewrite <- A; now apply base_align_pow2);
    pose proof (plain_align_le w Hn Hw);
    split; [assumption|]; split; [assumption|]; split; [split; congruence|]; split; [lia|]; split; [exact Hw|assumption] end.
  - destruct Hd.
  - pose proof Hw as Hw'. apply gwf_members in Hw'. destruct Hw' as [Hne HF]. pose proof Hd as Hd'. apply gnd_members in Hd'.
    destruct Hd' as [Hnd HD]. pose proof Hm as Hm'. apply mat2_members in Hm'. pose proof (proj1 (no_attrs_fields n ms) Hn) as HA.
    assert (HO : Forall (fun m => attrs_ok (snd m)) ms).
    { rewrite Forall_forall in *. intros m Hin. apply IH; auto. apply HA; assumption. }
    assert (E : map mpair (map attr_member ms) = gmembers L140 (map mfield ms)).
    { unfold gmembers. rewrite !map_map. apply map_ext_in. intros m Hin. rewrite Forall_forall in *.
      destruct (HA m Hin) as [_ [_ N1]]. destruct (HO m Hin) as [_ [_ [O1 _]]].
      unfold mpair, attr_member, mfield, m_align, m_size, m_type. cbn [fst snd].
      destruct (is_wstruct (snd m)) eqn:Es; cbn [given fst snd].
      - f_equal. symmetry. apply struct_align140; auto.
      - destruct (O1 eq_refl) as [X Y]. now rewrite X, Y. }
    assert (EO : w_offsets (map attr_member ms) = goffsets L140 (map mfield ms)).
    { unfold w_offsets, goffsets. fold mpair. now rewrite E. }
    assert (EA : w_align (WStruct n (map attr_member ms)) = fold_right N.max 0 (map (fun m => base_align L140 (glsl_of (snd m))) ms)).
    { cbn [w_align]. f_equal. transitivity (map fst (map mpair (map attr_member ms))); [now rewrite !map_map|].
      rewrite E. unfold gmembers. rewrite !map_map. reflexivity. }
    assert (HP : pow2 (w_align (WStruct n (map attr_member ms)))).
    { rewrite EA. apply fold_max_pow2_ne; [destruct ms; [congruence|discriminate]|]. apply Forall_map.
      eapply Forall_impl; [|exact HF]. intros m. apply base_align_pow2. }
    assert (HL : w_align (WStruct n (map attr_member ms)) <= 16).
    { rewrite EA. rewrite Forall_forall in *. clear -HA HF. induction ms as [|m ms IHm]; cbn [map fold_right]; [lia|].
      destruct (struct_align140 (snd m)) as [X _]; [apply HA; now left|apply HF; now left|].
      specialize (IHm (fun m' h => HF m' (or_intror h)) (fun m' h => HA m' (or_intror h))). lia. }
    assert (HB : base_align L140 (glsl_of (WStruct n ms)) = 16) by now apply struct_align140.
    assert (Hpos : Forall (fun m => 0 < fst m) (gmembers L140 (map mfield ms))).
    { apply gmembers_pos. apply Forall_map. exact HF. }
    unfold attrs_ok. cbv zeta. rewrite std140_attrs_struct. split; [exact HP|]. split; [exact HL|]. split; [discriminate|]. split; [|split].
    + cbn [w_size]. fold mpair. rewrite E. cbn [glsl_of]. fold mfield. rewrite gsize_struct.
      change (GStruct n (map mfield ms)) with (glsl_of (WStruct n ms)). rewrite HB. apply round_up_mono_div; [exact HP|exact pow2_16|exact HL].
    + apply w_valid_struct. rewrite EO. split; [intros X; apply map_eq_nil in X; contradiction|]. split; [now rewrite map_map|].
      split; [|split; [|split; [|split]]].
      * apply Forall_map. eapply Forall_impl; [|exact HO]. intros m H. apply H.
      * intros m k Hin Ek. apply in_map_iff in Hin. destruct Hin as [m0 [<- Hin]]. unfold attr_member, m_align, m_type in *. cbn [fst snd] in *.
        destruct (is_wstruct (snd m0)) eqn:Es; [|discriminate]. injection Ek as <-. split; [exists 4; reflexivity|].
        rewrite Forall_forall in HO. destruct (HO m0 Hin) as [P1 [P2 _]]. destruct (snd m0); try discriminate.
        rewrite std140_attrs_struct in *. cbn [required_align]. rewrite round_up_pow2_16 by assumption.
        replace (N.max 16 _) with 16 by lia. reflexivity.
      * intros m k Hin Ek. apply in_map_iff in Hin. destruct Hin as [m0 [<- Hin]]. unfold attr_member, m_size, m_type in *. cbn [fst snd] in *.
        destruct (is_wstruct (snd m0)) eqn:Es; [|discriminate]. injection Ek as <-.
        rewrite Forall_forall in HO. apply (HO m0 Hin).
      * intros i m o Em Eo. rewrite nth_error_map in Em. destruct (nth_error ms i) as [m0|] eqn:Em0; [|discriminate]. injection Em as <-.
        destruct (member_offsets_at _ 0 i o Hpos Eo) as [a [z [X D]]]. unfold gmembers in X. rewrite !nth_error_map, Em0 in X.
        cbn in X. injection X as <- _. pose proof (nth_error_In _ _ Em0) as Hin. rewrite Forall_forall in *.
        destruct (HO m0 Hin) as [P1 [P2 [P3 _]]]. unfold attr_member, m_type in *. cbn [fst snd].
        destruct (is_wstruct (snd m0)) eqn:Es.
        -- replace (required_align WUniform (std140_attrs (snd m0))) with 16.
           ++ destruct (HA m0 Hin) as [_ [_ N1]]. destruct (struct_align140 (snd m0)) as [_ X]; auto. now rewrite X in D by assumption.
           ++ destruct (snd m0); try discriminate. rewrite std140_attrs_struct in *. cbn [required_align].
              rewrite round_up_pow2_16 by assumption. lia.
        -- replace (required_align WUniform (std140_attrs (snd m0))) with (w_align (std140_attrs (snd m0))).
           ++ destruct (P3 eq_refl) as [-> _]. exact D.
           ++ specialize (HD m0 Hin). destruct (snd m0); try discriminate; try reflexivity. destruct HD.
      * intros _ i j m o o' Hij Em Es Eo Eo'. rewrite nth_error_map in Em. destruct (nth_error ms i) as [m0|] eqn:Em0; [|discriminate]. injection Em as <-.
        pose proof (nth_error_In _ _ Em0) as Hin. rewrite Forall_forall in HA, HF, HO.
        assert (Eg : nth_error (gmembers L140 (map mfield ms)) i = Some (base_align L140 (glsl_of (snd m0)), gsize L140 (glsl_of (snd m0)))).
        { unfold gmembers. rewrite !nth_error_map, Em0. reflexivity. }
        pose proof (member_offsets_apart _ 0 i j o o' _ _ Hpos Hij Eo Eo' Eg) as X.
        unfold attr_member, m_type in *. cbn [fst snd] in *. rewrite (proj2 (glsl_std140_attrs (snd m0))) in Es.
        destruct (HA m0 Hin) as [_ [_ N1]]. destruct (struct_align140 (snd m0) N1 (HF m0 Hin)) as [_ S16]. specialize (S16 Es).
        destruct (HO m0 Hin) as [_ [_ [_ [P4 _]]]].
        assert (round_up (w_size (std140_attrs (snd m0))) 16 <= gsize L140 (glsl_of (snd m0))); [|lia].
        apply round_up_least; [lia|exact P4|]. clear -Es S16 Hin.
        destruct (snd m0) as [| | | |k l]; try discriminate. cbn [glsl_of] in *. rewrite gsize_struct, S16. apply round_up_divide. lia.
    + intros tg Hb. rewrite <- (proj1 (glsl_std140_attrs (WStruct n ms))). rewrite std140_attrs_struct. apply struct_read.
      * apply Forall_map. eapply Forall_impl; [|exact HO]. intros m H buf off. unfold attr_member. cbn [snd].
        rewrite (proj1 (glsl_std140_attrs (m_type m))). now apply H.
      * rewrite EO. f_equal. rewrite map_map. apply map_ext. intros m. unfold mfield, attr_member. cbn [m_name m_type fst snd].
        now rewrite (proj1 (glsl_std140_attrs _)).
Qed.

(** ** a plain declaration in a uniform buffer *)
Lemma std140_size_struct w : is_wstruct w = true -> no_attrs w = true -> gwf (glsl_of w) -> (16 | gsize L140 (glsl_of w)).
Proof.
  intros Hs Hn Hw. destruct (struct_align140 w Hn Hw) as [_ S16]. specialize (S16 Hs).
  destruct w; try discriminate. cbn [glsl_of] in *. rewrite gsize_struct, S16. apply round_up_divide. lia.
Qed.

Lemma pow2_w_align w : no_attrs w = true -> gwf (glsl_of w) -> pow2 (w_align w) /\ (w_align w | 16) /\ 0 < w_align w.
Proof.
  intros Hn Hw. destruct (no_attrs_std430 w Hn Hw) as [A _]. pose proof (plain_align_le w Hn Hw) as L.
  assert (P : pow2 (w_align w)) by (rewrite A; now apply base_align_pow2).
  split; [assumption|]. split; [apply pow2_divide; [assumption|exact pow2_16|assumption]|now apply pow2_pos].
Qed.

Lemma required_uniform w : no_attrs w = true -> gwf (glsl_of w) -> gnd (glsl_of w) ->
  required_align WUniform w = if is_wstruct w then 16 else w_align w.
Proof.
  intros Hn Hw Hd. destruct w as [s|s n|c r|e n|n ms]; try reflexivity; [destruct Hd|]. cbn [required_align is_wstruct].
  destruct (pow2_w_align _ Hn Hw) as [P _]. pose proof (plain_align_le _ Hn Hw). rewrite round_up_pow2_16 by assumption. lia.
Qed.

Definition member_good (m : wmember) : Prop :=
  m_align m = None /\ m_size m = None /\ no_attrs (snd m) = true /\ gwf (glsl_of (snd m)) /\ gnd (glsl_of (snd m))
  /\ has_mat2 (glsl_of (snd m)) = false.

(** sizes agree up to a multiple of 16 *)
Definition sizes_near (m : wmember) : Prop :=
  if is_wstruct (snd m) then gsize L140 (glsl_of (snd m)) = round_up (gsize L430 (glsl_of (snd m))) 16
  else gsize L140 (glsl_of (snd m)) = gsize L430 (glsl_of (snd m)).

Lemma r16_add x y : (16 | x) -> round_up (x + y) 16 = x + round_up y 16.
Proof. intros H. apply round_up_add; [lia|assumption]. Qed.

Lemma uniform_offsets ms : Forall member_good ms -> Forall sizes_near ms ->
  forall cur cur', cur <= cur' -> round_up cur 16 = round_up cur' 16 ->
  (forall j o, nth_error (member_offsets cur (gmembers L430 (map mfield ms))) j = Some o -> cur' <= o) ->
  (forall i m o, nth_error ms i = Some m -> nth_error (member_offsets cur (gmembers L430 (map mfield ms))) i = Some o ->
     (required_align WUniform (snd m) | o)) ->
  (forall i j m o o', (i < j)%nat -> nth_error ms i = Some m -> is_wstruct (snd m) = true ->
     nth_error (member_offsets cur (gmembers L430 (map mfield ms))) i = Some o ->
     nth_error (member_offsets cur (gmembers L430 (map mfield ms))) j = Some o' ->
     o + round_up (w_size (snd m)) 16 <= o') ->
  member_offsets cur (gmembers L430 (map mfield ms)) = member_offsets cur' (gmembers L140 (map mfield ms))
  /\ round_up (members_end cur (gmembers L430 (map mfield ms))) 16 = round_up (members_end cur' (gmembers L140 (map mfield ms))) 16.
Proof.
  induction 1 as [|m ms [G1 [G2 [G3 [G4 [G5 G6]]]]] H IH]; intros HS cur cur' Hle H16 Hge Hreq Hdist; [split; [reflexivity|exact H16]|].
  inversion_clear HS as [|? ? S1 S2].
  change (map mfield (m :: ms)) with ((m_name m, glsl_of (snd m)) :: map mfield ms) in *. rewrite !gmembers_cons in *.
  cbn [member_offsets members_end] in *.
  destruct (no_attrs_std430 (snd m) G3 G4) as [A [B _]]. destruct (pow2_w_align (snd m) G3 G4) as [P [D Q]].
  rewrite <- A in *. set (o := round_up cur (w_align (snd m))) in *.
  pose proof (Hge 0%nat o eq_refl) as Ho. pose proof (Hreq 0%nat m o eq_refl eq_refl) as Hr.
  rewrite required_uniform in Hr by assumption.
  assert (Eo : round_up cur' (base_align L140 (glsl_of (snd m))) = o).
  { destruct (is_wstruct (snd m)) eqn:Es.
    - destruct (struct_align140 (snd m) G3 G4) as [_ X]. rewrite (X Es). apply N.le_antisymm.
      + apply round_up_least; [lia|assumption|assumption].
      + unfold o. apply round_up_least; [assumption| |].
        * pose proof (round_up_ge cur' 16 ltac:(lia)). lia.
        * transitivity 16; [assumption|apply round_up_divide; lia].
    - destruct (leaf_same (snd m) Es G4 G5 G6 G3) as [X _]. rewrite X. apply N.le_antisymm.
      + apply round_up_least; [assumption|assumption|apply round_up_divide; assumption].
      + unfold o. apply round_up_least; [assumption| |apply round_up_divide; assumption].
        pose proof (round_up_ge cur' (w_align (snd m)) Q). lia. }
  rewrite Eo. rewrite <- B in *. unfold sizes_near in S1. rewrite <- B in S1.
  assert (Hpos : Forall (fun m => 0 < fst m) (gmembers L430 (map mfield ms))).
  { apply gmembers_pos. apply Forall_map. eapply Forall_impl; [|exact H]. intros m' G. apply G. }
  assert (Hsz : w_size (snd m) <= gsize L140 (glsl_of (snd m))).
  { destruct (is_wstruct (snd m)); rewrite S1; [apply round_up_ge|]; lia. }
  destruct (IH S2 (o + w_size (snd m)) (o + gsize L140 (glsl_of (snd m)))) as [X Y].
  - lia.
  - destruct (is_wstruct (snd m)) eqn:Es; [|now rewrite S1]. rewrite !r16_add by assumption. rewrite S1.
    f_equal. symmetry. apply round_up_aligned; [lia|]. apply round_up_divide. lia.
  - intros j o' Ej. destruct (is_wstruct (snd m)) eqn:Es.
    + rewrite S1. apply (Hdist 0%nat (S j) m o o'); [lia|reflexivity|assumption|reflexivity|exact Ej].
    + rewrite S1. eapply member_offsets_ge; eassumption.
  - intros i m' o' Em Ei. exact (Hreq (S i) m' o' Em Ei).
  - intros i j m' o1 o2 Hij Em Es E1 E2. apply (Hdist (S i) (S j) m' o1 o2); [lia|assumption..].
  - split; [now rewrite X|exact Y].
Qed.

Lemma goods n ms : no_attrs (WStruct n ms) = true -> gwf (glsl_of (WStruct n ms)) -> gnd (glsl_of (WStruct n ms)) ->
  has_mat2 (glsl_of (WStruct n ms)) = false -> Forall member_good ms.
Proof.
  intros Hn Hw Hd Hm. apply no_attrs_fields in Hn. apply gwf_members in Hw. apply gnd_members in Hd. apply mat2_members in Hm.
  destruct Hw as [_ Hw]. destruct Hd as [_ Hd]. rewrite Forall_forall in *. intros m Hin. unfold member_good.
  destruct (Hn m Hin) as [A [B C]]. auto 10.
Qed.

Lemma plain_offsets n ms : no_attrs (WStruct n ms) = true -> gwf (glsl_of (WStruct n ms)) ->
  w_offsets ms = member_offsets 0 (gmembers L430 (map mfield ms)) /\ w_size (WStruct n ms)
    = round_up (members_end 0 (gmembers L430 (map mfield ms))) (w_align (WStruct n ms)).
Proof.
  intros Hn Hw. pose proof Hw as Hw'. apply gwf_members in Hw'. destruct Hw' as [_ HF]. apply no_attrs_fields in Hn.
  assert (E : map mpair ms = gmembers L430 (map mfield ms)).
  { apply plain_pairs; [assumption|]. rewrite Forall_forall in *. intros m Hin. apply no_attrs_std430; [apply Hn; assumption|auto]. }
  split; [unfold w_offsets; fold mpair; now rewrite E|cbn [w_size]; fold mpair; now rewrite E].
Qed.

Lemma uniform_plain : forall w, no_attrs w = true -> gwf (glsl_of w) -> gnd (glsl_of w) -> has_mat2 (glsl_of w) = false ->
  w_valid WUniform w ->
  sizes_near ("", (None, None), w)
  /\ forall tg, t_big tg = false -> forall buf off, wread w buf off = gread tg L140 (glsl_of w) buf off.
Proof.
  induction w as [s|s n|c r|e n IH|n ms IH] using wty_ind'; intros Hn Hw Hd Hm Hv.
  1-3: match goal with |- sizes_near (_, ?w) /\ _ =>
    destruct (leaf_same w eq_refl Hw Hd Hm Hn) as [A [B C]]; destruct (no_attrs_std430 w Hn Hw) as [_ [D _]];
    split; [unfold sizes_near; cbn [snd is_wstruct]; congruence|assumption] end.
  - destruct Hd.
  - pose proof (goods n ms Hn Hw Hd Hm) as HG. apply w_valid_struct in Hv. destruct Hv as [_ [_ [HV [_ [_ [Hreq Hdist]]]]]].
    assert (HI : Forall (fun m => sizes_near m /\ forall tg, t_big tg = false -> forall buf off, wread (snd m) buf off = gread tg L140 (glsl_of (snd m)) buf off) ms).
    { rewrite Forall_forall in *. intros m Hin. destruct (HG m Hin) as [_ [_ [G3 [G4 [G5 G6]]]]]. exact (IH m Hin G3 G4 G5 G6 (HV m Hin)). }
    destruct (plain_offsets n ms Hn Hw) as [EO ES].
    assert (HS : Forall sizes_near ms) by (eapply Forall_impl; [|exact HI]; intros m X; apply X).
    destruct (uniform_offsets ms HG HS 0 0) as [X Y].
    { lia. }
    { reflexivity. }
    { intros j o E. apply N.le_0_l. }
    { rewrite <- EO. exact Hreq. }
    { rewrite <- EO. exact (Hdist eq_refl). }
    split.
    + unfold sizes_near. cbn [snd is_wstruct]. destruct (no_attrs_std430 _ Hn Hw) as [_ [<- _]]. rewrite ES.
      destruct (pow2_w_align _ Hn Hw) as [P [D Q]].
      destruct (struct_align140 _ Hn Hw) as [_ S16]. specialize (S16 eq_refl). cbn [glsl_of] in *. fold mfield in *.
      rewrite gsize_struct, S16, <- Y. set (e := members_end 0 (gmembers L430 (map mfield ms))).
      apply N.le_antisymm.
      * apply round_up_least; [lia| |apply round_up_divide; lia].
        pose proof (round_up_ge e (w_align (WStruct n ms)) Q). pose proof (round_up_ge (round_up e (w_align (WStruct n ms))) 16 ltac:(lia)). lia.
      * apply round_up_least; [lia| |apply round_up_divide; lia].
        apply round_up_least; [assumption|apply round_up_ge; lia|]. transitivity 16; [assumption|apply round_up_divide; lia].
    + intros tg Hb. apply struct_read.
      * eapply Forall_impl; [|exact HI]. intros m [_ Z]. now apply Z.
      * rewrite EO. exact X.
Qed.

(** ** the converse: if the components are where std140 puts them, the declaration is valid *)
Lemma strided_length sl sl' st st' n : (forall o o', length (sl o) = length (sl' o' : list (N * N))) ->
  forall off off', length (slots_strided sl off st n) = length (slots_strided sl' off' st' n).
Proof.
  intros H. induction n as [|n IH]; intros off off'; [reflexivity|]. cbn [slots_strided]. rewrite !app_length, (H off off'), (IH (off + st) (off' + st')). reflexivity.
Qed.
Lemma slots_length : forall g l l' off off', length (gslots l g off) = length (gslots l' g off').
Proof.
  assert (V : forall s n off off', length (slot_vec s n off) = length (slot_vec s n off')).
  { intros s n. apply strided_length. reflexivity. }
  induction g as [s|s n|s c r|e n IH|n fs IH] using gty_ind'; intros l l' off off'.
  - reflexivity.
  - apply V.
  - cbn [gslots]. apply strided_length. apply V.
  - cbn [gslots]. apply strided_length. intros. apply IH.
  - rewrite !gslots_struct. assert (X : forall cur cur', length (gslots_fields l off cur fs) = length (gslots_fields l' off' cur' fs)); [|apply X].
    induction IH as [|[f g] fs Hg _ IHf]; intros cur cur'; [reflexivity|]. cbn [gslots_fields]. cbv zeta. rewrite !app_length.
    cbn [snd] in Hg. rewrite (Hg l l' (off + round_up cur (base_align l g)) (off' + round_up cur' (base_align l' g))). f_equal. apply IHf.
Qed.

Lemma slots_first : forall g l off, gwf g -> exists w r, gslots l g off = (off, w) :: r.
Proof.
  assert (V : forall s n off, (1 <= n)%nat -> exists w r, slot_vec s n off = (off, w) :: r).
  { intros s [|n] off H; [lia|]. unfold slot_vec. cbn [slots_strided]. unfold slot_scalar. cbn [app]. eauto. }
  induction g as [s|s n|s c r|e n IH|n fs IH] using gty_ind'; intros l off Hw.
  - cbn [gslots]. unfold slot_scalar. eauto.
  - apply V. cbn [gwf] in Hw. lia.
  - cbn [gwf] in Hw. cbn [gslots]. destruct c as [|c]; [lia|]. cbn [slots_strided]. destruct (V s r off) as [w [x E]]; [lia|]. rewrite E. cbn [app]. eauto.
  - cbn [gwf] in Hw. cbn [gslots]. destruct n as [|n]; [lia|]. cbn [slots_strided]. destruct (IH l off (proj2 Hw)) as [w [x E]]. rewrite E. cbn [app]. eauto.
  - rewrite gslots_struct. apply gwf_fields in Hw. destruct Hw as [Hne HF]. destruct fs as [|[f g] fs]; [congruence|].
    inversion_clear IH as [|? ? Hg _]. inversion_clear HF as [|? ? Fg _]. cbn [snd] in *. cbn [gslots_fields]. cbv zeta.
    rewrite round_up_zero by (apply pow2_pos, base_align_pow2, Fg). rewrite N.add_0_r.
    destruct (Hg l off Fg) as [w [x E]]. rewrite E. cbn [app]. eauto.
Qed.

Lemma app_same_length {A} (a b c d : list A) : length a = length b -> (a ++ c)%list = (b ++ d)%list -> a = b /\ c = d.
Proof.
  revert b. induction a as [|x a IH]; intros [|y b] L E; try discriminate; [split; [reflexivity|exact E]|].
  cbn in L. injection L as L. cbn in E. injection E as -> E. destruct (IH b L E) as [-> ->]. split; reflexivity.
Qed.

Lemma slots_fields_same fs off : Forall (fun nf => gwf (snd nf)) fs -> forall cur cur',
  gslots_fields L430 off cur fs = gslots_fields L140 off cur' fs ->
  member_offsets cur (gmembers L430 fs) = member_offsets cur' (gmembers L140 fs)
  /\ Forall (fun nf => exists off', gslots L430 (snd nf) off' = gslots L140 (snd nf) off') fs.
Proof.
  induction 1 as [|[f g] fs Hw H IH]; intros cur cur' E; [split; [reflexivity|constructor]|]. cbn [snd] in *.
  cbn [gslots_fields] in E. cbv zeta in E. rewrite !gmembers_cons. cbn [member_offsets].
  apply app_same_length in E; [|apply slots_length]. destruct E as [E1 E2].
  assert (Eo : round_up cur (base_align L430 g) = round_up cur' (base_align L140 g)).
  { destruct (slots_first g L430 (off + round_up cur (base_align L430 g)) Hw) as [w [r X]].
    destruct (slots_first g L140 (off + round_up cur' (base_align L140 g)) Hw) as [w' [r' X']].
    rewrite X, X' in E1. injection E1 as E1 _ _. lia. }
  destruct (IH _ _ E2) as [I1 I2]. split; [rewrite Eo in *; f_equal; exact I1|].
  constructor; [|exact I2]. cbn [snd]. rewrite Eo in E1. eauto.
Qed.

Lemma gsize_430_le : forall w, no_attrs w = true -> gwf (glsl_of w) -> gnd (glsl_of w) -> has_mat2 (glsl_of w) = false ->
  forall off, gslots L430 (glsl_of w) off = gslots L140 (glsl_of w) off ->
  w_size w <= gsize L140 (glsl_of w).
Proof.
  induction w as [s|s n|c r|e n IH|n ms IH] using wty_ind'; intros Hn Hw Hd Hm off E.
  1-3: match goal with |- w_size ?w <= _ => destruct (leaf_same w eq_refl Hw Hd Hm Hn) as [_ [-> _]]; lia end.
  - destruct Hd.
  - pose proof (goods n ms Hn Hw Hd Hm) as HG. destruct (plain_offsets n ms Hn Hw) as [EO ES]. rewrite ES.
    destruct (pow2_w_align _ Hn Hw) as [P [D Q]]. destruct (struct_align140 _ Hn Hw) as [_ S16]. specialize (S16 eq_refl).
    cbn [glsl_of] in *. fold mfield in *. rewrite !gslots_struct in E.
    apply slots_fields_same in E; [|apply gwf_fields in Hw; apply Hw]. destruct E as [E1 E2].
    rewrite gsize_struct, S16. apply round_up_least; [assumption| |transitivity 16; [assumption|apply round_up_divide; lia]].
    transitivity (members_end 0 (gmembers L140 (map mfield ms))); [|apply round_up_ge; lia].
    assert (X : forall c c', member_offsets c (gmembers L430 (map mfield ms)) = member_offsets c' (gmembers L140 (map mfield ms)) ->
      c <= c' -> members_end c (gmembers L430 (map mfield ms)) <= members_end c' (gmembers L140 (map mfield ms))); [|apply X; [exact E1|lia]].
    clear -IH HG E2. induction ms as [|m ms IHm]; intros c c' E Hc; [exact Hc|].
    inversion_clear IH as [|? ? I1 I2]. inversion_clear HG as [|? ? Gm G7]. destruct Gm as [G1 [G2 [G3 [G4 [G5 G6]]]]].
    change (map mfield (m :: ms)) with ((m_name m, glsl_of (snd m)) :: map mfield ms) in *. rewrite !gmembers_cons in *.
    inversion_clear E2 as [|? ? X1 X2]. cbn [snd] in X1. cbn [member_offsets members_end] in *. injection E as Ea Eb.
    apply (IHm I2 X2 G7); [exact Eb|]. rewrite Ea. destruct X1 as [off' X1]. specialize (I1 G3 G4 G5 G6 off' X1).
    destruct (no_attrs_std430 (snd m) G3 G4) as [_ [<- _]]. lia.
Qed.

Lemma slots_valid : forall w, no_attrs w = true -> gwf (glsl_of w) -> gnd (glsl_of w) -> has_mat2 (glsl_of w) = false ->
  forall off, gslots L430 (glsl_of w) off = gslots L140 (glsl_of w) off -> w_valid WUniform w.
Proof.
  induction w as [s|s n|c r|e n IH|n ms IH] using wty_ind'; intros Hn Hw Hd Hm off E; try exact Hw; [destruct Hd|].
  pose proof (goods n ms Hn Hw Hd Hm) as HG. destruct (plain_offsets n ms Hn Hw) as [EO _].
  pose proof Hw as Hw'. apply gwf_members in Hw'. destruct Hw' as [Hne _].
  pose proof Hd as Hd'. apply gnd_members in Hd'. destruct Hd' as [Hnd _].
  cbn [glsl_of] in *. fold mfield in *. rewrite !gslots_struct in E.
  assert (HF : Forall (fun nf => gwf (snd nf)) (map mfield ms)) by (apply gwf_fields in Hw; apply Hw).
  apply slots_fields_same in E; [|exact HF]. destruct E as [E1 E2]. rewrite Forall_map in E2. cbn [mfield snd] in E2. unfold m_type in E2.
  rewrite E1 in EO. pose proof (gmembers_pos L140 _ HF) as Hpos.
  apply w_valid_struct. rewrite EO. split; [assumption|]. split; [assumption|]. rewrite Forall_forall in IH, HG, E2.
  split; [|split; [|split; [|split]]].
  - apply Forall_forall. intros m Hin. destruct (HG m Hin) as [_ [_ [G3 [G4 [G5 G6]]]]]. destruct (E2 m Hin) as [off' X]. eapply IH; eassumption.
  - intros m k Hin X. destruct (HG m Hin) as [Y _]. congruence.
  - intros m k Hin X. destruct (HG m Hin) as [_ [Y _]]. congruence.
  - intros i m o Em Eo. destruct (member_offsets_at _ 0 i o Hpos Eo) as [a [z [X D]]]. unfold gmembers in X. rewrite !nth_error_map, Em in X.
    cbn in X. injection X as <- _. pose proof (nth_error_In _ _ Em) as Hin. destruct (HG m Hin) as [_ [_ [G3 [G4 [G5 G6]]]]].
    unfold m_type in *. rewrite required_uniform by assumption. destruct (is_wstruct (snd m)) eqn:Es.
    + destruct (struct_align140 (snd m) G3 G4) as [_ Y]. now rewrite (Y Es) in D.
    + destruct (leaf_same (snd m) Es G4 G5 G6 G3) as [Y _]. now rewrite Y in D.
  - intros _ i j m o o' Hij Em Es Eo Eo'. pose proof (nth_error_In _ _ Em) as Hin. destruct (HG m Hin) as [_ [_ [G3 [G4 [G5 G6]]]]].
    assert (Eg : nth_error (gmembers L140 (map mfield ms)) i = Some (base_align L140 (glsl_of (snd m)), gsize L140 (glsl_of (snd m)))).
    { unfold gmembers. rewrite !nth_error_map, Em. reflexivity. }
    pose proof (member_offsets_apart _ 0 i j o o' _ _ Hpos Hij Eo Eo' Eg) as X.
    assert (round_up (w_size (snd m)) 16 <= gsize L140 (glsl_of (snd m))); [|unfold m_type; lia].
    destruct (E2 m Hin) as [off' Y].
    apply round_up_least; [lia|eapply gsize_430_le; eassumption|]. now apply std140_size_struct.
Qed.

(** ** std140 bytes read as std430 show the value only if the components coincide *)
Lemma norm_shareable tg l B : forall g off, shareable g = true -> gnorm tg l g B off.
Proof.
  assert (V : forall s n off, s <> GBool -> norm_vec tg s n B off).
  { intros s n off Hs k _ E. congruence. }
  induction g as [s|s n|s c r|e n IH|n fs IH] using gty_ind'; intros off H; cbn [shareable gnorm] in *.
  - intros ->. discriminate.
  - apply V. intros ->. discriminate.
  - intros k _. apply V. intros ->. discriminate.
  - intros k _. now apply IH.
  - change (gnorm tg l (GStruct n fs) B off). apply gnorm_struct. generalize 0 as cur.
    induction IH as [|[f g] fs Hg _ IHf]; intros cur; [exact I|]. cbn [forallb snd] in *. apply andb_true_iff in H. destruct H as [H1 H2].
    cbn [gnorm_fields]. cbv zeta. auto.
Qed.

Lemma list_ext {A} (a b : list A) : (forall k, nth_error a k = nth_error b k) -> a = b.
Proof.
  revert b. induction a as [|x a IH]; intros [|y b] H; [reflexivity|specialize (H 0%nat); discriminate|specialize (H 0%nat); discriminate|].
  f_equal; [specialize (H 0%nat); now injection H|]. apply IH. intros k. exact (H (S k)).
Qed.

Lemma reads_give_slots tg h t g : target_ok tg = true -> out_ty tg L140 h = Some t -> gty_of h = Some g -> plain h = true ->
  shareable g = true ->
  (forall v x bs, hval_ok tg h v = true -> as_std_bytes tg L140 h v = Some bs -> gval_of tg h v = Some x -> gread tg L430 g bs 0 = Some x) ->
  gslots L430 g 0 = gslots L140 g 0.
Proof.
  intros Htg Ho Hg Hp Hsh HR. symmetry. apply list_ext. intros k.
  pose proof (slots_length g L140 L430 0 0) as HL.
  destruct (nth_error (gslots L140 g 0) k) as [[p w]|] eqn:Ek.
  2:{ symmetry. apply nth_error_None. apply nth_error_None in Ek. lia. }
  destruct (nth_error (gslots L430 g 0) k) as [[q u]|] eqn:Ek2.
  2:{ exfalso. apply nth_error_None in Ek2. rewrite <- HL in Ek2. apply nth_error_None in Ek2. congruence. }
  destruct (one_component tg L140 h t g k p w Htg Ho Hg Hp Ek) as [v [x [ps [V1 [V2 [P1 [P3 P5]]]]]]].
  destruct (as_bytes_facts tg L140 h t v Htg Ho V1) as [s1 [_ [_ [_ [B1 _]]]]]. set (bs := flat tg t s1) in *.
  destruct (bytes_are_image tg L140 h t g v bs Htg Ho Hg Hp V1 B1) as [x' [ps' [X' [P1' [I1 _]]]]].
  assert (x' = x) by congruence. subst x'. assert (ps' = ps) by congruence. subst ps'.
  destruct (read_places tg L430 g bs 0 x (HR v x bs V1 B1 V2) (norm_shareable tg L430 bs g 0 Hsh)) as [qs [Q1 [Q2 [_ Q3]]]].
  pose proof (gplaces_words _ _ _ _ _ _ _ _ _ P1 Q1) as HWd.
  pose proof (slots_pos L140 g 0 _ (nth_error_In _ _ Ek)) as Hw. cbn [snd] in Hw.
  destruct (one_word_facts tg w Hw) as [W1 [_ [W3 W4]]].
  assert (Hqs : nth_error qs k = Some (q, one_word tg w) /\ u = w).
  { destruct (nth_error qs k) as [[q' c]|] eqn:Eq.
    2:{ apply nth_error_None in Eq. rewrite <- (map_length slot_of), Q3 in Eq. apply nth_error_None in Eq. congruence. }
    assert (A : nth_error (map slot_of qs) k = Some (q', len c)) by (rewrite nth_error_map, Eq; reflexivity).
    rewrite Q3, Ek2 in A. injection A as -> ->.
    assert (A : nth_error (map snd qs) k = Some c) by exact (map_nth_error snd k qs Eq).
    rewrite <- HWd in A. destruct (nth_error ps k) as [[o c']|] eqn:Ep.
    2:{ apply nth_error_None in Ep. assert (nth_error (map snd ps) k = None) by (apply nth_error_None; now rewrite map_length). congruence. }
    assert (A' : nth_error (map snd ps) k = Some c') by exact (map_nth_error snd k ps Ep).
    rewrite A in A'. injection A' as <-. specialize (P5 k o c Ep). rewrite Nat.eqb_refl in P5. subst c. split; [reflexivity|assumption]. }
  destruct Hqs as [Hqs ->].
  assert (Hpw : one_pos tg w < w) by (unfold one_pos; destruct (t_big tg); lia).
  assert (Hnz : byte_at bs (q + one_pos tg w) = Some x01).
  { specialize (Q2 _ _ (nth_error_In _ _ Hqs)). apply read_at_bytes in Q2.
    destruct Q2 as [_ Q2]. rewrite Q2; [assumption|]. now rewrite W1. }
  destruct I1 as [L1 [I1 I1z]]. set (i := q + one_pos tg w) in *.
  destruct (covered_dec ps i) as [[o [c [Hin Hi]]]|Hno].
  2:{ exfalso. rewrite I1z in Hnz; [discriminate| |assumption].
      rewrite <- L1. destruct (N.lt_ge_cases i (len bs)) as [|Hge]; [assumption|].
      apply byte_at_None in Hge. congruence. }
  apply In_nth_error in Hin. destruct Hin as [j Hj].
  pose proof (I1 _ _ (nth_error_In _ _ Hj)) as R. apply read_at_bytes in R. destruct R as [_ R].
  specialize (R (i - o) ltac:(lia)). replace (o + (i - o)) with i in R by lia. rewrite Hnz in R.
  specialize (P5 j o c Hj). destruct (Nat.eqb_spec j k) as [Ejk|Hne]; [rewrite Ejk in *; clear j Ejk|].
  - assert (A : nth_error (map slot_of ps) k = Some (o, len c)) by exact (map_nth_error slot_of k ps Hj).
    rewrite P3, Ek in A. injection A as <- _. subst c.
    assert (i - p = one_pos tg w). { apply W4; [lia|]. rewrite <- R. discriminate. }
    f_equal. f_equal. unfold i in *. lia.
  - exfalso. rewrite P5, byte_at_repeat in R; [discriminate|]. unfold len in Hi. lia.
Qed.

(** ** C84 *)

(** member offsets of the Rust struct *)
Lemma member_paths tg l h t n ms : target_ok tg = true -> out_ty tg l h = Some t -> gty_of h = Some (glsl_of (WStruct n ms)) ->
  NoDup (map m_name ms) ->
  forall i m o, nth_error ms i = Some m -> nth_error (goffsets l (map mfield ms)) i = Some o ->
  exists u, path_offset tg t [m_name m] = Some (o, u).
Proof.
  intros Htg Ho Hg Hnd i m o Em Eo. cbn [glsl_of] in Hg. fold mfield in Hg.
  assert (Hn : map fst (map mfield ms) = map m_name ms) by (rewrite map_map; reflexivity).
  destruct (path_all tg Htg h l t _ [m_name m] o (glsl_of (snd m)) Ho Hg) as [u [E _]]; [|eauto].
  cbn [gpath_offset]. rewrite (assoc_nodup (m_name m) o), (assoc_nodup (m_name m) (glsl_of (snd m))).
  - now rewrite N.add_0_r.
  - now rewrite Hn.
  - change (m_name m, glsl_of (snd m)) with (mfield m). apply in_map. now apply nth_error_In in Em.
  - assert (X : map fst (combine (map fst (map mfield ms)) (goffsets l (map mfield ms))) = map fst (map mfield ms)).
    { unfold goffsets, gmembers. generalize (map mfield ms). clear. intros fs. generalize 0. induction fs as [|[f g] fs IH]; intros cur; [reflexivity|].
      cbn [map fst member_offsets combine snd]. f_equal. apply IH. }
    rewrite X. now rewrite Hn.
  - eapply nth_error_In. apply nth_combine. split; [|exact Eo]. rewrite Hn, nth_error_map, Em. reflexivity.
Qed.

(** C84.  A GLSL type has a WGSL counterpart that may be shared with the host if and only if
    it contains neither [bool] nor [double]. *)
Lemma C84_which_types_proof : forall g,
  (exists w, glsl_of w = g /\ no_attrs w = true) <-> shareable g = true.
Proof.
  intros g. split.
  - intros [w [<- _]]. induction w as [s|s n|c r|e n IH|n ms IH] using wty_ind'; try (now destruct s); [reflexivity|exact IH|].
    cbn [glsl_of shareable]. apply forallb_forall. intros nf Hin. apply in_map_iff in Hin. destruct Hin as [m [<- Hin]].
    rewrite Forall_forall in IH. exact (IH m Hin).
  - assert (S : forall s, match s with GFloat | GInt | GUint => true | _ => false end = true -> exists s', glsl_scalar s' = s).
    { intros []; try discriminate; intros _; [exists WF32|exists WI32|exists WU32]; reflexivity. }
    induction g as [s|s n|s c r|e n IH|n fs IH] using gty_ind'; intros H; cbn [shareable] in H.
    + destruct (S s H) as [s' <-]. exists (WScalar s'). split; reflexivity.
    + destruct (S s H) as [s' <-]. exists (WVec s' n). split; reflexivity.
    + destruct s; try discriminate. exists (WMat c r). split; reflexivity.
    + destruct (IH H) as [w [<- Hw]]. exists (WArr w n). split; [reflexivity|exact Hw].
    + assert (X : exists ms, map mfield ms = fs /\ Forall (fun m => m_align m = None /\ m_size m = None /\ no_attrs (snd m) = true) ms).
      { induction IH as [|[f g] fs Hg _ IHf]; [exists []; split; [reflexivity|constructor]|]. cbn [forallb snd] in *.
        apply andb_true_iff in H. destruct H as [H1 H2]. destruct (Hg H1) as [w [E Hw]]. destruct (IHf H2) as [ms [Em Hm]].
        exists ((f, (None, None), w) :: ms). split; [cbn [map]; unfold mfield at 1; cbn [m_name m_type fst snd]; now rewrite E, Em|].
        constructor; [repeat split; exact Hw|exact Hm]. }
      destruct X as [ms [<- Hm]]. exists (WStruct n ms). split; [reflexivity|]. now apply no_attrs_fields.
Qed.

(** C84.  std430 is the layout of a WGSL declaration without attributes. *)
Lemma C84_storage_proof : forall tg h t g w,
  target_ok tg = true -> t_big tg = false -> out_ty tg L430 h = Some t -> gty_of h = Some g ->
  glsl_of w = g -> no_attrs w = true ->
  w_valid WStorage w /\ size_of tg t = w_size w /\ std_align L430 t = Some (w_align w)
  /\ (forall n ms i m o, w = WStruct n ms -> nth_error ms i = Some m -> nth_error (w_offsets ms) i = Some o ->
        exists u, path_offset tg t [m_name m] = Some (o, u))
  /\ (forall v bs buf off, hval_ok tg h v = true -> as_std_bytes tg L430 h v = Some bs -> read_at buf off (len bs) = Some bs ->
        exists x, gval_of tg h v = Some x /\ wread w buf off = Some x)
  /\ (forall buf off bs, read_at buf off (size_of tg t) = Some bs ->
        exists s v x, from_bytes tg t bs = Some s /\ from_std tg L430 h s = Some v
          /\ gval_of tg h v = Some x /\ wread w buf off = Some x).
Proof.
  intros tg h t g w Htg Hb Ho Hg E Hn. subst g. destruct (gwf_of tg Htg h L430 t _ Ho Hg) as [Hw Hd].
  destruct (no_attrs_std430 w Hn Hw) as [A [B C]]. destruct (size_align_glsl tg Htg h L430 t _ Ho Hg) as [S1 [S2 _]].
  split; [apply storage_valid; auto using gnd_gdist|]. rewrite A, B. split; [assumption|]. split; [rewrite <- S1; eapply good_alN; eapply out_ty_good; eassumption|]. split; [|split].
  - intros n ms i m o -> Em Eo. destruct (plain_offsets n ms Hn Hw) as [X _]. rewrite X in Eo.
    eapply member_paths; try eassumption. apply gnd_members in Hd. apply Hd.
  - intros v bs buf off Hv Hbs Hr. destruct (C23_gpu_reads_host_value_proof tg L430 h t _ v bs buf off Htg Ho Hg Hv Hbs Hr) as [x [X Y]].
    exists x. split; [assumption|]. now rewrite (C tg Hb).
  - intros buf off bs Hr. destruct (C24_host_reads_gpu_value_proof tg L430 h t _ buf off bs Htg Ho Hg Hr) as [s [v [x [X1 [X2 [_ [X3 X4]]]]]]].
    exists s, v, x. repeat (split; [assumption|]). now rewrite (C tg Hb).
Qed.

(** C84.  std140 is the layout of the declaration with [@align(16)] and [@size] on members
    that are structures, and this declaration is valid in a uniform buffer. *)
Lemma C84_uniform_proof : forall tg h t g w,
  target_ok tg = true -> t_big tg = false -> out_ty tg L140 h = Some t -> gty_of h = Some g ->
  glsl_of w = g -> no_attrs w = true -> has_mat2 g = false ->
  w_valid WUniform (std140_attrs w) /\ w_size (std140_attrs w) <= size_of tg t
  /\ (forall n ms i m o, std140_attrs w = WStruct n ms -> nth_error ms i = Some m -> nth_error (w_offsets ms) i = Some o ->
        exists u, path_offset tg t [m_name m] = Some (o, u))
  /\ (forall v bs buf off, hval_ok tg h v = true -> as_std_bytes tg L140 h v = Some bs -> read_at buf off (len bs) = Some bs ->
        exists x, gval_of tg h v = Some x /\ wread (std140_attrs w) buf off = Some x)
  /\ (forall buf off bs, read_at buf off (size_of tg t) = Some bs ->
        exists s v x, from_bytes tg t bs = Some s /\ from_std tg L140 h s = Some v
          /\ gval_of tg h v = Some x /\ wread (std140_attrs w) buf off = Some x).
Proof.
  intros tg h t g w Htg Hb Ho Hg E Hn Hm. subst g. destruct (gwf_of tg Htg h L140 t _ Ho Hg) as [Hw Hd].
  destruct (attrs_std140 w Hn Hw Hd Hm) as [_ [_ [_ [A [B C]]]]]. destruct (size_align_glsl tg Htg h L140 t _ Ho Hg) as [_ [S2 _]].
  split; [assumption|]. split; [lia|]. split; [|split].
  - intros n ms i m o Es Em Eo. destruct w as [| | | |n' ms0]; try discriminate. rewrite std140_attrs_struct in Es. injection Es as <- <-.
    rewrite nth_error_map in Em. destruct (nth_error ms0 i) as [m0|] eqn:Em0; [|discriminate]. injection Em as <-.
    change (m_name (attr_member m0)) with (m_name m0).
    eapply member_paths; try eassumption; [apply gnd_members in Hd; apply Hd|].
    rewrite <- Eo. f_equal. clear -Hn Hw Hd Hm Htg.
    pose proof (goods n' ms0 Hn Hw Hd Hm) as HG. unfold w_offsets, goffsets. fold mpair. f_equal. unfold gmembers. rewrite !map_map.
    apply map_ext_in. intros m Hin. rewrite Forall_forall in HG. destruct (HG m Hin) as [_ [_ [G3 [G4 [G5 G6]]]]].
    unfold mpair, attr_member, mfield, m_align, m_size, m_type. cbn [fst snd].
    destruct (is_wstruct (snd m)) eqn:Es; cbn [given fst snd].
    + f_equal. now apply struct_align140.
    + destruct (attrs_std140 (snd m) G3 G4 G5 G6) as [_ [_ [X _]]]. destruct (X Es) as [-> ->]. reflexivity.
  - intros v bs buf off Hv Hbs Hr. destruct (C23_gpu_reads_host_value_proof tg L140 h t _ v bs buf off Htg Ho Hg Hv Hbs Hr) as [x [X Y]].
    exists x. split; [assumption|]. now rewrite (C tg Hb).
  - intros buf off bs Hr. destruct (C24_host_reads_gpu_value_proof tg L140 h t _ buf off bs Htg Ho Hg Hr) as [s [v [x [X1 [X2 [_ [X3 X4]]]]]]].
    exists s, v, x. repeat (split; [assumption|]). now rewrite (C tg Hb).
Qed.

(** C84.  A declaration without attributes shows std140 values exactly when a compiler
    accepts it for a uniform buffer. *)
Lemma C84_plain_uniform_proof : forall tg h t g w,
  target_ok tg = true -> t_big tg = false -> out_ty tg L140 h = Some t -> gty_of h = Some g -> plain h = true ->
  glsl_of w = g -> no_attrs w = true -> has_mat2 g = false ->
  ((forall v bs x, hval_ok tg h v = true -> as_std_bytes tg L140 h v = Some bs -> gval_of tg h v = Some x -> wread w bs 0 = Some x)
   <-> w_valid WUniform w).
Proof.
  intros tg h t g w Htg Hb Ho Hg Hp E Hn Hm. subst g. destruct (gwf_of tg Htg h L140 t _ Ho Hg) as [Hw Hd].
  destruct (no_attrs_std430 w Hn Hw) as [_ [_ C]]. split.
  - intros HR. eapply (slots_valid w Hn Hw Hd Hm 0). eapply reads_give_slots; try eassumption.
    + apply C84_which_types_proof. eauto.
    + intros v x bs V1 V2 V3. rewrite <- (C tg Hb). eauto.
  - intros Hv v bs x V1 V2 V3. destruct (uniform_plain w Hn Hw Hd Hm Hv) as [_ R]. rewrite (R tg Hb).
    destruct (C23_gpu_reads_host_value_proof tg L140 h t _ v bs bs 0 Htg Ho Hg V1 V2) as [y [Y1 Y2]]; [|congruence].
    apply read_at_bytes. split; [lia|]. intros i Hi. now rewrite N.add_0_l.
Qed.

(** C84.  Blocks written member by member in std430, with slices as arrays. *)
Lemma C84_storage_block_proof : forall W tg (wi : write_impl W) delivered inner b gs w os n ms,
  target_ok tg = true -> t_big tg = false -> lawful wi delivered ->
  block_ok tg L430 b -> slices_ok L430 b -> gaps_ok L430 b -> no_empty_slice b -> b <> [] -> block_gty b = Some gs ->
  write_vals tg L430 wi (block_wvals b) (writer_new inner) = (w, (os, None)) ->
  (t_checks tg = true \/ members_end 0 (gmembers L430 gs) < umod tg) ->
  glsl_of (WStruct n ms) = GStruct n gs -> no_attrs (WStruct n ms) = true -> NoDup (map m_name ms) ->
  w_valid WStorage (WStruct n ms) /\ os = w_offsets ms
  /\ exists img xs, delivered (w_inner w) = (delivered inner ++ img)%list /\ block_gval tg b = Some xs
     /\ wread (WStruct n ms) img 0 = Some (GVStruct xs).
Proof.
  intros W tg wi delivered inner b gs w os n ms Htg Hb Hl Hok Hs Hgaps Hne Hbne Hg Hw Hc E Hn Hnd.
  assert (HF : Forall (fun nf => gwf (snd nf)) gs) by (eapply block_wf; eassumption).
  assert (Hgw : gwf (glsl_of (WStruct n ms))).
  { rewrite E. apply gwf_fields. split; [|assumption]. intros ->. unfold block_gty in Hg. apply map_opt_Forall2 in Hg. inversion Hg; subst. congruence. }
  assert (Hgd : Forall (fun nf => gdist (snd nf)) gs).
  { clear - Htg Hok Hg. unfold block_gty in Hg. apply map_opt_Forall2 in Hg. revert Hok.
    induction Hg as [|[f m] [f' g] b gs E _ IH]; intros Hok; [constructor|].
    inversion_clear Hok as [|? ? H1 H2]. constructor; [|now apply IH]. cbn [fst snd] in *.
    destruct m as [h v|h vs]; cbn [member_gty member_ok] in *; destruct H1 as [[t Ht] _];
      (destruct (gty_of h) as [g0|] eqn:Eg; [|discriminate]); injection E as <- <-; cbn [gdist]; apply gnd_gdist; eapply gwf_of; eassumption. }
  destruct (no_attrs_std430 _ Hn Hgw) as [_ [_ C]].
  destruct (C39_block_with_slices_proof W tg L430 wi delivered inner b gs w os Htg Hl Hok Hs Hgaps Hg Hw Hc) as [img [xs [X1 [X2 [X3 X4]]]]].
  assert (Em : map mfield ms = gs) by (cbn [glsl_of] in E; fold mfield in E; congruence).
  split; [|split].
  - apply storage_valid; [assumption|assumption|]. apply gdist_members. split; [assumption|]. rewrite <- Em in Hgd. rewrite Forall_map in Hgd. exact Hgd.
  - rewrite (X4 Hne). destruct (plain_offsets n ms Hn Hgw) as [-> _]. now rewrite Em.
  - exists img, xs. split; [assumption|]. split; [assumption|]. rewrite (C tg Hb), E. 
    rewrite gread_struct in *. exact X3.
Qed.

(** C84.  std140 puts the columns of a [mat2] 16 bytes apart; no WGSL declaration does. *)
Lemma C84_std140_mat2_refuted_proof :
  exists bs, as_std_bytes x86_64 L140 mat2f (HVRec [("x", v2 1 2); ("y", v2 3 4)]) = Some bs
  /\ gread x86_64 L140 (GMat GFloat 2 2) bs 0 = Some (GVMat [GVVec [GVBits 1; GVBits 2]; GVVec [GVBits 3; GVBits 4]])
  /\ forall w, glsl_of w = GMat GFloat 2 2 -> wread w bs 0 = Some (GVMat [GVVec [GVBits 1; GVBits 2]; GVVec [GVBits 0; GVBits 0]]).
Proof.
  eexists. split; [vm_compute; reflexivity|]. split; [vm_compute; reflexivity|].
  intros w E. destruct w as [|s n|c r| |]; try discriminate. injection E as -> ->. vm_compute. reflexivity.
Qed.

(** C84.  Without attributes a structure member is laid out too tightly for std140: the
    compiler rejects the declaration for a uniform buffer, and it would read wrong values. *)
Definition tight_h : hty := HStruct "Tight" [("a", HStruct "One" [("x", HPrim PF32)]); ("b", HPrim PF32)].
Definition tight_w : wty := WStruct "Tight" [("a", (None, None), WStruct "One" [("x", (None, None), WScalar WF32)]); ("b", (None, None), WScalar WF32)].
Definition tight_v : hval := HVRec [("a", HVRec [("x", bits 1)]); ("b", bits 2)].
Lemma C84_plain_uniform_refuted_proof :
  exists bs, as_std_bytes x86_64 L140 tight_h tight_v = Some bs
  /\ gty_of tight_h = Some (glsl_of tight_w) /\ no_attrs tight_w = true
  /\ wread tight_w bs 0 = Some (GVStruct [("a", GVStruct [("x", GVBits 1)]); ("b", GVBits 0)])
  /\ ~ w_valid WUniform tight_w.
Proof.
  eexists. split; [vm_compute; reflexivity|]. split; [reflexivity|]. split; [reflexivity|]. split; [vm_compute; reflexivity|].
  intros H. apply w_valid_struct in H. destruct H as [_ [_ [_ [_ [_ [_ H]]]]]].
  specialize (H eq_refl 0%nat 1%nat _ 0 4 ltac:(lia) eq_refl eq_refl eq_refl eq_refl). vm_compute in H. now apply H.
Qed.

(** WGSL is little-endian: on a big-endian host the values are garbled. *)
Lemma C84_big_endian_refuted_proof :
  exists bs, as_std_bytes powerpc64 L430 (HPrim PU32) (bits 1) = Some bs
  /\ target_ok powerpc64 = true /\ wread (WScalar WU32) bs 0 = Some (GVBits 16777216).
Proof. eexists. split; [vm_compute; reflexivity|]. split; [reflexivity|]. vm_compute. reflexivity. Qed.

(** examples: attributes, a plain declaration that is valid, a block *)
Lemma C84_ex_attrs_proof :
  std140_attrs tight_w = WStruct "Tight" [("a", (Some 16, Some 16), WStruct "One" [("x", (None, None), WScalar WF32)]); ("b", (None, None), WScalar WF32)]
  /\ (exists t, out_ty x86_64 L140 tight_h = Some t) /\ gty_of tight_h = Some (glsl_of tight_w) /\ plain tight_h = true
  /\ has_mat2 (glsl_of tight_w) = false /\ hval_ok x86_64 tight_h tight_v = true
  /\ exists bs, as_std_bytes x86_64 L140 tight_h tight_v = Some bs
     /\ wread (std140_attrs tight_w) bs 0 = Some (GVStruct [("a", GVStruct [("x", GVBits 1)]); ("b", GVBits 2)]).
Proof.
  conjs; try (vm_compute; reflexivity); [eexists; vm_compute; reflexivity|].
  eexists. split; vm_compute; reflexivity.
Qed.

Definition light_w : wty :=
  WStruct "PointLight" [("position", (None, None), WVec WF32 3); ("color", (None, None), WVec WF32 3); ("brightness", (None, None), WScalar WF32)].
Lemma C84_ex_plain_proof :
  gty_of point_light = Some (glsl_of light_w) /\ no_attrs light_w = true /\ w_valid WUniform light_w
  /\ (exists t, out_ty x86_64 L140 point_light = Some t /\ size_of x86_64 t = 32) /\ w_size light_w = 32.
Proof.
  conjs; try (vm_compute; reflexivity); [|eexists; split; vm_compute; reflexivity].
  apply (slots_valid light_w eq_refl) with (off := 0); [| |vm_compute; reflexivity|vm_compute; reflexivity].
  - apply gwf_members. split; [discriminate|]. repeat constructor.
  - apply gnd_members. split; [|repeat constructor]. cbn. repeat constructor; cbn; intuition discriminate.
Qed.

Lemma C84_ex_block_proof :
  let b := [("count", MVal (HPrim PU32) (bits 2)); ("lights", MSlice point_light [light1; light2])] in
  let ms := [("count", (None, None), WScalar WU32); ("lights", (None, None), WArr light_w 2)] in
  exists w gs, write_vals x86_64 L430 vec_sink (block_wvals b) (writer_new []) = (w, ([0; 16], None))
  /\ block_gty b = Some gs /\ glsl_of (WStruct "Lights" ms) = GStruct "Lights" gs
  /\ no_attrs (WStruct "Lights" ms) = true /\ w_offsets ms = [0; 16] /\ gaps_ok L430 b /\ no_empty_slice b.
Proof.
  cbv zeta. eexists. eexists. split; [vm_compute; reflexivity|]. split; [vm_compute; reflexivity|].
  split; [vm_compute; reflexivity|]. split; [vm_compute; reflexivity|]. split; [vm_compute; reflexivity|]. split.
  - cbn [gaps_ok]. split; [|exact I]. intros h vs g g' E. discriminate E.
  - intros f h vs [E|[E|[]]]; congruence.
Qed.
