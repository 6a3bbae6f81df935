(** * C78: row-major shaders *)

From Coq Require Import NArith String Bool List Lia ZArith.
From Coq Require Import ZifyBool ZifyN ZifyNat.
From Coq Require Import Strings.Byte PeanoNat.
From Verif Require Import Rust Internal Prims Derive Host Rows SpecGlsl SpecHost SpecRowMajor
  Arith RustFacts TypeFacts HostFacts GlslFacts GpuFacts Samples Proofs_Types.
Import ListNotations.
Local Open Scope string_scope.
Local Open Scope N_scope.

Section GtyInd.
  Variable P : gty -> Prop.
  Hypothesis Hs : forall s, P (GScalar s).
  Hypothesis Hv : forall s n, P (GVec s n).
  Hypothesis Hm : forall s c r, P (GMat s c r).
  Hypothesis Ha : forall e n, P e -> P (GArr e n).
  Hypothesis Hst : forall n fs, Forall (fun nf => P (snd nf)) fs -> P (GStruct n fs).
  Fixpoint gty_ind' (g : gty) : P g :=
    match g with
    | GScalar s => Hs s
    | GVec s n => Hv s n
    | GMat s c r => Hm s c r
    | GArr e n => Ha e n (gty_ind' e)
    | GStruct n fs => Hst n fs ((fix go fs : Forall (fun nf => P (snd nf)) fs :=
        match fs with [] => Forall_nil _ | nf :: r => Forall_cons nf (gty_ind' (snd nf)) (go r) end) fs)
    end.
End GtyInd.

Section GvalInd.
  Variable P : gval -> Prop.
  Hypothesis Hb : forall n, P (GVBits n).
  Hypothesis Hbo : forall b, P (GVBool b).
  Hypothesis Hv : forall v, P (GVVec v).
  Hypothesis Hm : forall v, P (GVMat v).
  Hypothesis Ha : forall v, Forall P v -> P (GVArr v).
  Hypothesis Hst : forall fs, Forall (fun nf => P (snd nf)) fs -> P (GVStruct fs).
  Fixpoint gval_ind' (x : gval) : P x :=
    match x with
    | GVBits n => Hb n
    | GVBool b => Hbo b
    | GVVec v => Hv v
    | GVMat v => Hm v
    | GVArr v => Ha v ((fix go v : Forall P v :=
        match v with [] => Forall_nil _ | x :: r => Forall_cons x (gval_ind' x) (go r) end) v)
    | GVStruct fs => Hst fs ((fix go fs : Forall (fun nf => P (snd nf)) fs :=
        match fs with [] => Forall_nil _ | nf :: r => Forall_cons nf (gval_ind' (snd nf)) (go r) end) fs)
    end.
End GvalInd.

Fixpoint all_square (g : gty) : bool :=
  match g with
  | GMat _ c r => Nat.eqb c r
  | GArr e _ => all_square e
  | GStruct _ fs => forallb (fun nf => all_square (snd nf)) fs
  | _ => true
  end.

Lemma gty_square : forall h g, gty_of h = Some g -> all_square g = true.
Proof.
  induction h as [p| |r s fs IH|r m IH|h IH|n fs IH|l' h IH] using hty_ind'; intros g Hg.
  - cbn in Hg. destruct p; cbn in Hg; try discriminate; injection Hg as <-; reflexivity.
  - injection Hg as <-. reflexivity.
  - destruct (gty_of_HEasy _ _ _ _ Hg) as [gs [G1 _]].
    assert (F : forallb (fun e => all_square (snd e)) std_names = true) by (vm_compute; reflexivity).
    rewrite forallb_forall in F. unfold assoc in G1.
    destruct (find _ std_names) as [kv|] eqn:E; [|discriminate]. injection G1 as <-.
    apply find_some in E. now apply F.
  - cbn [gty_of] in Hg. eauto.
  - discriminate.
  - destruct (gty_of_HStruct _ _ _ Hg) as [gs [Hne [Hgs ->]]]. apply gfields_Forall2 in Hgs.
    cbn [all_square]. clear Hg Hne. induction Hgs as [|[f h] [f' g] fs gs [E1 E2] _ IHg]; [reflexivity|].
    inversion IH as [|? ? I1 I2]; subst. cbn [forallb snd] in *. rewrite (I1 _ E2). now apply IHg.
  - cbn [gty_of] in Hg. eauto.
Qed.

Lemma rm_layout l : forall g, all_square g = true -> rm_align l g = base_align l g /\ rm_size l g = gsize l g.
Proof.
  induction g as [s|s n|s c r|e n IH|n fs IH] using gty_ind'; intros H; cbn [all_square] in H.
  - split; reflexivity.
  - split; reflexivity.
  - apply Nat.eqb_eq in H. subst r. split; reflexivity.
  - destruct (IH H) as [A B]. cbn [rm_align base_align rm_size gsize]. rewrite A, B. split; reflexivity.
  - rewrite forallb_forall in H.
    assert (E1 : map (fun nf => rm_align l (snd nf)) fs = map (fun nf => base_align l (snd nf)) fs).
    { apply map_ext_in. intros nf Hin. rewrite Forall_forall in IH. now apply IH; [|apply H]. }
    assert (E2 : map (fun nf => (rm_align l (snd nf), rm_size l (snd nf))) fs = map (fun nf => (base_align l (snd nf), gsize l (snd nf))) fs).
    { apply map_ext_in. intros nf Hin. rewrite Forall_forall in IH. destruct (IH nf Hin (H nf Hin)) as [-> ->]. reflexivity. }
    assert (A : rm_align l (GStruct n fs) = base_align l (GStruct n fs)) by (cbn [rm_align base_align]; now rewrite E1).
    split; [exact A|]. change (rm_size l (GStruct n fs)) with
      (round_up (members_end 0 (map (fun nf => (rm_align l (snd nf), rm_size l (snd nf))) fs)) (rm_align l (GStruct n fs))).
    rewrite A, E2. reflexivity.
Qed.

(** ** Matrices *)

Definition comp (k : nat) (v : gval) : option gval := match v with GVVec w => nth_error w k | _ => None end.

Lemma rm_matrix tg l s n buf off vs :
  gread_strided (gread_vec tg s n buf) off (col_stride l s n) n = Some vs ->
  exists cs, map_opt (rm_column tg l s n n buf off) (seq 0 n) = Some cs
    /\ square n vs /\ square n cs /\ forall c r, entry cs c r = entry vs r c.
Proof.
  intros H. destruct (gread_strided_inv _ _ _ _ _ H) as [Lv Hv].
  assert (Hcol : forall k v, nth_error vs k = Some v -> exists w, v = GVVec w /\ length w = n
     /\ forall j x, nth_error w j = Some x -> gread_scalar tg s buf (off + N.of_nat k * col_stride l s n + N.of_nat j * scalar_size s) = Some x).
  { intros k v Hk. specialize (Hv k v Hk). unfold gread_vec in Hv.
    destruct (gread_strided (gread_scalar tg s buf) _ _ n) as [w|] eqn:E; [|discriminate]. injection Hv as <-.
    destruct (gread_strided_inv _ _ _ _ _ E) as [Lw Hw]. exists w. repeat split; assumption. }
  assert (Sq : square n vs).
  { split; [exact Lv|]. apply Forall_forall. intros v Hin. apply In_nth_error in Hin. destruct Hin as [k Hk].
    destruct (Hcol k v Hk) as [w [-> [Lw _]]]. now exists w. }
  (* row number c of the matrix *)
  assert (Row : forall c, (c < n)%nat -> exists w, map_opt (comp c) vs = Some w /\ length w = n
     /\ (forall k x, nth_error w k = Some x -> exists v, nth_error vs k = Some v /\ comp c v = Some x)
     /\ rm_column tg l s n n buf off c = Some (GVVec w)).
  { intros c Hc.
    assert (T : exists w, map_opt (comp c) vs = Some w).
    { destruct Sq as [_ Sq]. clear -Sq Hc. induction Sq as [|v vs [w [-> Lw]] _ IH]; [now exists []|].
      destruct IH as [ws IH]. rewrite map_opt_cons, IH. cbn [comp].
      destruct (nth_error w c) as [x|] eqn:E; [now eexists|]. apply nth_error_None in E. lia. }
    destruct T as [w T]. exists w. pose proof (proj1 (map_opt_Forall2 _ _ _) T) as F2.
    assert (Lw : length w = n) by (rewrite <- Lv; symmetry; clear -F2; induction F2; cbn; congruence).
    assert (Q : forall k x, nth_error w k = Some x -> exists v, nth_error vs k = Some v /\ comp c v = Some x).
    { clear -F2. induction F2 as [|v x vs w E _ IH]; intros [|k] y Hk; cbn [nth_error] in *; try discriminate.
      - injection Hk as <-. now exists v.
      - now apply IH. }
    repeat split; try assumption. unfold rm_column.
    assert (G : gread_strided (gread_scalar tg s buf) (off + N.of_nat c * scalar_size s) (row_stride l s n) (length w) = Some w).
    { apply gread_strided_spec. intros k x Hk. destruct (Q k x Hk) as [v [Hvk Hx]].
      destruct (Hcol k v Hvk) as [u [-> [_ Hu]]]. cbn [comp] in Hx. specialize (Hu c x Hx).
      rewrite <- Hu. f_equal. unfold row_stride, col_stride. lia. }
    rewrite Lw in G. now rewrite G. }
  assert (All : exists cs, map_opt (rm_column tg l s n n buf off) (seq 0 n) = Some cs).
  { assert (K : forall m k, (k + m <= n)%nat -> exists cs, map_opt (rm_column tg l s n n buf off) (seq k m) = Some cs).
    { induction m as [|m IH]; intros k Hk; [now exists []|]. cbn [seq]. rewrite map_opt_cons.
      destruct (Row k ltac:(lia)) as [w [_ [_ [_ ->]]]]. destruct (IH (S k) ltac:(lia)) as [cs ->]. now eexists. }
    apply K. lia. }
  destruct All as [cs Hcs]. exists cs. split; [exact Hcs|]. split; [exact Sq|].
  pose proof (proj1 (map_opt_Forall2 _ _ _) Hcs) as F2.
  assert (Hn : forall c y, nth_error cs c = Some y -> (c < n)%nat /\ rm_column tg l s n n buf off c = Some y).
  { assert (K : forall m k cs, Forall2 (fun x y => rm_column tg l s n n buf off x = Some y) (seq k m) cs ->
        forall c y, nth_error cs c = Some y -> (c < m)%nat /\ rm_column tg l s n n buf off (k + c) = Some y).
    { induction m as [|m IH]; intros k cs0 F c y Hy; cbn [seq] in F; inversion F; subst; [destruct c; discriminate|].
      destruct c as [|c]; cbn [nth_error] in Hy.
      - injection Hy as <-. rewrite Nat.add_0_r. split; [lia|assumption].
      - destruct (IH (S k) _ H4 c y Hy) as [A B]. split; [lia|]. now replace (k + S c)%nat with (S k + c)%nat by lia. }
    intros c y Hy. apply (K n 0%nat cs F2 c y Hy). }
  assert (Lc : length cs = n) by (apply map_opt_Some_length in Hcs; rewrite seq_length in Hcs; exact Hcs).
  split.
  - split; [exact Lc|]. apply Forall_forall. intros y Hin. apply In_nth_error in Hin. destruct Hin as [c Hy].
    destruct (Hn c y Hy) as [A B]. destruct (Row c A) as [w [_ [Lw [_ E]]]]. exists w. split; [congruence|exact Lw].
  - intros c r. unfold entry. destruct (nth_error cs c) as [y|] eqn:Ey.
    + destruct (Hn c y Ey) as [A B]. destruct (Row c A) as [w [T [Lw [Q E]]]]. rewrite E in B. injection B as <-.
      destruct (nth_error w r) as [x|] eqn:Ex.
      * destruct (Q r x Ex) as [v [-> Hx]]. symmetry. exact Hx.
      * apply nth_error_None in Ex. replace (nth_error vs r) with (@None gval); [reflexivity|].
        symmetry. apply nth_error_None. lia.
    + apply nth_error_None in Ey. destruct (nth_error vs r) as [v|] eqn:Er; [|reflexivity].
      destruct (Hcol r v Er) as [w [-> [Lw _]]]. symmetry. apply nth_error_None. lia.
Qed.

Lemma gread_scalar_flip tg s buf off x : gread_scalar tg s buf off = Some x -> flipped x x.
Proof.
  unfold gread_scalar. destruct (read_at buf off (scalar_size s)); [|discriminate]. intros H. injection H as <-.
  destruct s; constructor.
Qed.

Lemma rm_read_flip tg l : forall g buf off x, all_square g = true -> gread tg l g buf off = Some x ->
  exists y, rm_read tg l g buf off = Some y /\ flipped x y.
Proof.
  induction g as [s|s n|s c r|e n IH|n fs IH] using gty_ind'; intros buf off x H Hr; cbn [all_square] in H.
  - exists x. split; [exact Hr|]. eapply gread_scalar_flip. exact Hr.
  - exists x. split; [exact Hr|]. cbn [gread] in Hr. unfold gread_vec in Hr.
    destruct (gread_strided _ _ _ n); [|discriminate]. injection Hr as <-. constructor.
  - apply Nat.eqb_eq in H. subst r. cbn [gread] in Hr.
    destruct (gread_strided (gread_vec tg s c buf) off (col_stride l s c) c) as [vs|] eqn:E; [|discriminate]. injection Hr as <-.
    destruct (rm_matrix _ _ _ _ _ _ _ E) as [cs [E1 [S1 [S2 S3]]]]. exists (GVMat cs). cbn [rm_read]. rewrite E1.
    split; [reflexivity|]. now apply (flip_mat c).
  - cbn [gread rm_read] in *. destruct (rm_layout l e H) as [-> ->]. fold (array_stride l e).
    destruct (gread_strided (gread tg l e buf) off (array_stride l e) n) as [vs|] eqn:E; [|discriminate]. injection Hr as <-.
    assert (K : exists ys, gread_strided (rm_read tg l e buf) off (array_stride l e) n = Some ys /\ Forall2 flipped vs ys).
    { revert off vs E. induction n as [|n IHn]; intros off vs E; cbn [gread_strided] in *.
      - injection E as <-. exists []. split; [reflexivity|constructor].
      - destruct (gread tg l e buf off) as [v|] eqn:Ev; [|discriminate].
        destruct (gread_strided _ (off + array_stride l e) _ n) as [vs'|] eqn:Es; [|discriminate]. injection E as <-.
        destruct (IH buf off v H Ev) as [y [-> Fy]]. destruct (IHn _ _ Es) as [ys [-> Fys]].
        exists (y :: ys). split; [reflexivity|now constructor]. }
    destruct K as [ys [-> F]]. exists (GVArr ys). split; [reflexivity|now constructor].
  - cbn [gread rm_read] in *.
    match type of Hr with match ?X with _ => _ end = _ => destruct X as [vs|] eqn:E; [|discriminate] end. injection Hr as <-.
    match goal with |- exists y, match ?X with _ => _ end = _ /\ _ =>
      assert (K : exists ys, X = Some ys /\ Forall2 (fun p q => fst p = fst q /\ flipped (snd p) (snd q)) vs ys) end.
    { revert vs E. generalize 0 as cur. induction fs as [|[f ft] fs IHfs]; intros cur vs E.
      - injection E as <-. exists []. split; [reflexivity|constructor].
      - cbn [forallb snd] in H. apply andb_true_iff in H. destruct H as [H1 H2].
        inversion IH as [|? ? I1 I2]; subst. cbn [snd] in I1.
        destruct (rm_layout l ft H1) as [Ea Es].
        destruct (gread tg l ft buf (off + round_up cur (base_align l ft))) as [v|] eqn:Ev; [|discriminate].
        match type of E with match ?X with _ => _ end = _ => destruct X as [vs'|] eqn:Evs; [|discriminate] end. injection E as <-.
        destruct (I1 buf _ v H1 Ev) as [y [Ey Fy]].
        destruct (IHfs I2 H2 _ _ Evs) as [ys [Eys Fys]].
        rewrite Ea, Es, Ey, Eys. exists ((f, y) :: ys). split; [reflexivity|]. constructor; [split; [reflexivity|exact Fy]|exact Fys]. }
    destruct K as [ys [-> F]]. exists (GVStruct ys). split; [reflexivity|now constructor].
Qed.

(** ** Transposing is a function *)

Lemma list_ext {A} (a : list A) : forall b, length a = length b -> (forall k, nth_error a k = nth_error b k) -> a = b.
Proof.
  induction a as [|x a IH]; intros [|y b] L H; try discriminate; [reflexivity|].
  pose proof (H 0%nat) as H0. cbn in H0. injection H0 as ->. f_equal. apply IH; [cbn in L; congruence|].
  intros k. apply (H (S k)).
Qed.

Lemma square_col n m c : square n m -> (c < n)%nat -> exists v, nth_error m c = Some (GVVec v) /\ length v = n.
Proof.
  intros [L F] Hc. destruct (nth_error m c) as [y|] eqn:E.
  - rewrite Forall_forall in F. destruct (F y (nth_error_In _ _ E)) as [v [-> Lv]]. now exists v.
  - apply nth_error_None in E. lia.
Qed.

Lemma square_ext n a b : square n a -> square n b -> (forall c r, entry a c r = entry b c r) -> a = b.
Proof.
  intros Sa Sb H. apply list_ext; [destruct Sa, Sb; congruence|]. intros c.
  destruct (Nat.ltb_spec c n) as [Hc|Hc].
  - destruct (square_col n a c Sa Hc) as [v [Ev Lv]]. destruct (square_col n b c Sb Hc) as [w [Ew Lw]].
    rewrite Ev, Ew. do 2 f_equal. apply list_ext; [congruence|]. intros r. specialize (H c r). unfold entry in H.
    now rewrite Ev, Ew in H.
  - destruct Sa as [La _], Sb as [Lb _].
    replace (nth_error a c) with (@None gval) by (symmetry; apply nth_error_None; lia).
    symmetry. apply nth_error_None. lia.
Qed.

Lemma flipped_det : forall x y y', flipped x y -> flipped x y' -> y = y'.
Proof.
  induction x as [n|b|v|v|v IH|fs IH] using gval_ind'; intros y y' H H'; inversion H; subst; inversion H'; subst; try reflexivity.
  - f_equal. match goal with
    | S1 : square ?n v, S2 : square ?k v, T1 : square ?n b, T2 : square ?k b0,
      E1 : forall c r, entry b c r = entry v r c, E2 : forall c r, entry b0 c r = entry v r c |- _ =>
      assert (n = k) by (destruct S1 as [S1 _], S2 as [S2 _]; congruence); subst k;
      apply (square_ext n); try assumption; intros c r; now rewrite E1, E2 end.
  - f_equal. rename b into a1, b0 into a2. clear H H'. revert a2 H2. induction H1 as [|x1 y1 v a1 F1 _ IHa]; intros a2 H2; inversion H2; subst; [reflexivity|].
    inversion IH as [|? ? I1 I2]; subst. f_equal; [now apply I1|]. now apply IHa.
  - f_equal. rename b into a1, b0 into a2. clear H H'. revert a2 H2. induction H1 as [|x1 y1 v a1 [E1 F1] _ IHa]; intros a2 H2; inversion H2 as [|? y2 ? ? [E2 F2]]; subst; [reflexivity|].
    inversion IH as [|? ? I1 I2]; subst. f_equal; [|now apply IHa].
    destruct y1, y2. cbn [fst snd] in *. f_equal; [congruence|]. now apply (I1 _ _ F1).
Qed.

(** ** C78 *)

(** C78.  If the bytes of a value are in a buffer and a shader declares a variable of the
    corresponding type there in a [layout(row_major)] block: all offsets, sizes and alignments
    are the same as in a column-major block, and the shader sees the value with every matrix in
    it transposed, everything else unchanged. *)
Lemma C78_row_major_transposes_proof : forall tg l h t g v bs buf off,
  target_ok tg = true -> out_ty tg l h = Some t -> gty_of h = Some g -> hval_ok tg h v = true ->
  as_std_bytes tg l h v = Some bs -> read_at buf off (len bs) = Some bs ->
  rm_align l g = base_align l g /\ rm_size l g = gsize l g
  /\ exists x y, gval_of tg h v = Some x /\ rm_read tg l g buf off = Some y /\ flipped x y.
Proof.
  intros tg l h t g v bs buf off Htg Ho Hg Hv Hb Hr. pose proof (gty_square h g Hg) as Hs.
  destruct (rm_layout l g Hs) as [A B]. split; [exact A|]. split; [exact B|].
  destruct (C23_gpu_reads_host_value_proof tg l h t g v bs buf off Htg Ho Hg Hv Hb Hr) as [x [E1 E2]].
  destruct (rm_read_flip tg l g buf off x Hs E2) as [y [E3 E4]]. exists x, y. auto.
Qed.

(** C78.  A row-major shader sees the value itself exactly if every matrix in it is symmetric. *)
Lemma C78_same_iff_symmetric_proof : forall tg l h t g v bs buf off x,
  target_ok tg = true -> out_ty tg l h = Some t -> gty_of h = Some g -> hval_ok tg h v = true ->
  as_std_bytes tg l h v = Some bs -> read_at buf off (len bs) = Some bs -> gval_of tg h v = Some x ->
  (rm_read tg l g buf off = Some x <-> flipped x x).
Proof.
  intros tg l h t g v bs buf off x Htg Ho Hg Hv Hb Hr Hx.
  destruct (C78_row_major_transposes_proof tg l h t g v bs buf off Htg Ho Hg Hv Hb Hr) as [_ [_ [x' [y [E1 [E2 E3]]]]]].
  rewrite Hx in E1. injection E1 as <-. rewrite E2. split.
  - intros E. injection E as ->. exact E3.
  - intros F. f_equal. exact (flipped_det x y x E3 F).
Qed.

(** C78.  Host and row-major shader: what the host reads from a buffer ([from_bytes],
    [from_stdN]) is the transpose of what such a shader reads from the same bytes, so a shader
    storing into a row-major block is seen transposed. *)
Lemma C78_host_reads_transposed_proof : forall tg l h t g buf off bs,
  target_ok tg = true -> out_ty tg l h = Some t -> gty_of h = Some g ->
  read_at buf off (size_of tg t) = Some bs ->
  exists s v x y, from_bytes tg t bs = Some s /\ from_std tg l h s = Some v
    /\ gval_of tg h v = Some x /\ rm_read tg l g buf off = Some y /\ flipped x y.
Proof.
  intros tg l h t g buf off bs Htg Ho Hg Hr. pose proof (gty_square h g Hg) as Hs.
  destruct (C24_host_reads_gpu_value_proof tg l h t g buf off bs Htg Ho Hg Hr) as [s [v [x [E1 [E2 [_ [E3 E4]]]]]]].
  destruct (rm_read_flip tg l g buf off x Hs E4) as [y [E5 E6]]. exists s, v, x, y. auto.
Qed.

(** C78: a struct with a mat3 and a float. *)
Lemma C78_ex_proof :
  exists t g bs x y, out_ty x86_64 L140 mat3_padding = Some t /\ gty_of mat3_padding = Some g
  /\ (let v := HVRec [("one", HVRec [("x", v3 1 2 3); ("y", v3 4 5 6); ("z", v3 7 8 9)]); ("two", bits 10)] in
      hval_ok x86_64 mat3_padding v = true /\ as_std_bytes x86_64 L140 mat3_padding v = Some bs
      /\ gval_of x86_64 mat3_padding v = Some x)
  /\ rm_read x86_64 L140 g bs 0 = Some y
  /\ (exists f, x = GVStruct [("one", GVMat [GVVec [GVBits 1; GVBits 2; GVBits 3]; GVVec [GVBits 4; GVBits 5; GVBits 6]; GVVec [GVBits 7; GVBits 8; GVBits 9]]); f])
  /\ (exists f, y = GVStruct [("one", GVMat [GVVec [GVBits 1; GVBits 4; GVBits 7]; GVVec [GVBits 2; GVBits 5; GVBits 8]; GVVec [GVBits 3; GVBits 6; GVBits 9]]); f]).
Proof.
  do 5 eexists. split; [vm_compute; reflexivity|]. split; [vm_compute; reflexivity|].
  split; [split; [vm_compute; reflexivity|split; vm_compute; reflexivity]|].
  split; [vm_compute; reflexivity|]. split; eexists; reflexivity.
Qed.
