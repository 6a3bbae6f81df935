(** * The values of the math types *)

From Coq Require Import NArith String Bool List Lia ZArith PeanoNat.
From Coq Require Import ZifyBool ZifyN ZifyNat.
From Coq Require Import Strings.Byte.
From Verif Require Import Rust Internal Prims Derive Host Rows Buffer SpecGlsl SpecHost SpecTypes SpecMath
  Arith RustFacts DeriveFacts TypeFacts HostFacts GlslFacts BufferFacts Proofs_Types Proofs_Buffer Samples.
Import ListNotations.
Local Open Scope string_scope.
Local Open Scope N_scope.

Definition comp_is (s : gscalar) (h : hty) : bool :=
  match s, h with
  | GFloat, HPrim PF32 | GInt, HPrim PI32 | GUint, HPrim PU32 | GDouble, HPrim PF64 | GBool, HBool => true
  | _, _ => false
  end.
Fixpoint fields_are (ok : hty -> bool) (names : list string) (fs : list (string * hty)) : bool :=
  match names, fs with
  | [], [] => true
  | c :: names', (f, h) :: fs' => String.eqb c f && ok h && fields_are ok names' fs'
  | _, _ => false
  end.
Definition vec_is (s : gscalar) (n : nat) (h : hty) : bool :=
  match h with
  | HEasy _ std fs =>
    match assoc std std_names with Some (GVec s' n') => gscalar_eqb s s' && Nat.eqb n n' | _ => false end
    && fields_are (comp_is s) (firstn n comp_names) fs
  | _ => false
  end.
Definition mat_is (s : gscalar) (c r : nat) (h : hty) : bool :=
  match h with
  | HEasy _ std fs =>
    match assoc std std_names with Some (GMat s' c' r') => gscalar_eqb s s' && Nat.eqb c c' && Nat.eqb r r' | _ => false end
    && fields_are (vec_is s r) (firstn c comp_names) fs
  | _ => false
  end.
Definition under_minty (ok : hty -> bool) (h : hty) : bool := match h with HMinty _ m => ok m | _ => ok h end.
Definition shape_is (g : gty) (h : hty) : bool :=
  under_minty (fun h => match g with GVec s n => vec_is s n h | GMat s c r => mat_is s c r h | _ => false end) h.

Lemma comp_is_ok tg s h v x : comp_is s h = true -> scalar_is s v x -> hval_ok tg h v = true /\ gval_of tg h v = Some x.
Proof.
  intros Hc Hs. destruct s, h as [p| | | | | |]; try discriminate; try (destruct p; discriminate); destruct Hs as [b E|n E Hn]; try discriminate; try congruence;
    try (destruct p; try discriminate); cbn [hval_ok gval_of]; (split; [|reflexivity]); try reflexivity; apply N.ltb_lt; exact Hn.
Qed.

Lemma fields_are_cons ok c names fs : fields_are ok (c :: names) fs = true ->
  exists h fs', fs = (c, h) :: fs' /\ ok h = true /\ fields_are ok names fs' = true.
Proof.
  destruct fs as [|[f h] fs]; [discriminate|]. cbn [fields_are]. rewrite !andb_true_iff, String.eqb_eq.
  intros [[<- H1] H2]. eauto.
Qed.
Lemma fields_are_nil ok fs : fields_are ok [] fs = true -> fs = [].
Proof. destruct fs; [reflexivity|discriminate]. Qed.

Lemma F2_cons {A B} (R : A -> B -> Prop) v vs xs : Forall2 R (v :: vs) xs -> exists x xs', xs = x :: xs' /\ R v x /\ Forall2 R vs xs'.
Proof. intros H. inversion H; subst. eauto. Qed.
Lemma F2_nil {A B} (R : A -> B -> Prop) xs : Forall2 R [] xs -> xs = [].
Proof. intros H. now inversion H. Qed.

(** components or columns with the values [xs] *)
Lemma easy_is_ok tg r std g (ok : hty -> bool) (R : hval -> gval -> Prop) fs vs xs n :
  (forall h v x, ok h = true -> R v x -> hval_ok tg h v = true /\ gval_of tg h v = Some x) ->
  assoc std std_names = Some g -> ncomps g = n -> (n <= 4)%nat -> match g with GVec _ _ | GMat _ _ _ => True | _ => False end ->
  fields_are ok (firstn n comp_names) fs = true ->
  Forall2 R vs xs -> length vs = n ->
  hval_ok tg (HEasy r std fs) (fields_of vs) = true
  /\ gval_of tg (HEasy r std fs) (fields_of vs) = Some (match g with GVec _ _ => GVVec xs | _ => GVMat xs end).
Proof.
  intros Hok Hstd En Hn Hk Hf Hvs Hlen. unfold fields_of. cbn [gval_of hval_ok]. rewrite Hstd, En.
  assert (E : forall A B : gval, (match g with GVec _ _ => Some A | GMat _ _ _ => Some B | _ => None end) = Some (match g with GVec _ _ => A | _ => B end))
    by (intros; destruct g; (reflexivity || contradiction)).
  destruct n as [|[|[|[|[|n]]]]]; [..|lia]; cbn [firstn comp_names] in Hf |- *;
    repeat (apply fields_are_cons in Hf; destruct Hf as [? [? [-> [? Hf]]]]); apply fields_are_nil in Hf; rewrite Hf in *;
    repeat (destruct vs as [|? vs]; cbn [length] in Hlen; try discriminate Hlen);
    repeat (apply F2_cons in Hvs; destruct Hvs as [? [? [-> [? Hvs]]]]); apply F2_nil in Hvs; rewrite ?Hvs in *;
    cbn; repeat match goal with HR : R ?v ?x |- context [gval_of tg ?h ?v] =>
         let P1 := fresh in let P2 := fresh in destruct (Hok h v x ltac:(assumption) HR) as [P1 P2]; rewrite P1, P2; clear HR P1 P2 end;
    (split; [reflexivity|cbn; apply E]).
Qed.

Lemma vec_is_ok tg s n h vs xs : vec_is s n h = true -> (n <= 4)%nat -> Forall2 (scalar_is s) vs xs -> length vs = n ->
  hval_ok tg h (fields_of vs) = true /\ gval_of tg h (fields_of vs) = Some (GVVec xs).
Proof.
  intros Hh Hn Hvs Hlen. destruct h as [| |r std fs| | | |]; try discriminate. cbn [vec_is] in Hh.
  destruct (assoc std std_names) as [[|s' n'| | |]|] eqn:Es; try discriminate. rewrite !andb_true_iff in Hh. destruct Hh as [[A B] C].
  apply Nat.eqb_eq in B. subst n'.
  apply (easy_is_ok tg r std (GVec s' n) (comp_is s) (scalar_is s) fs vs xs n); auto. apply comp_is_ok.
Qed.

Lemma mat_is_ok tg s c r h cols xs : mat_is s c r h = true -> (c <= 4)%nat -> (r <= 4)%nat ->
  Forall2 (fun col x => length col = r /\ exists ys, x = GVVec ys /\ Forall2 (scalar_is s) col ys) cols xs -> length cols = c ->
  hval_ok tg h (fields_of (map fields_of cols)) = true /\ gval_of tg h (fields_of (map fields_of cols)) = Some (GVMat xs).
Proof.
  intros Hh Hc Hr Hvs Hlen. destruct h as [| |rn std fs| | | |]; try discriminate. cbn [mat_is] in Hh.
  destruct (assoc std std_names) as [[| |s' c' r'| |]|] eqn:Es; try discriminate. rewrite !andb_true_iff in Hh. destruct Hh as [[[A B] C] D].
  apply Nat.eqb_eq in B, C. subst c' r'.
  apply (easy_is_ok tg rn std (GMat s' c r) (vec_is s r)
     (fun v x => exists col ys, v = fields_of col /\ x = GVVec ys /\ length col = r /\ Forall2 (scalar_is s) col ys) fs _ xs c); auto.
  - intros h v x Hv [col [ys [-> [-> [L F]]]]]. now apply (vec_is_ok tg s r).
  - clear -Hvs. induction Hvs as [|col x cols xs [L [ys [-> F]]] _ IH]; constructor; [|assumption]. exists col, ys. auto.
  - now rewrite map_length.
Qed.

Lemma math_shapes name g : In (name, g) math_names ->
  exists h, In (Some h) all_math_types /\ rust_name h = name /\ gty_of h = Some g
    /\ (forall tg l, target_ok tg = true -> exists t, out_ty tg l h = Some t) /\ shape_is g h = true
    /\ (ncomps g <= 4)%nat /\ match g with GVec _ n => (n <= 4)%nat | GMat _ _ r => (r <= 4)%nat | _ => False end.
Proof.
  intros Hin. destruct (C25_math_types_proof name g Hin) as [h [H1 [H2 [H3 HO]]]]. exists h.
  assert (HO' : forall tg l, target_ok tg = true -> exists t, out_ty tg l h = Some t) by (intros tg l Htg; destruct (HO tg l Htg) as [t [Ht _]]; eauto).
  assert (K : forallb (fun oh => match oh with
     | Some h => match gty_of h with
                 | Some g => shape_is g h && Nat.leb (ncomps g) 4 && match g with GVec _ n => Nat.leb n 4 | GMat _ _ r => Nat.leb r 4 | _ => false end
                 | None => false end
     | None => false end) all_math_types = true) by (vm_compute; reflexivity).
  rewrite forallb_forall in K. specialize (K _ H1). cbn beta iota in K. rewrite H3, !andb_true_iff in K. destruct K as [[K1 K2] K3].
  apply Nat.leb_le in K2. repeat (split; [assumption|]). destruct g; try discriminate; now apply Nat.leb_le.
Qed.

Lemma seen tg l h t g v x : target_ok tg = true -> out_ty tg l h = Some t -> gty_of h = Some g -> hval_ok tg h v = true ->
  gval_of tg h v = Some x -> exists bs, as_std_bytes tg l h v = Some bs /\ gread tg l g bs 0 = Some x.
Proof.
  intros Htg Ho Hg Hv Hx. destruct (C07_sizes_agree_proof tg l h v t Htg Ho Hv) as [n [bs [_ [_ [Hb _]]]]].
  exists bs. split; [exact Hb|].
  destruct (C23_gpu_reads_host_value_proof tg l h t g v bs bs 0 Htg Ho Hg Hv Hb (read_at_all bs)) as [y [Y1 Y2]]. congruence.
Qed.

(** ** C25 *)

(** C25.  The value with components [cs] of each supported vector type is a value of that type,
    and in both layouts a shader sees in its bytes the vector with these components, [x] first; a
    [bool] component is seen as that truth value. *)
Lemma C25_vector_values_proof : forall name s n, In (name, GVec s n) math_names ->
  exists h, In (Some h) all_math_types /\ rust_name h = name
    /\ forall tg l cs xs, target_ok tg = true -> length cs = n -> Forall2 (scalar_is s) cs xs ->
       hval_ok tg h (math_value h cs) = true
       /\ exists bs, as_std_bytes tg l h (math_value h cs) = Some bs /\ gread tg l (GVec s n) bs 0 = Some (GVVec xs).
Proof.
  intros name s n Hin. destruct (math_shapes name _ Hin) as [h [H1 [H2 [H3 [HO [H4 [_ H5]]]]]]].
  exists h. split; [assumption|]. split; [assumption|]. intros tg l cs xs Htg Hlen Hcs.
  assert (K : hval_ok tg h (math_value h cs) = true /\ gval_of tg h (math_value h cs) = Some (GVVec xs)).
  { unfold shape_is, under_minty in H4. destruct h as [| | |rn m| | |]; try discriminate; unfold math_value.
    - now apply (vec_is_ok tg s n).
    - change (hval_ok tg m (fields_of cs) = true /\ gval_of tg m (fields_of cs) = Some (GVVec xs)). now apply (vec_is_ok tg s n). }
  destruct K as [K1 K2]. split; [exact K1|]. destruct (HO tg l Htg) as [t Ht]. now apply (seen tg l h t).
Qed.

(** C25.  Likewise for matrices, by columns. *)
Lemma C25_matrix_values_proof : forall name s c r, In (name, GMat s c r) math_names ->
  exists h, In (Some h) all_math_types /\ rust_name h = name
    /\ forall tg l cols xss, target_ok tg = true -> length cols = c ->
       Forall2 (fun col xs => length col = r /\ Forall2 (scalar_is s) col xs) cols xss ->
       hval_ok tg h (math_value h (map fields_of cols)) = true
       /\ exists bs, as_std_bytes tg l h (math_value h (map fields_of cols)) = Some bs
            /\ gread tg l (GMat s c r) bs 0 = Some (GVMat (map GVVec xss)).
Proof.
  intros name s c r Hin. destruct (math_shapes name _ Hin) as [h [H1 [H2 [H3 [HO [H4 [H5 H6]]]]]]].
  exists h. split; [assumption|]. split; [assumption|]. intros tg l cols xss Htg Hlen Hcs.
  assert (F : Forall2 (fun col x => length col = r /\ exists ys, x = GVVec ys /\ Forall2 (scalar_is s) col ys) cols (map GVVec xss)).
  { clear -Hcs. induction Hcs as [|col xs cols xss [A B] _ IH]; constructor; [|assumption]. eauto. }
  assert (K : hval_ok tg h (math_value h (map fields_of cols)) = true /\ gval_of tg h (math_value h (map fields_of cols)) = Some (GVMat (map GVVec xss))).
  { unfold shape_is, under_minty in H4. destruct h as [| | |rn m| | |]; try discriminate; unfold math_value.
    - now apply (mat_is_ok tg s c r).
    - change (hval_ok tg m (fields_of (map fields_of cols)) = true /\ gval_of tg m (fields_of (map fields_of cols)) = Some (GVMat (map GVVec xss))). now apply (mat_is_ok tg s c r). }
  destruct K as [K1 K2]. split; [exact K1|]. destruct (HO tg l Htg) as [t Ht]. now apply (seen tg l h t).
Qed.

(** [mint::Vector3<bool>] and [glam::Mat2] *)
Lemma C25_values_ex_proof :
  In ("mint::Vector3<bool>", GVec GBool 3) math_names
  /\ Forall2 (scalar_is GBool) [HVBool true; HVBool false; HVBool true] [GVBool true; GVBool false; GVBool true]
  /\ In ("glam::Mat2", GMat GFloat 2 2) math_names
  /\ Forall2 (fun col xs => length col = 2%nat /\ Forall2 (scalar_is GFloat) col xs)
       [[HVBits 1; HVBits 2]; [HVBits 3; HVBits 4]] [[GVBits 1; GVBits 2]; [GVBits 3; GVBits 4]].
Proof.
  split; [vm_compute; tauto|]. split; [repeat constructor|]. split; [vm_compute; tauto|].
  repeat (constructor; try (split; [reflexivity|]); try discriminate; try reflexivity).
Qed.
