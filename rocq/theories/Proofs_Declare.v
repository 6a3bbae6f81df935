(** * Other declarations of the same bytes *)

From Coq Require Import NArith String Bool List Lia ZArith PeanoNat.
From Coq Require Import ZifyBool ZifyN ZifyNat.
From Coq Require Import Strings.Byte.
From Verif Require Import Rust Internal Prims Derive Host Rows Buffer SpecGlsl SpecHost SpecTypes SpecBuf
  Arith RustFacts DeriveFacts TypeFacts HostFacts GlslFacts BufferFacts WriterFacts GpuFacts Proofs_Types Proofs_Buffer Proofs_Struct Samples.
Import ListNotations.
Local Open Scope string_scope.
Local Open Scope N_scope.

(** ** Matrices and vectors *)

(** C80.  Where a matrix was written, a shader that declares the array of its column vectors
    instead ([vec3 m[3]] for [mat3 m], rule 5 of the layout rules) sees the columns; the two
    declarations have the same size and alignment. *)
Lemma C80_matrix_as_columns_proof : forall tg l h t s c r v bs buf off,
  target_ok tg = true -> out_ty tg l h = Some t -> gty_of h = Some (GMat s c r) -> hval_ok tg h v = true ->
  as_std_bytes tg l h v = Some bs -> read_at buf off (len bs) = Some bs ->
  base_align l (GArr (GVec s r) c) = base_align l (GMat s c r)
  /\ gsize l (GArr (GVec s r) c) = gsize l (GMat s c r)
  /\ exists cols, gval_of tg h v = Some (GVMat cols) /\ length cols = c
       /\ gread tg l (GArr (GVec s r) c) buf off = Some (GVArr cols).
Proof.
  intros tg l h t s c r v bs buf off Htg Ho Hg Hv Hb Hr.
  split; [reflexivity|]. split; [reflexivity|].
  destruct (C23_gpu_reads_host_value_proof tg l h t _ v bs buf off Htg Ho Hg Hv Hb Hr) as [x [X1 X2]].
  cbn [gread] in X2. destruct (gread_strided (gread_vec tg s r buf) off (col_stride l s r) c) as [cols|] eqn:E; [|discriminate].
  injection X2 as <-. exists cols. split; [exact X1|]. split; [exact (proj1 (gread_strided_inv _ _ _ _ _ E))|].
  change (match gread_strided (gread_vec tg s r buf) off (col_stride l s r) c with Some vs => Some (GVArr vs) | None => None end
          = Some (GVArr cols)).
  now rewrite E.
Qed.

(** C80.  Where a vector was written, a shader sees component [k] in a scalar declared [k]
    scalar sizes further; in std430 also in an array of scalars. *)
Lemma C80_vector_as_scalars_proof : forall tg l h t s n v bs buf off,
  target_ok tg = true -> out_ty tg l h = Some t -> gty_of h = Some (GVec s n) -> hval_ok tg h v = true ->
  as_std_bytes tg l h v = Some bs -> read_at buf off (len bs) = Some bs ->
  exists cs, gval_of tg h v = Some (GVVec cs) /\ length cs = n
    /\ (forall k x, nth_error cs k = Some x -> gread tg l (GScalar s) buf (off + N.of_nat k * scalar_size s) = Some x)
    /\ gread tg L430 (GArr (GScalar s) n) buf off = Some (GVArr cs).
Proof.
  intros tg l h t s n v bs buf off Htg Ho Hg Hv Hb Hr.
  destruct (C23_gpu_reads_host_value_proof tg l h t _ v bs buf off Htg Ho Hg Hv Hb Hr) as [x [X1 X2]].
  cbn [gread] in X2. unfold gread_vec in X2.
  destruct (gread_strided (gread_scalar tg s buf) off (scalar_size s) n) as [cs|] eqn:E; [|discriminate].
  injection X2 as <-. exists cs. destruct (gread_strided_inv _ _ _ _ _ E) as [L R]. split; [exact X1|]. split; [exact L|]. split; [exact R|].
  assert (Es : array_stride L430 (GScalar s) = scalar_size s) by (destruct s; reflexivity).
  change (match gread_strided (gread_scalar tg s buf) off (array_stride L430 (GScalar s)) n with Some vs => Some (GVArr vs) | None => None end
          = Some (GVArr cs)). now rewrite Es, E.
Qed.

(** in std140 the array of scalars is not where the components of the vector are *)
Lemma C80_std140_scalar_array_refuted_proof :
  exists bs, as_std_bytes x86_64 L140 vec3f (v3 1 2 3) = Some bs
  /\ gread x86_64 L140 (GVec GFloat 3) bs 0 = Some (GVVec [GVBits 1; GVBits 2; GVBits 3])
  /\ gread x86_64 L140 (GArr (GScalar GFloat) 3) (bs ++ repeat x00 24)%list 0 = Some (GVArr [GVBits 1; GVBits 0; GVBits 0]).
Proof. eexists. repeat split; vm_compute; reflexivity. Qed.

(** ** Structs of one field *)

(** C80.  A struct with a single field is the field followed by zero bytes up to a multiple of
    ALIGNMENT, which is that of the field (at least 16 in std140); hence a shader may declare the
    field itself in its place. *)
Lemma C80_newtype_proof : forall tg l name f h t v bs bs' a,
  target_ok tg = true -> out_ty tg l (HStruct name [(f, h)]) = Some t ->
  hval_ok tg h v = true -> as_std_bytes tg l h v = Some bs -> out_align tg l h = Some a ->
  as_std_bytes tg l (HStruct name [(f, h)]) (HVRec [(f, v)]) = Some bs' ->
  let A := N.max a (match l with L140 => 16 | L430 => 0 end) in
  std_align l t = Some A
  /\ (exists k, bs' = (bs ++ repeat x00 k)%list)
  /\ len bs' = next_aligned (len bs) A
  /\ (forall g buf off, gty_of h = Some g -> read_at buf off (len bs') = Some bs' ->
        exists x, gval_of tg h v = Some x /\ gread tg l g buf off = Some x).
Proof.
  intros tg l name f h t v bs bs' a Htg Ho Hv Hb Ha Hb' A.
  destruct (C17_size_and_alignment_proof tg l name [(f, h)] t Htg Ho) as [ms [E1 [E2 [_ [E4 _]]]]].
  unfold field_metrics in E1. rewrite map_opt_cons in E1. cbn [snd] in E1. rewrite Ha in E1.
  destruct (std_size_static tg l h) as [n|] eqn:En; [|discriminate]. injection E1 as <-.
  cbn [map fst fold_right] in E2, E4. fold A in E2, E4. split; [exact E2|].
  assert (Hvs : hval_ok tg (HStruct name [(f, h)]) (HVRec [(f, v)]) = true).
  { rewrite hval_ok_struct. cbn [hfields_ok]. rewrite String.eqb_refl, Hv. reflexivity. }
  destruct (C49_fieldwise_writing_proof tg l name [(f, h)] t _ bs' Htg Ho Hvs Hb') as [w [offs [W1 [_ [W3 _]]]]].
  assert (Hh : exists th, out_ty tg l h = Some th).
  { unfold std_size_static in En. destruct (out_ty tg l h); [eauto|discriminate]. }
  destruct Hh as [th Hth].
  destruct (C07_sizes_agree_proof tg l h v th Htg Hth Hv) as [n' [b0 [S1 [_ [S3 [S4 [_ [w0 [S6 [_ S8]]]]]]]]]].
  assert (Eb0 : b0 = bs) by congruence. assert (Ewi : w_inner w0 = bs) by congruence. rewrite Eb0 in S4. assert (Enn : n' = n) by congruence. rewrite Enn in S4. clear Eb0 Enn S8.
  cbn [combine map snd leaf fst write_vals] in W1. unfold leaf in W1. cbn [fst snd] in W1. rewrite S6 in W1. injection W1 as <- _.
  rewrite Ewi in W3. split; [eexists; exact W3|].
  assert (E5 : size_of tg t = next_aligned (len bs) A).
  { rewrite E4, S4. f_equal. cbn [extent]. unfold next_aligned. destruct (a =? 0) eqn:Ez; [lia|].
    unfold round_up. rewrite N.div_small by lia. lia. }
  assert (Hle : len bs <= size_of tg t).
  { rewrite E5. unfold next_aligned. destruct (A =? 0) eqn:Ez; [lia|]. apply round_up_ge. lia. }
  split.
  - rewrite W3, len_app. unfold len at 2. rewrite repeat_length. lia.
  - intros g buf off Hg Hr. apply (C23_gpu_reads_host_value_proof tg l h th g v bs buf off Htg Hth Hg Hv Hb).
    rewrite W3 in Hr. rewrite <- (N.add_0_r off). apply (read_at_read_at buf off _ _ 0 (len bs) bs Hr).
    rewrite read_at_app_l by lia. apply read_at_all.
Qed.

Lemma C80_ex_proof :
  (exists t bs, out_ty x86_64 L140 mat3f = Some t /\ gty_of mat3f = Some (GMat GFloat 3 3)
     /\ as_std_bytes x86_64 L140 mat3f (HVRec [("x", v3 1 2 3); ("y", v3 4 5 6); ("z", v3 7 8 9)]) = Some bs
     /\ gread x86_64 L140 (GArr (GVec GFloat 3) 3) bs 0
        = Some (GVArr [GVVec [GVBits 1; GVBits 2; GVBits 3]; GVVec [GVBits 4; GVBits 5; GVBits 6]; GVVec [GVBits 7; GVBits 8; GVBits 9]]))
  /\ (exists bs, as_std_bytes x86_64 L430 vec3f (v3 1 2 3) = Some bs
     /\ gread x86_64 L430 (GArr (GScalar GFloat) 3) bs 0 = Some (GVArr [GVBits 1; GVBits 2; GVBits 3]))
  /\ (exists t bs bs', out_ty x86_64 L140 foo_s = Some t /\ foo_s = HStruct "Foo" [("x", HPrim PF32)]
     /\ as_std_bytes x86_64 L140 (HPrim PF32) (bits 5) = Some bs
     /\ as_std_bytes x86_64 L140 foo_s (HVRec [("x", bits 5)]) = Some bs' /\ len bs = 4 /\ len bs' = 16).
Proof. repeat split; repeat eexists; vm_compute; reflexivity. Qed.
