(** * C63: buffers allocated in advance *)

From Coq Require Import NArith String Bool List Lia ZArith.
From Coq Require Import ZifyBool ZifyN ZifyNat.
From Coq Require Import Strings.Byte.
From Verif Require Import Rust Internal Prims Derive Host Rows Buffer SpecBuf SpecGlsl SpecHost SpecTypes
  Arith RustFacts DeriveFacts TypeFacts HostFacts BufferFacts WriterFacts Samples
  Proofs_Buffer.
Import ListNotations.
Local Open Scope string_scope.
Local Open Scope N_scope.

Lemma firstn_app_short {A} n (a b : list A) : (length a <= n)%nat -> firstn n (a ++ b) = (a ++ firstn (n - length a) b)%list.
Proof. intros H. rewrite firstn_app. now rewrite (firstn_all2 a). Qed.

Lemma run1_slice_exact tg ps : forall f r off, end_of off ps < umod tg ->
  exists off' os, run1 tg slice_sink ps (Writer (f, r) off)
    = (Writer ((f ++ firstn (length r) (render off ps))%list, skipn (length (render off ps)) r) off',
       (os, if len (render off ps) <=? len r then None else Some (WErr WriteZero))).
Proof.
  induction ps as [|[al bs] ps IH]; intros f r off Hlt; cbn [run1 render end_of] in *.
  - exists off, []. cbn [firstn length skipn]. rewrite firstn_nil, app_nil_r. destruct (N.leb_spec (len (@nil byte)) (len r)) as [_|H]; [reflexivity|cbn in H; lia].
  - unfold write1. cbn [w_offset w_inner].
    set (pad := align_offset off al) in *. rewrite slice_write_padding. cbn zeta.
    pose proof (end_of_ge ps (off + pad + len bs)) as Hge.
    assert (Lz : length (zeros pad) = N.to_nat pad) by (unfold zeros; apply repeat_length).
    destruct (Nat.leb_spec (N.to_nat pad) (length r)) as [Hp|Hp].
    + rewrite Nat.min_l by assumption.
      unfold uadd at 1. replace (off + pad <? umod tg) with true by (symmetry; apply N.ltb_lt; lia).
      unfold slice_sink at 1. rewrite skipn_length.
      destruct (Nat.ltb_spec (Nat.min (length bs) (length r - N.to_nat pad)) (length bs)) as [Hb|Hb].
      * do 2 eexists. rewrite (proj2 (N.leb_gt _ _)) by (rewrite !len_app, len_zeros; unfold len; lia).
        f_equal. f_equal. rewrite Nat.min_r by lia. f_equal.
        { rewrite firstn_app_short by lia. rewrite <- app_assoc, Lz. f_equal. f_equal.
          rewrite firstn_app. replace (length r - N.to_nat pad - length bs)%nat with 0%nat by lia. cbn [firstn]. now rewrite app_nil_r. }
        { rewrite skipn_skipn, !skipn_all2; [reflexivity| |]; rewrite ?app_length, ?Lz; lia. }
      * replace (Nat.min (length bs) (length r - N.to_nat pad)) with (length bs) by lia.
        rewrite firstn_all. unfold uadd. replace (off + pad + len bs <? umod tg) with true by (symmetry; apply N.ltb_lt; lia).
        destruct (IH ((f ++ repeat x00 (N.to_nat pad)) ++ bs)%list (skipn (length bs) (skipn (N.to_nat pad) r)) (off + pad + len bs) Hlt)
          as [off' [os E]].
        rewrite E. do 2 eexists. rewrite !skipn_skipn, !skipn_length. set (im := render (off + pad + len bs) ps).
        f_equal.
        { f_equal. f_equal.
          - rewrite firstn_app_short by lia. rewrite Lz, firstn_app_short by lia. unfold zeros. rewrite <- !app_assoc. do 4 f_equal. lia.
          - f_equal. rewrite !app_length, Lz. lia. }
        { f_equal. rewrite !len_app, len_zeros. unfold len. rewrite !skipn_length.
          destruct (N.leb_spec (N.of_nat (length im)) (N.of_nat (length r - (N.to_nat pad + length bs))));
          destruct (N.leb_spec (pad + (N.of_nat (length bs) + N.of_nat (length im))) (N.of_nat (length r))); reflexivity || lia. }
    + rewrite Nat.min_r by lia. do 2 eexists.
      rewrite (proj2 (N.leb_gt _ _)) by (rewrite !len_app, len_zeros; unfold len; lia).
      f_equal. f_equal. f_equal.
      * rewrite firstn_app. replace (length r - length (zeros pad))%nat with 0%nat by lia. cbn [firstn]. rewrite app_nil_r.
        unfold zeros. f_equal. replace (N.to_nat pad) with (length r + (N.to_nat pad - length r))%nat by lia.
        rewrite repeat_app. rewrite firstn_app, repeat_length, Nat.sub_diag. cbn [firstn]. rewrite app_nil_r.
        symmetry. apply firstn_all2. rewrite repeat_length. lia.
      * rewrite !skipn_all2; [reflexivity| |]; rewrite ?app_length, ?Lz; lia.
Qed.

(** C63.  Allocate [x.std140_size()] bytes for any writable value (slices, composites of
    dynamic size) and write it there: the write succeeds and fills the buffer exactly.  With
    any other buffer, the write succeeds exactly when the buffer is at least that large, the
    rest of the buffer is untouched; otherwise the error is [WriteZero] and the whole buffer
    holds the beginning of the image. *)
Lemma C63_presized_buffer_proof : forall tg l x n buf ps places total,
  target_ok tg = true -> wval_ok tg l x ->
  parts tg l x = Some ps -> laid_out 0 ps places total -> total < umod tg ->
  std_size tg l x = Some (Done n) ->
  exists w r full, writer_write tg l slice_sink (writer_new ([], buf)) x = (w, r)
    /\ image places total full /\ len full = n
    /\ w_inner w = (firstn (length buf) full, skipn (length full) buf)
    /\ (n <= len buf -> exists o, r = WOk o)
    /\ (len buf < n -> r = WErr WriteZero).
Proof.
  intros tg l x n buf ps places total Htg Hok Hp Hl Hlt Hn.
  destruct (C08_size_of_dynamic_values_proof tg l x ps places total Htg Hok Hp Hl Hlt) as [w0 [o0 [_ [A2 A3]]]].
  rewrite Hn in A2. injection A2 as A2. apply laid_out_spec in Hl. destruct Hl as [-> ->].
  unfold writer_write. rewrite (write_val_run1 tg l slice_sink Htg x _ ps Hok Hp).
  destruct (run1_slice_exact tg ps [] buf 0 Hlt) as [off' [os R]]. unfold writer_new. rewrite R.
  assert (Hf : len (render 0 ps) = n) by (rewrite <- (N.add_0_l (len _)), <- end_of_render; congruence).
  destruct (N.leb_spec (len (render 0 ps)) (len buf)) as [H|H]; do 2 eexists; exists (render 0 ps);
    (split; [reflexivity|]); (split; [apply render_is_image|]); (split; [assumption|]); (split; [reflexivity|]);
    split; intros H'; try lia; eauto.
Qed.

(** ** The sum of the sizes *)

Definition sumN (ns : list N) : N := fold_right N.add 0 ns.
Lemma sumN_cons n ns : sumN (n :: ns) = n + sumN ns.
Proof. reflexivity. Qed.

(** C63.  How far the sum of the sizes is off: [Sizer::len()] after adding some types is at least
    the sum of their sizes and at most that sum plus [ALIGNMENT - 1] for each of them (if
    overflow is checked, or that bound fits in [usize]). *)
Lemma C63_sum_of_sizes_proof : forall tg l hs ms os s,
  target_ok tg = true ->
  map_opt (fun h => match out_align tg l h, std_size_static tg l h with
                    | Some a, Some n => Some (a, n) | _, _ => None end) hs = Some ms ->
  sizer_run tg l hs sizer_new = Some (Done (os, s)) ->
  t_checks tg = true \/ fold_right N.add 0 (map (fun m => snd m + (fst m - 1)) ms) < umod tg ->
  fold_right N.add 0 (map snd ms) <= sizer_len s
  /\ sizer_len s <= fold_right N.add 0 (map (fun m => snd m + (fst m - 1)) ms).
Proof.
  intros tg l hs ms os s Htg Hm Hs Hb.
  assert (G : forall hs ms os s0 s, map_opt (fun h => match out_align tg l h, std_size_static tg l h with
                    | Some a, Some n => Some (a, n) | _, _ => None end) hs = Some ms ->
     sizer_len s0 < umod tg ->
     sizer_run tg l hs s0 = Some (Done (os, s)) ->
     t_checks tg = true \/ sizer_len s0 + sumN (map (fun m => snd m + (fst m - 1)) ms) < umod tg ->
     sizer_len s0 + sumN (map snd ms) <= sizer_len s
     /\ sizer_len s <= sizer_len s0 + sumN (map (fun m => snd m + (fst m - 1)) ms)).
  { clear - Htg. induction hs as [|h hs IH]; intros ms os s0 s Hm H0 Hs Hb.
    - injection Hm as <-. cbn in Hs. injection Hs as <- <-. cbn. lia.
    - cbn [map_opt] in Hm. destruct (out_align tg l h) as [a|] eqn:Ea; [|discriminate].
      destruct (std_size_static tg l h) as [n|] eqn:En; [|discriminate].
      destruct (map_opt _ hs) as [ms'|] eqn:Em; [|discriminate]. injection Hm as <-.
      cbn [sizer_run] in Hs. cbn [map fst snd] in *. rewrite !sumN_cons in *.
      assert (Hal : align_offset (sizer_len s0) a <= a - 1).
      { destruct (N.eq_dec a 0) as [->|H]; [rewrite align_offset_0; lia|]. pose proof (align_offset_lt (sizer_len s0) a ltac:(lia)). lia. }
      set (o := sizer_len s0 + align_offset (sizer_len s0) a).
      assert (Hlo : least_aligned a (sizer_len s0) o) by now apply least_aligned_spec.
      assert (A : o + n < umod tg /\ exists s1, sizer_add tg l h s0 = Some (Done (o, s1)) /\ sizer_len s1 = o + n).
      { destruct (t_checks tg) eqn:Hc.
        - destruct (C12_sizer_overflow_proof tg l h a n s0 o Htg Hc Ea En H0 Hlo) as [A|[_ A]]; [exact A|]. rewrite A in Hs. discriminate.
        - destruct Hb as [Hb|Hb]; [discriminate|]. assert (Ho : o + n < umod tg) by lia. split; [exact Ho|].
          exact (C01_sizer_add_proof tg l h a n s0 o Htg Ea En Hlo Ho). }
      destruct A as [A1 [s1 [A2 A3]]].
      rewrite A2 in Hs. destruct (sizer_run tg l hs s1) as [[[os' s']|]|] eqn:Es; try discriminate. injection Hs as <- <-.
      destruct (IH ms' os' s1 s' eq_refl ltac:(lia) Es ltac:(destruct Hb as [Hb|Hb]; [now left|right; lia])) as [B1 B2]. lia. }
  destruct (G hs ms os sizer_new s Hm ltac:(cbn; apply umod_pos) Hs Hb) as [A B].
  cbn [sizer_len sizer_new sz_offset] in A, B. unfold sumN in A, B. lia.
Qed.

(** C63.  Allocating the sum of the sizes is not enough: an [f32] and a [vec3] have 4 and 12
    bytes, but writing them needs 28. *)
Lemma C63_sum_suffices_refuted_proof : forall l,
  std_size_static x86_64 l (HPrim PF32) = Some 4 /\ std_size_static x86_64 l vec3f = Some 12
  /\ exists w, write_vals x86_64 l slice_sink [WLeaf (HPrim PF32) (bits 1); WLeaf vec3f (v3 1 2 3)] (writer_new ([], repeat xff 16))
     = (w, ([0], Some (WErr WriteZero))).
Proof.
  intros l. split; [now destruct l|]. split; [now destruct l|]. eexists. destruct l; vm_compute; reflexivity.
Qed.

(** C63: two lights after their number, into buffers of 80, 40 and 100 bytes. *)
Lemma C63_ex_proof :
  exists x ps, x = WSeq [WLeaf (HPrim PU32) (bits 2); light_slice] /\ wval_ok x86_64 L140 x
    /\ parts x86_64 L140 x = Some ps /\ std_size x86_64 L140 x = Some (Done 80)
    /\ (exists w, writer_write x86_64 L140 slice_sink (writer_new ([], repeat xee 80)) x = (w, WOk 0) /\ snd (w_inner w) = [])
    /\ (exists w, writer_write x86_64 L140 slice_sink (writer_new ([], repeat xee 40)) x = (w, WErr WriteZero)
          /\ length (fst (w_inner w)) = 40%nat)
    /\ (exists w, writer_write x86_64 L140 slice_sink (writer_new ([], repeat xee 100)) x = (w, WOk 0)
          /\ snd (w_inner w) = repeat xee 20).
Proof.
  do 2 eexists. split; [reflexivity|]. split.
  { cbn [wval_ok light_slice]. conjs; try exact I; try (eexists; vm_compute; reflexivity); vm_compute; reflexivity. }
  split; [vm_compute; reflexivity|]. split; [vm_compute; reflexivity|].
  split; [eexists; split; vm_compute; reflexivity|]. split; eexists; split; vm_compute; reflexivity.
Qed.

(** ** C09 for slices and composite values *)

Lemma write_vals_parts {W} tg l (wi : write_impl W) : target_ok tg = true -> forall xs w ps,
  wvals_ok tg l xs -> parts_list tg l xs = Some ps ->
  exists os offs e w', run1 tg wi ps w = (w', (os, e)) /\ write_vals tg l wi xs w = (w', (offs, e))
    /\ (e = None -> length offs = length xs) /\ (e <> None -> (length offs < length xs)%nat).
Proof.
  intros Htg. induction xs as [|x xs IH]; intros w ps Hok Hp.
  - injection Hp as <-. exists [], [], None, w. repeat split; congruence.
  - inversion Hok as [|? ? H1 H2]; subst. cbn [parts_list] in Hp.
    destruct (parts tg l x) as [p1|] eqn:E1; [|discriminate].
    destruct (parts_list tg l xs) as [p2|] eqn:E2; [|discriminate]. injection Hp as <-.
    rewrite run1_app. cbn [write_vals]. unfold writer_write. rewrite (write_val_run1 tg l wi Htg x w p1 H1 E1).
    destruct (run1 tg wi p1 w) as [w1 [os1 [r|]]] eqn:R.
    + pose proof (run1_not_ok _ _ _ _ _ _ _ R) as Hr. exists os1, [], (Some r), w1.
      split; [reflexivity|]. split; [destruct r; try reflexivity; exfalso; eapply Hr; reflexivity|]. cbn. split; [discriminate|lia].
    + destruct (IH w1 p2 H2 eq_refl) as [os [offs [e [w' [A [B [C D]]]]]]]. rewrite A, B.
      exists (os1 ++ os)%list. do 3 eexists. split; [reflexivity|]. split; [reflexivity|]. cbn [length].
      split; intros H; [specialize (C H)|specialize (D H)]; lia.
Qed.

(** C09, for any sequence of writable values (slices, user-defined composites): if the sink
    fails, what it received is a prefix of the fault-free image that ends inside (or in the
    padding before) one of the elements; everything before that element arrived, nothing
    after it was tried; the error is reported and [len()] is at most the number of bytes
    received. *)
Lemma C09_slices_and_composites_proof : forall W tg l (wi : write_impl W) delivered inner xs w offs e ps places total,
  target_ok tg = true -> lawful wi delivered -> Forall (wval_ok tg l) xs ->
  write_vals tg l wi xs (writer_new inner) = (w, (offs, e)) ->
  parts tg l (WSeq xs) = Some ps -> laid_out 0 ps places total -> total < umod tg ->
  exists full got, image places total full
    /\ delivered (w_inner w) = (delivered inner ++ got)%list /\ prefix got full
    /\ writer_len w <= len got
    /\ match e with
       | None => got = full /\ length offs = length xs /\ writer_len w = total
       | Some r => (exists err, r = WErr err) /\ (length offs < length xs)%nat
           /\ exists k o bs, nth_error places k = Some (o, bs) /\ len got <= o + len bs
              /\ forall j o' bs', (j < k)%nat -> nth_error places j = Some (o', bs') -> o' + len bs' <= len got
       end.
Proof.
  intros W tg l wi delivered inner xs w offs e ps places total Htg Hlaw Hok Hw Hp Hl Hlt.
  apply laid_out_spec in Hl. destruct Hl as [-> ->].
  pose proof (parts_uals tg l Htg _ _ (proj2 (wval_ok_WSeq tg l xs) Hok) Hp) as Hu.
  rewrite parts_WSeq in Hp.
  destruct (write_vals_parts tg l wi Htg xs (writer_new inner) ps Hok Hp) as [os [offs' [e' [w' [R [E [C D]]]]]]].
  rewrite Hw in E. injection E as <- <- <-.
  destruct (run1_spec tg wi delivered Hlaw ps (writer_new inner) _ _ e 0 Hu (at_pos_0 tg) R) as [F S].
  cbn [writer_new w_inner] in S. exists (render 0 ps).
  assert (Hpl : forall n ps cur, firstn n (placements cur ps) = placements cur (firstn n ps)).
  { clear. induction n as [|n IH]; intros [|[al bs] ps] cur; try reflexivity. cbn [placements firstn]. now rewrite IH. }
  assert (Hnth : forall n ps cur al bs rest, skipn n ps = (al, bs) :: rest ->
     nth_error (placements cur ps) n = Some (end_of cur (firstn n ps) + align_offset (end_of cur (firstn n ps)) al, bs)).
  { clear. induction n as [|n IH]; intros [|[al' bs'] ps] cur al bs rest H; try discriminate.
    - injection H as -> -> ->. reflexivity.
    - cbn [placements nth_error firstn end_of]. cbn [skipn] in H. now apply IH with (rest := rest). }
  destruct e as [[oo|er| |]|]; try contradiction.
  - destruct S as [S1 [[k S2] S3]]. cbn zeta in S3.
    exists (firstn k (render 0 ps)). split; [apply render_is_image|].
    split; [assumption|]. split; [exists (skipn k (render 0 ps)); symmetry; apply firstn_skipn|].
    set (n := length os) in *. set (pos1 := end_of 0 (firstn n ps)) in *.
    destruct (skipn n ps) as [|[al bs] rest] eqn:Esk; [contradiction|].
    assert (Hpos1 : pos1 + align_offset pos1 al + len bs <= end_of 0 ps).
    { rewrite <- (firstn_skipn n ps), Esk, end_of_app. fold pos1. cbn [end_of].
      apply (N.le_trans _ (pos1 + align_offset pos1 al + len bs)); [lia|apply end_of_ge]. }
    assert (Hgot : exists m, len (firstn k (render 0 ps)) = pos1 + m /\ m <= align_offset pos1 al + len bs /\ w_offset w <= pos1 + m).
    { destruct S3 as [[k' [Q1 [Q2 Q3]]]|[k' [Q1 [Q2 Q3]]]]; rewrite S2 in Q3; rewrite <- app_assoc in Q3; apply app_inv_head in Q3; rewrite Q3.
      - exists k'. rewrite len_app, len_zeros. rewrite <- (N.add_0_l (len (render 0 (firstn n ps)))), <- end_of_render. fold pos1.
        split; [reflexivity|]. split; [lia|]. apply (at_pos_small tg) in Q2; [lia|]. lia.
      - exists (align_offset pos1 al + N.of_nat k').
        rewrite !len_app, len_zeros. rewrite <- (N.add_0_l (len (render 0 (firstn n ps)))), <- end_of_render. fold pos1.
        assert (len (firstn k' bs) = N.of_nat k') by (unfold len; rewrite firstn_length; lia).
        split; [lia|]. split; [unfold len; lia|]. apply (at_pos_small tg) in Q2; lia. }
    destruct Hgot as [m [G1 [G2 G3]]].
    split; [unfold writer_len; lia|]. split; [eauto|]. split; [apply D; discriminate|].
    exists n, (pos1 + align_offset pos1 al), bs. split; [exact (Hnth n ps 0 al bs rest Esk)|]. split; [lia|].
    intros j o bs' Hj Hn.
    assert (Hin : In (o, bs') (placements 0 (firstn n ps))).
    { rewrite <- Hpl. assert (Hn' : nth_error (firstn n (placements 0 ps)) j = Some (o, bs')).
      { rewrite <- Hn. rewrite <- (firstn_skipn n (placements 0 ps)) at 2. symmetry. apply nth_error_app1.
        rewrite firstn_length. apply Nat.min_glb_lt; [assumption|]. apply nth_error_Some. congruence. }
      eapply nth_error_In; exact Hn'. }
    pose proof (increasing_in _ _ _ _ _ (increasing_placements (firstn n ps) 0) Hin) as H. fold pos1 in H. lia.
  - destruct S as [_ [_ [_ S]]]. lia.
  - destruct S as [S1 [S2 S3]]. exists (render 0 ps).
    split; [apply render_is_image|]. split; [assumption|]. split; [apply prefix_refl|].
    unfold writer_len. apply (at_pos_small tg) in S2; [|assumption]. rewrite S2. rewrite end_of_render.
    split; [lia|]. split; [reflexivity|]. split; [now apply C|reflexivity].
Qed.

(** C09: a slice of lights after its length; the sink fails 25 bytes into the image. *)
Lemma C09_ex2_proof :
  Forall (wval_ok x86_64 L140) [WLeaf (HPrim PU32) (bits 2); light_slice]
  /\ (let '(w, (offs, e)) := write_vals x86_64 L140 script_sink [WLeaf (HPrim PU32) (bits 2); light_slice]
        (writer_new ([RAccept 4; RAccept 1; RAccept 1; RAccept 1; RAccept 1; RAccept 1; RAccept 1; RAccept 1; RAccept 1;
                      RAccept 1; RAccept 1; RAccept 1; RAccept 1; RAccept 5; RInterrupted; RAccept 4; RError 5], [])) in
      offs = [0] /\ e = Some (WErr (OtherError 5)) /\ len (snd (w_inner w)) = 25 /\ writer_len w = 16).
Proof.
  split.
  - repeat constructor; try (eexists; vm_compute; reflexivity); vm_compute; reflexivity.
  - destruct (write_vals _ _ _ _ _) as [w [offs e]] eqn:E. vm_compute in E. injection E as <- <- <-. repeat split; reflexivity.
Qed.
