(** * C68, C69: the calls made on the sink; several Writers on one sink *)

From Coq Require Import NArith String Bool List Lia ZArith.
From Coq Require Import ZifyBool ZifyN ZifyNat.
From Coq Require Import Strings.Byte PeanoNat.
From Verif Require Import Rust Internal Prims Derive Host Rows Buffer SpecBuf SpecCalls SpecGlsl SpecHost
  Arith RustFacts DeriveFacts TypeFacts HostFacts GlslFacts BufferFacts WriterFacts Samples Proofs_Buffer Proofs_Evolve.
Import ListNotations.
Local Open Scope string_scope.
Local Open Scope N_scope.

(** ** Calls *)

Lemma made_app_ok ex1 ex2 log1 log2 e : made ex1 log1 None -> made ex2 log2 e -> made (ex1 ++ ex2)%list (log1 ++ log2)%list e.
Proof.
  cbn [made]. intros ->. destruct e as [r|]; cbn [made].
  - intros [n [bs [err [A [B ->]]]]]. exists (Datatypes.length ex1 + n)%nat, bs, err.
    assert (E : (Datatypes.length ex1 + n - Datatypes.length ex1)%nat = n) by lia.
    split; [rewrite (nth_error_app2 ex1 ex2) by apply Nat.le_add_r; now rewrite E|].
    split; [assumption|]. rewrite firstn_app, (firstn_all2 ex1) by apply Nat.le_add_r.
    rewrite E. now rewrite map_app, <- app_assoc.
  - intros ->. now rewrite map_app.
Qed.

Lemma made_err_app ex1 ex2 log r : made ex1 log (Some r) -> made (ex1 ++ ex2)%list log (Some r).
Proof.
  intros [n [bs [err [A [B ->]]]]]. exists n, bs, err.
  assert (L : (n < Datatypes.length ex1)%nat) by (apply nth_error_Some; congruence).
  split; [now rewrite nth_error_app1|]. split; [assumption|]. rewrite firstn_app.
  replace (n - Datatypes.length ex1)%nat with 0%nat by lia. now rewrite firstn_O, app_nil_r.
Qed.

Section Rec.
  Context {W : Type} (tg : target) (wi : write_impl W).

  Lemma rec_padding n : forall s log, exists log2 s' e,
    write_padding (recording wi) n (s, log) = ((s', (log ++ log2)%list), e)
    /\ write_padding wi n s = (s', e)
    /\ made (repeat [x00] n) log2 (match e with None => None | Some err => Some (WErr err) end).
  Proof.
    induction n as [|n IH]; intros s log; cbn [write_padding repeat].
    - exists [], s, None. rewrite app_nil_r. repeat split.
    - unfold recording at 1. cbn [fst snd]. destruct (wi s [x00]) as [s1 [e|]] eqn:E.
      + exists [([x00], Some e)], s1, (Some e). split; [reflexivity|]. split; [reflexivity|].
        exists 0%nat, [x00], e. repeat split.
      + destruct (IH s1 (log ++ [([x00], None)])%list) as [log2 [s' [e [A [B C]]]]].
        exists (([x00], None) :: log2), s', e. rewrite A, <- app_assoc. split; [reflexivity|]. split; [exact B|].
        apply (made_app_ok [[x00]] (repeat [x00] n) [([x00], None)] log2); [reflexivity|exact C].
  Qed.

  Lemma rec_run1 ps : forall s log off pos, uals tg ps -> at_pos tg off pos -> end_of pos ps < umod tg ->
    exists log2 s' off' os e,
      run1 tg (recording wi) ps (Writer (s, log) off) = (Writer (s', (log ++ log2)%list) off', (os, e))
      /\ run1 tg wi ps (Writer s off) = (Writer s' off', (os, e))
      /\ made (calls_for pos (placements pos ps)) log2 e.
  Proof.
    induction ps as [|[al bs] ps IH]; intros s log off pos Hu Hp Hlt; cbn [run1 placements calls_for].
    - exists [], s, off, [], None. rewrite app_nil_r. repeat split.
    - cbn [end_of] in Hlt. inversion Hu as [|? ? U1 U2]; subst. cbn [fst] in U1.
      pose proof (end_of_ge ps (pos + align_offset pos al + len bs)) as G.
      assert (Eo : off = pos) by (destruct Hp as [-> _]; apply N.mod_small; lia). subst off.
      unfold write1. cbn [w_offset w_inner].
      destruct (rec_padding (N.to_nat (align_offset pos al)) s log) as [l1 [s1 [e1 [A [B C]]]]]. rewrite A, B. clear A B.
      replace (pos + align_offset pos al - pos) with (align_offset pos al) by lia.
      destruct e1 as [err|].
      + exists l1, s1, pos, [], (Some (WErr err)). split; [reflexivity|]. split; [reflexivity|]. now apply made_err_app.
      + unfold uadd. replace (pos + align_offset pos al <? umod tg) with true by (symmetry; apply N.ltb_lt; lia).
        unfold recording at 1. cbn [fst snd]. destruct (wi s1 bs) as [s2 [err|]] eqn:E2.
        * exists (l1 ++ [(bs, Some err)])%list, s2, (pos + align_offset pos al), [], (Some (WErr err)).
          rewrite <- app_assoc. split; [reflexivity|]. split; [reflexivity|].
          apply made_app_ok; [exact C|]. exists 0%nat, bs, err. repeat split.
        * replace (pos + align_offset pos al + len bs <? umod tg) with true by (symmetry; apply N.ltb_lt; lia).
          destruct (IH s2 ((log ++ l1) ++ [(bs, None)])%list (pos + align_offset pos al + len bs) (pos + align_offset pos al + len bs) U2) as [l2 [s' [off' [os [e [A [B D]]]]]]]; [|assumption|].
          { split; [symmetry; apply N.mod_small; lia|lia]. }
          rewrite A, B. exists (l1 ++ (bs, None) :: l2)%list, s', off', ((pos + align_offset pos al) :: os), e.
          split; [rewrite <- !app_assoc; reflexivity|]. split; [reflexivity|].
          apply made_app_ok; [exact C|]. apply (made_app_ok [bs] _ [(bs, None)] l2); [reflexivity|exact D].
  Qed.
End Rec.

(** C69.  The calls of [write_all] that writing a sequence of values makes on a sink (any sink,
    also one that breaks the contract of [Write]): one per byte of padding and one per value,
    in order; after a call that failed there are no more, and its error is what [write]
    returns.  Listening does not change anything. *)
Lemma C69_calls_proof : forall W tg l (wi : write_impl W) inner xs w offs e ps places total,
  target_ok tg = true -> typed_all tg l xs ->
  parts tg l (WSeq (map leaf xs)) = Some ps -> laid_out 0 ps places total -> total < umod tg ->
  write_vals tg l (recording wi) (map leaf xs) (writer_new (inner, [])) = (w, (offs, e)) ->
  made (calls_for 0 places) (snd (w_inner w)) e
  /\ write_vals tg l wi (map leaf xs) (writer_new inner) = (Writer (fst (w_inner w)) (writer_len w), (offs, e)).
Proof.
  intros W tg l wi inner xs w offs e ps places total Htg Hty Hp Hl Hlt Hw.
  apply laid_out_spec in Hl. destruct Hl as [-> ->].
  rewrite (write_vals_run1 tg l _ Htg xs _ ps Hty Hp) in Hw. rewrite (write_vals_run1 tg l _ Htg xs _ ps Hty Hp).
  assert (Hu : uals tg ps) by (eapply parts_uals; [exact Htg|apply typed_all_ok; exact Hty|exact Hp]).
  destruct (rec_run1 tg wi ps inner [] 0 0 Hu (at_pos_0 tg) Hlt) as [l2 [s' [off' [os [e' [A [B C]]]]]]].
  unfold writer_new in Hw. rewrite A in Hw. injection Hw as <- <- <-. cbn [w_inner fst snd app writer_len w_offset]. split; [exact C|exact B].
Qed.

(** C69.  The same for successful histories of all operations (slices, composites, [write_iter],
    [write_std140]). *)
Lemma C69_calls_of_histories_proof : forall W tg l (wi : write_impl W) inner os w rs ps places total,
  target_ok tg = true -> Forall (op_ok tg l) os ->
  ops_parts tg l os = Some ps -> laid_out 0 ps places total -> total < umod tg ->
  run_ops tg l (recording wi) os (writer_new (inner, [])) = (w, rs) -> all_ok rs ->
  map fst (snd (w_inner w)) = calls_for 0 places /\ Forall (fun c => snd c = None) (snd (w_inner w)).
Proof.
  intros W tg l wi inner os w rs ps places total Htg Hok Hp Hl Hlt Hr Hall.
  apply laid_out_spec in Hl. destruct Hl as [-> ->].
  destruct (run_ops_run1 tg l (recording wi) Htg os _ _ _ ps Hok Hp Hr Hall) as [offs R].
  assert (Hu : uals tg ps).
  { destruct (ops_parts_total tg l os Htg Hok) as [q [Eq Uq]]. rewrite Eq in Hp. injection Hp as <-. exact Uq. }
  destruct (rec_run1 tg wi ps inner [] 0 0 Hu (at_pos_0 tg) Hlt) as [l2 [s' [off' [os' [e' [A [B C]]]]]]].
  unfold writer_new in R. rewrite A in R. injection R as <- _ ->. cbn [w_inner snd app made] in *. rewrite C.
  split; [now rewrite map_map, map_id|]. apply Forall_forall. intros c Hc. apply in_map_iff in Hc. destruct Hc as [b [<- _]]. reflexivity.
Qed.

(** ** Two Writers, one after the other, on one sink *)

Lemma least_mono al p q o o' : p <= q -> least_aligned al p o -> least_aligned al q o' -> o <= o'.
Proof. intros H [A [B C]] [A' [B' C']]. apply C; [lia|assumption]. Qed.

Lemma end_of_mono ps : forall p q, p <= q -> end_of p ps <= end_of q ps.
Proof.
  induction ps as [|[al bs] ps IH]; intros p q H; cbn [end_of]; [assumption|]. apply IH.
  assert (p + align_offset p al <= q + align_offset q al); [|lia].
  apply (least_mono al p q); [assumption|now apply least_aligned_spec..].
Qed.

Lemma least_shift al base p o : aligned al base -> least_aligned al p o -> least_aligned al (base + p) (base + o).
Proof.
  intros [->|[j ->]] [A [B C]].
  - split; [lia|]. split; [now left|]. intros q Hq _. pose proof (C p (N.le_refl p) (or_introl eq_refl)). lia.
  - split; [lia|]. split.
    + destruct B as [->|[k ->]]; [now left|right]. exists (j + k). lia.
    + intros q Hq [->|[k ->]].
      * pose proof (C p (N.le_refl p) (or_introl eq_refl)). lia.
      * assert (p <= (k - j) * al) by (rewrite N.mul_sub_distr_r; lia).
        assert (o <= (k - j) * al) by (apply C; [assumption|right; eexists; reflexivity]).
        rewrite N.mul_sub_distr_r in *. lia.
Qed.

Lemma align_shift al base p : aligned al base -> align_offset (base + p) al = align_offset p al.
Proof.
  intros H. assert (L : least_aligned al p (p + align_offset p al)) by now apply least_aligned_spec.
  apply (least_shift al base) in L; [|assumption]. apply least_aligned_spec in L. lia.
Qed.

Lemma shift_all base ps : Forall (fun p => aligned (fst p) base) ps -> forall p,
  map fst (placements (base + p) ps) = map (N.add base) (map fst (placements p ps))
  /\ end_of (base + p) ps = base + end_of p ps /\ render (base + p) ps = render p ps.
Proof.
  induction 1 as [|[al bs] ps Ha _ IH]; intros p; cbn [placements end_of render map fst]; [auto|].
  cbn [fst] in Ha. rewrite (align_shift _ _ _ Ha), <- !N.add_assoc.
  destruct (IH (p + (align_offset p al + len bs))) as [A [B C]]. rewrite A, B, C. repeat split.
Qed.

Lemma shift_conv base ps : forall q p,
  map fst (placements q ps) = map (N.add base) (map fst (placements p ps)) ->
  Forall (fun p => aligned (fst p) base) ps.
Proof.
  induction ps as [|[al bs] ps IH]; intros q p; cbn [placements map fst]; [constructor|].
  intros E. injection E as E1 E2. constructor; [|exact (IH _ _ E2)]. cbn [fst].
  assert (L1 : least_aligned al q (q + align_offset q al)) by now apply least_aligned_spec.
  assert (L2 : least_aligned al p (p + align_offset p al)) by now apply least_aligned_spec.
  destruct L1 as [_ [[->|[k1 A1]] _]]; [now left|]. destruct L2 as [_ [[->|[k2 A2]] _]]; [now left|]. right.
  exists (k1 - k2). rewrite N.mul_sub_distr_r. lia.
Qed.

(** C68.  Some values are written with one Writer, some more with a new Writer on the same sink.
    The offsets of the new Writer are those one Writer would have returned, less the bytes written
    before, exactly if that number of bytes is a multiple of the ALIGNMENT of every later value;
    and then the sink holds the same bytes and the lengths add up. *)
Lemma C68_second_writer_proof : forall W tg l (wi : write_impl W) delivered inner xs1 xs2 w1 o1 w2 o2 w o ps places total,
  target_ok tg = true -> lawful wi delivered -> typed_all tg l xs1 -> typed_all tg l xs2 ->
  parts tg l (WSeq (map leaf (xs1 ++ xs2)%list)) = Some ps -> laid_out 0 ps places total -> total < umod tg ->
  write_vals tg l wi (map leaf xs1) (writer_new inner) = (w1, (o1, None)) ->
  write_vals tg l wi (map leaf xs2) (writer_new (w_inner w1)) = (w2, (o2, None)) ->
  write_vals tg l wi (map leaf (xs1 ++ xs2)%list) (writer_new inner) = (w, (o, None)) ->
  let fits := Forall (fun x => exists a, out_align tg l (fst x) = Some a /\ aligned a (writer_len w1)) xs2 in
  (o = (o1 ++ map (N.add (writer_len w1)) o2)%list <-> fits)
  /\ (fits -> delivered (w_inner w2) = delivered (w_inner w) /\ writer_len w = writer_len w1 + writer_len w2).
Proof.
  intros W tg l wi delivered inner xs1 xs2 w1 o1 w2 o2 w o ps places total Htg Hlaw Ht1 Ht2 Hp Hl Hlt H1 H2 H fits.
  assert (Ht : typed_all tg l (xs1 ++ xs2)%list) by (apply Forall_app; now split).
  destruct (parts_total tg l Htg _ (typed_all_ok _ _ _ Ht1)) as [p1 Hp1].
  destruct (parts_total tg l Htg _ (typed_all_ok _ _ _ Ht2)) as [p2 Hp2].
  assert (E : ps = (p1 ++ p2)%list).
  { rewrite parts_WSeq in Hp, Hp1, Hp2. rewrite map_app, parts_list_app, Hp1, Hp2 in Hp. now injection Hp as <-. }
  apply laid_out_spec in Hl. destruct Hl as [-> ->].
  assert (E2 : end_of 0 ps = end_of (end_of 0 p1) p2) by (now rewrite E, end_of_app).
  pose proof (end_of_ge p2 (end_of 0 p1)) as G1. pose proof (end_of_mono p2 0 (end_of 0 p1) (N.le_0_l _)) as G2.
  assert (L1 : end_of 0 p1 < umod tg) by lia. assert (L2 : end_of 0 p2 < umod tg) by lia.
  destruct (C03_returned_offsets_proof W tg l wi delivered inner xs1 w1 o1 p1 _ _ Htg Hlaw Ht1 H1 Hp1
    (proj2 (laid_out_spec _ _ _ _) (conj eq_refl eq_refl)) (or_intror L1)) as [O1 _].
  destruct (C03_returned_offsets_proof W tg l wi delivered _ xs2 w2 o2 p2 _ _ Htg Hlaw Ht2 H2 Hp2
    (proj2 (laid_out_spec _ _ _ _) (conj eq_refl eq_refl)) (or_intror L2)) as [O2 [_ [F2 _]]].
  destruct (C03_returned_offsets_proof W tg l wi delivered inner _ w o ps _ _ Htg Hlaw Ht H Hp
    (proj2 (laid_out_spec _ _ _ _) (conj eq_refl eq_refl)) (or_intror Hlt)) as [O _].
  pose proof (parts_uals tg l Htg _ _ (typed_all_ok _ _ _ Ht1) Hp1) as U1.
  pose proof (parts_uals tg l Htg _ _ (typed_all_ok _ _ _ Ht2) Hp2) as U2.
  pose proof (parts_uals tg l Htg _ _ (typed_all_ok _ _ _ Ht) Hp) as U.
  rewrite (write_vals_run1 tg l wi Htg _ _ _ Ht1 Hp1) in H1.
  rewrite (write_vals_run1 tg l wi Htg _ _ _ Ht2 Hp2) in H2.
  rewrite (write_vals_run1 tg l wi Htg _ _ _ Ht Hp) in H.
  destruct (run1_spec tg wi delivered Hlaw p1 (writer_new inner) w1 o1 None 0 U1 (at_pos_0 tg) H1) as [_ [_ [A1 D1]]].
  destruct (run1_spec tg wi delivered Hlaw p2 (writer_new (w_inner w1)) w2 o2 None 0 U2 (at_pos_0 tg) H2) as [_ [_ [A2 D2]]].
  destruct (run1_spec tg wi delivered Hlaw ps (writer_new inner) w o None 0 U (at_pos_0 tg) H) as [_ [_ [A D]]].
  apply (at_pos_small tg) in A1; [|assumption]. apply (at_pos_small tg) in A2; [|assumption]. apply (at_pos_small tg) in A; [|assumption].
  unfold writer_new in D1, D2, D. cbn [w_inner] in D1, D2, D. unfold writer_len in *.
  set (base := w_offset w1) in *. rewrite <- A1 in E2.
  assert (Hfits : fits <-> Forall (fun p => aligned (fst p) base) p2).
  { unfold fits. clear -F2. induction F2 as [|x p xs ps [_ Hx] F IH]; [split; constructor|].
    split; intros Q; inversion Q as [|? ? Q1 Q2]; subst; constructor; try (now apply IH).
    - destruct Q1 as [a [Qa Qb]]. congruence.
    - now exists (fst p). }
  rewrite Hfits. clear Hfits. split.
  - rewrite O, O1, O2, E, placements_app, map_app, <- A1. split.
    + intros Q. apply app_inv_head in Q. exact (shift_conv base p2 _ _ Q).
    + intros Q. f_equal. destruct (shift_all base p2 Q 0) as [S _]. now rewrite N.add_0_r in S.
  - intros Q. destruct (shift_all base p2 Q 0) as [_ [S1 S2]]. rewrite N.add_0_r in S1, S2.
    split; [|rewrite A, E2, S1, A2; reflexivity].
    rewrite D2, D1, D, E, render_app, <- A1, S2. now rewrite app_assoc.
Qed.

(** C68.  It is not true that dropping a Writer and making a new one on the same sink continues
    where the old one stopped: alignment is relative to where the Writer started. *)
Lemma C68_new_writer_continues_refuted_proof : ~ (forall xs1 xs2 w1 o1 w2 o2 w o,
  typed_all x86_64 L140 xs1 -> typed_all x86_64 L140 xs2 ->
  write_vals x86_64 L140 vec_sink (map leaf xs1) (writer_new []) = (w1, (o1, None)) ->
  write_vals x86_64 L140 vec_sink (map leaf xs2) (writer_new (w_inner w1)) = (w2, (o2, None)) ->
  write_vals x86_64 L140 vec_sink (map leaf (xs1 ++ xs2)%list) (writer_new []) = (w, (o, None)) ->
  w_inner w2 = w_inner w).
Proof.
  intros H.
  assert (T1 : typed_all x86_64 L140 [(HPrim PU32, bits 7)]) by (repeat constructor; [eexists; vm_compute; reflexivity]).
  assert (T2 : typed_all x86_64 L140 [(vec3f, v3 1 2 3)]) by (repeat constructor; [eexists; vm_compute; reflexivity]).
  destruct (write_vals x86_64 L140 vec_sink (map leaf [(HPrim PU32, bits 7)]) (writer_new [])) as [w1 [o1 e1]] eqn:E1.
  destruct (write_vals x86_64 L140 vec_sink (map leaf [(vec3f, v3 1 2 3)]) (writer_new (w_inner w1))) as [w2 [o2 e2]] eqn:E2.
  destruct (write_vals x86_64 L140 vec_sink (map leaf ([(HPrim PU32, bits 7)] ++ [(vec3f, v3 1 2 3)])%list) (writer_new [])) as [w [o e]] eqn:E.
  vm_compute in E1. injection E1 as <- <- <-.
  assert (N2 : e2 = None) by (vm_compute in E2; now injection E2 as _ _ <-).
  assert (N3 : e = None) by (vm_compute in E; now injection E as _ _ <-).
  subst e2 e.
  specialize (H _ _ _ _ _ _ _ _ T1 T2 eq_refl E2 E).
  vm_compute in E2, E. injection E2 as <- _. injection E as <- _. discriminate H.
Qed.

(** C68: a vec3 and a u32 (16 bytes), then a vec3 with a new Writer. *)
Lemma C68_ex_proof :
  typed_all x86_64 L140 [(vec3f, v3 1 2 3); (HPrim PU32, bits 7)] /\ typed_all x86_64 L140 [(vec3f, v3 4 5 6)]
  /\ (exists w1, write_vals x86_64 L140 vec_sink (map leaf [(vec3f, v3 1 2 3); (HPrim PU32, bits 7)]) (writer_new [x09]) = (w1, ([0; 12], None))
       /\ writer_len w1 = 16
       /\ exists w2, write_vals x86_64 L140 vec_sink (map leaf [(vec3f, v3 4 5 6)]) (writer_new (w_inner w1)) = (w2, ([0], None)) /\ writer_len w2 = 12)
  /\ (exists w, write_vals x86_64 L140 vec_sink (map leaf [(vec3f, v3 1 2 3); (HPrim PU32, bits 7); (vec3f, v3 4 5 6)]) (writer_new [x09])
       = (w, ([0; 12; 16], None)) /\ writer_len w = 28)
  /\ out_align x86_64 L140 vec3f = Some 16 /\ aligned 16 16 /\ ~ aligned 16 4.
Proof.
  split; [repeat constructor; eexists; vm_compute; reflexivity|].
  split; [repeat constructor; eexists; vm_compute; reflexivity|].
  split; [eexists; split; [vm_compute; reflexivity|split; [reflexivity|eexists; split; [vm_compute; reflexivity|reflexivity]]]|].
  split; [eexists; split; [vm_compute; reflexivity|reflexivity]|].
  split; [vm_compute; reflexivity|]. split; [right; now exists 1|]. intros [H|[k H]]; [discriminate|lia].
Qed.

(** C69: a u32 and a vec3: one call with four bytes, twelve with a zero byte, one with twelve
    bytes; the slice has room for 10 bytes, so the seventh byte of padding is the call that
    fails. *)
Lemma C69_ex_proof :
  typed_all x86_64 L140 [(HPrim PU32, bits 7); (vec3f, v3 1 2 3)]
  /\ (exists w, write_vals x86_64 L140 (recording vec_sink) (map leaf [(HPrim PU32, bits 7); (vec3f, v3 1 2 3)]) (writer_new ([], [])) = (w, ([0; 16], None))
       /\ map (fun c => len (fst c)) (snd (w_inner w)) = (4 :: repeat 1 12 ++ [12])%list)
  /\ (exists w, write_vals x86_64 L140 (recording slice_sink) (map leaf [(HPrim PU32, bits 7); (vec3f, v3 1 2 3)]) (writer_new (([], repeat xaa 10), [])) = (w, ([0], Some (WErr WriteZero)))
       /\ len (fst (fst (w_inner w))) = 10
       /\ map (fun c => (len (fst c), snd c)) (snd (w_inner w)) = ((4, None) :: repeat (1, None) 6 ++ [(1, Some WriteZero)])%list).
Proof.
  split; [repeat constructor; eexists; vm_compute; reflexivity|].
  split; [eexists; split; [vm_compute; reflexivity|reflexivity]|].
  eexists; split; [vm_compute; reflexivity|split; reflexivity].
Qed.
