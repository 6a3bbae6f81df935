(** * Proofs of the properties of user-defined writers and iterators (C47, C48) *)

From Coq Require Import NArith String Bool List Lia ZArith.
From Coq Require Import ZifyBool ZifyN ZifyNat.
From Coq Require Import Strings.Byte.
From Verif Require Import Rust Internal Prims Derive Host Buffer SpecBuf SpecHost Client SpecClient
  Arith RustFacts DeriveFacts TypeFacts HostFacts GlslFacts BufferFacts WriterFacts Samples Proofs_Buffer ClientFacts.
Import ListNotations.
Local Open Scope string_scope.
Local Open Scope N_scope.

(** ** C48: arbitrary implementations of the write traits *)

(** C48.  Whatever an implementation does, bytes already delivered are never changed. *)
Lemma C48_append_only_proof : forall W tg l (wi : write_impl W) delivered c w w' ev r,
  lawful wi delivered -> run_client tg l wi c w = (w', (ev, r)) ->
  prefix (delivered (w_inner w)) (delivered (w_inner w')).
Proof.
  intros W tg l wi delivered c w w' ev r Hlaw. revert w w' ev r.
  induction c as [[o|e]| |k IH|t s k IH]; intros w w' ev r H; cbn [run_client] in H.
  - injection H as <- _ _. apply prefix_refl.
  - injection H as <- _ _. apply prefix_refl.
  - injection H as <- _ _. apply prefix_refl.
  - eapply IH; exact H.
  - destruct (write_std tg l wi t s w) as [w1 r1] eqn:E. pose proof (write_std_prefix tg l wi delivered Hlaw _ _ _ _ _ E) as P.
    destruct r1 as [o|e| |].
    + destruct (run_client tg l wi (k (IOk o)) w1) as [w2 [ev2 r2]] eqn:E2. injection H as <- _ _.
      eapply prefix_trans; [exact P|eapply IH; exact E2].
    + destruct (run_client tg l wi (k (IErr e)) w1) as [w2 [ev2 r2]] eqn:E2. injection H as <- _ _.
      eapply prefix_trans; [exact P|eapply IH; exact E2].
    + injection H as <- _ _. exact P.
    + injection H as <- _ _. exact P.
Qed.

(** runs in which all calls succeed *)
Lemma client_run1 {W} tg l (wi : write_impl W) : target_ok tg = true -> forall c w w' ev r,
  client_ok tg l c -> run_client tg l wi c w = (w', (ev, r)) -> calls_ok ev ->
  exists ps offs, Forall2 (fun e p => ev_part tg l e = Some p) ev ps /\ uals tg ps
    /\ map ev_result ev = map WOk offs
    /\ run1 tg wi ps w = (w', (offs, None)).
Proof.
  intros Htg. induction c as [[o|e]| |k IH|t s k IH]; intros w w' ev r Hok H Hev; cbn [run_client] in H.
  - injection H as <- <- _. exists [], []. repeat split; constructor.
  - injection H as <- <- _. exists [], []. repeat split; constructor.
  - injection H as <- <- _. exists [], []. repeat split; constructor.
  - cbn [client_ok] in Hok. eapply IH; eauto.
  - destruct Hok as [H1 H2]. destruct (std_write1 tg l wi t s Htg H1) as [al [bs [E1 [E2 [E3 [E4 E5]]]]]].
    rewrite E5 in H. destruct (write1 tg wi (al, bs) w) as [w1 r1] eqn:E.
    destruct r1 as [o|e| |].
    + destruct (run_client tg l wi (k (IOk o)) w1) as [w2 [ev2 r2]] eqn:R. injection H as <- <- _.
      inversion Hev as [|? ? _ Hev2]; subst.
      destruct (IH (IOk o) _ _ _ _ (H2 _) R Hev2) as [ps [offs [F [U [M Q]]]]].
      exists ((al, bs) :: ps), (o :: offs). split; [constructor; [cbn [ev_part]; now rewrite E1, E2|assumption]|].
      split; [constructor; assumption|]. split; [cbn [map]; now rewrite M|]. cbn [run1]. now rewrite E, Q.
    + destruct (run_client tg l wi (k (IErr e)) w1) as [w2 [ev2 r2]] eqn:R. injection H as <- <- _.
      inversion Hev as [|? ? [oo X] _]; subst. discriminate.
    + injection H as <- <- _. inversion Hev as [|? ? [oo X] _]; subst. discriminate.
    + injection H as <- <- _. inversion Hev as [|? ? [oo X] _]; subst. discriminate.
Qed.

(** C48, image.  If every [Writer::write_std140] call made by an implementation on a
    fresh [Writer] succeeded, the sink received exactly the written values, each at the
    first aligned position after the previous one, and zeros elsewhere; each call
    returned the position of its value, and [len()] is the total length. *)
Lemma C48_image_proof : forall W tg l (wi : write_impl W) delivered inner c w ev r ps places total,
  target_ok tg = true -> lawful wi delivered -> client_ok tg l c ->
  run_client tg l wi c (writer_new inner) = (w, (ev, r)) -> calls_ok ev ->
  Forall2 (fun e p => ev_part tg l e = Some p) ev ps -> laid_out 0 ps places total ->
  (t_checks tg = true \/ total < umod tg) ->
  (exists img, delivered (w_inner w) = (delivered inner ++ img)%list /\ image places total img)
  /\ map ev_result ev = map WOk (map fst places)
  /\ writer_len w = total.
Proof.
  intros W tg l wi delivered inner c w ev r ps places total Htg Hlaw Hok Hr Hev Hps Hl Hno.
  apply laid_out_spec in Hl. destruct Hl as [-> ->].
  destruct (client_run1 tg l wi Htg _ _ _ _ _ Hok Hr Hev) as [ps' [offs [F [U [M Q]]]]].
  assert (ps' = ps).
  { clear -F Hps. revert ps Hps. induction F as [|e p ev ps' H F IH]; intros ps Hps; inversion Hps; subst; [reflexivity|].
    f_equal; [congruence|now apply IH]. }
  subst ps'.
  destruct (run1_spec tg wi delivered Hlaw ps (writer_new inner) w offs None 0 U (at_pos_0 tg) Q) as [G [Hlen [A D]]].
  cbn [writer_new w_inner] in D. split; [|split].
  - exists (render 0 ps). split; [exact D|]. apply render_is_image.
  - rewrite M. f_equal.
    assert (Hpl : forall ps cur, length (placements cur ps) = length ps).
    { clear. induction ps as [|[al bs] ps IH]; intros cur; [reflexivity|]. cbn [placements length]. now rewrite IH. }
    rewrite Hlen, <- (Hpl ps 0), firstn_all in G.
    assert (Hend : forall o, In o (map fst (placements 0 ps)) -> o <= end_of 0 ps).
    { intros o Hin. apply in_map_iff in Hin. destruct Hin as [[o' c'] [E Hin]]. cbn [fst] in E. subst o'.
      pose proof (increasing_in _ _ _ _ _ (increasing_placements ps 0) Hin). lia. }
    clear -G Hno Hend. induction G as [|o p os ps' Hop F IH]; [reflexivity|]. f_equal.
    + destruct Hno as [C|Hlt]; [now apply (at_pos_checks tg)|].
      apply (at_pos_small tg); [|assumption]. specialize (Hend p (or_introl eq_refl)). lia.
    + apply IH. intros o' Hin. apply Hend. now right.
  - unfold writer_len. destruct Hno as [C|Hlt]; [now apply (at_pos_checks tg)|now apply (at_pos_small tg)].
Qed.

(** such parts always exist *)
Lemma ev_parts_total {W} tg l (wi : write_impl W) : target_ok tg = true -> forall c w w' ev r,
  client_ok tg l c -> run_client tg l wi c w = (w', (ev, r)) ->
  exists ps, Forall2 (fun e p => ev_part tg l e = Some p) ev ps.
Proof.
  intros Htg. induction c as [[o|e]| |k IH|t s k IH]; intros w w' ev r Hok H; cbn [run_client] in H;
    try (injection H as <- <- _; exists []; constructor).
  - cbn [client_ok] in Hok. eapply IH; eauto.
  - destruct Hok as [H1 H2]. destruct (std_write1 tg l wi t s Htg H1) as [al [bs [E1 [E2 _]]]].
    assert (P : forall r, ev_part tg l (t, s, r) = Some (al, bs)) by (intros; cbn [ev_part]; now rewrite E1, E2).
    destruct (write_std tg l wi t s w) as [w1 r1].
    destruct r1 as [o|e| |].
    + destruct (run_client tg l wi (k (IOk o)) w1) as [w2 [ev2 r2]] eqn:R. injection H as <- <- _.
      destruct (IH (IOk o) _ _ _ _ (H2 _) R) as [ps F]. exists ((al, bs) :: ps). now constructor.
    + destruct (run_client tg l wi (k (IErr e)) w1) as [w2 [ev2 r2]] eqn:R. injection H as <- <- _.
      destruct (IH (IErr e) _ _ _ _ (H2 _) R) as [ps F]. exists ((al, bs) :: ps). now constructor.
    + injection H as <- <- _. exists [(al, bs)]. repeat constructor. apply P.
    + injection H as <- <- _. exists [(al, bs)]. repeat constructor. apply P.
Qed.

(** C48, sinks.  On sinks that do not fail, what an implementation does, what it
    returns and the resulting [len()] depend only on [len()] at the start. *)
Lemma C48_sink_independent_proof : forall W1 W2 tg l (wi1 : write_impl W1) (wi2 : write_impl W2) c w1 w2,
  target_ok tg = true -> infallible wi1 -> infallible wi2 -> client_ok tg l c ->
  writer_len w1 = writer_len w2 ->
  exists w1' w2' ev r,
    run_client tg l wi1 c w1 = (w1', (ev, r)) /\ run_client tg l wi2 c w2 = (w2', (ev, r))
    /\ writer_len w1' = writer_len w2'
    /\ (forall e, In e ev -> ev_result e = WPanic \/ exists o, ev_result e = WOk o).
Proof.
  intros W1 W2 tg l wi1 wi2 c w1 w2 Htg I1 I2. revert w1 w2. unfold writer_len.
  induction c as [[o|e]| |k IH|t s k IH]; intros w1 w2 Hok Hw; cbn [run_client].
  - do 4 eexists. split; [reflexivity|]. split; [reflexivity|]. split; [assumption|]. intros e [].
  - do 4 eexists. split; [reflexivity|]. split; [reflexivity|]. split; [assumption|]. intros e' [].
  - do 4 eexists. split; [reflexivity|]. split; [reflexivity|]. split; [assumption|]. intros e [].
  - unfold writer_len. rewrite Hw. apply IH; [apply Hok|assumption].
  - destruct Hok as [H1 H2].
    destruct (std_write1 tg l wi1 t s Htg H1) as [al [bs [E1 [E2 [_ [_ E5]]]]]].
    destruct (std_write1 tg l wi2 t s Htg H1) as [al' [bs' [F1 [F2 [_ [_ F5]]]]]].
    rewrite E1 in F1. injection F1 as <-. rewrite E2 in F2. injection F2 as <-.
    rewrite E5, F5. destruct (write1_inf tg wi1 I1 al bs w1) as [i1 ->]. destruct (write1_inf tg wi2 I2 al bs w2) as [i2 ->].
    rewrite Hw. destruct (uadd tg (w_offset w2) (align_offset (w_offset w2) al)) as [here|].
    + destruct (uadd tg here (len bs)) as [off|].
      * destruct (IH (IOk here) (Writer i1 off) (Writer i2 off) (H2 _) eq_refl) as [w1' [w2' [ev [r [R1 [R2 [R3 R4]]]]]]].
        rewrite R1, R2. do 4 eexists. split; [reflexivity|]. split; [reflexivity|]. split; [assumption|].
        intros e [<-|Hin]; [right; eexists; reflexivity|now apply R4].
      * do 4 eexists. split; [reflexivity|]. split; [reflexivity|]. split; [reflexivity|]. intros e [<-|[]]. now left.
    + do 4 eexists. split; [reflexivity|]. split; [reflexivity|]. split; [reflexivity|]. intros e [<-|[]]. now left.
Qed.

Lemma inf_not_ub {W} tg l (wi : write_impl W) : target_ok tg = true -> infallible wi -> forall c w w' ev r,
  client_ok tg l c -> run_client tg l wi c w = (w', (ev, r)) ->
  r <> WUb /\ (r <> WPanic -> calls_ok ev).
Proof.
  intros Htg Hi. induction c as [[o|e]| |k IH|t s k IH]; intros w w' ev r Hok H; cbn [run_client] in H;
    try (injection H as <- <- <-; split; [discriminate|intros; constructor]).
  - cbn [client_ok] in Hok. eapply IH; eauto.
  - destruct Hok as [H1 H2]. destruct (std_write1 tg l wi t s Htg H1) as [al [bs [E1 [E2 [_ [_ E5]]]]]].
    rewrite E5 in H. destruct (write1_inf tg wi Hi al bs w) as [i E]. rewrite E in H. clear E.
    destruct (uadd tg (w_offset w) (align_offset (w_offset w) al)) as [here|].
    + destruct (uadd tg here (len bs)) as [off|].
      * destruct (run_client tg l wi (k (IOk here)) _) as [w2 [ev2 r2]] eqn:R. injection H as <- <- <-.
        destruct (IH (IOk here) _ _ _ _ (H2 _) R) as [A B]. split; [assumption|]. intros Hr. constructor; [eexists; reflexivity|exact (B Hr)].
      * injection H as <- <- <-. split; [discriminate|congruence].
    + injection H as <- <- <-. split; [discriminate|congruence].
Qed.

(** C48, sizes.  If the default [std140_size()] of a user-defined type returns [n],
    then on every sink that does not fail, a fresh [Writer] ends with [len() = n], the
    implementation succeeds with the same offset, and the sink has received [n] bytes
    (modulo [usize::MAX + 1]; exactly [n] with overflow checks).  It panics iff the
    implementation fails or panics there. *)
Lemma C48_default_size_proof : forall W tg l (wi : write_impl W) delivered inner c,
  target_ok tg = true -> lawful wi delivered -> infallible wi -> client_ok tg l c ->
  exists w ev r, run_client tg l wi c (writer_new inner) = (w, (ev, r))
    /\ match client_size tg l c with
       | Some (Done n) =>
           (exists o, r = WOk o) /\ writer_len w = n
           /\ exists img, delivered (w_inner w) = (delivered inner ++ img)%list
              /\ n = len img mod umod tg /\ (t_checks tg = true -> n = len img)
       | Some Panicked => (exists e, r = WErr e) \/ r = WPanic
       | None => False
       end.
Proof.
  intros W tg l wi delivered inner c Htg Hlaw Hi Hok.
  destruct (C48_sink_independent_proof W unit tg l wi io_sink c (writer_new inner) (writer_new tt) Htg Hi io_sink_infallible Hok eq_refl)
    as [w [w2 [ev [r [R1 [R2 [R3 _]]]]]]].
  exists w, ev, r. split; [assumption|]. unfold client_size. rewrite R2.
  destruct (inf_not_ub tg l wi Htg Hi _ _ _ _ _ Hok R1) as [N1 N2].
  destruct r as [o|e| |].
  - split; [eauto|]. split; [assumption|].
    destruct (client_run1 tg l wi Htg _ _ _ _ _ Hok R1 (N2 ltac:(discriminate))) as [ps [offs [_ [U [_ Q]]]]].
    destruct (run1_spec tg wi delivered Hlaw ps (writer_new inner) w offs None 0 U (at_pos_0 tg) Q) as [_ [_ [A D]]].
    exists (render 0 ps). rewrite end_of_render, N.add_0_l in A. split; [exact D|].
    rewrite <- R3. split; [apply A|]. intros C. now apply (at_pos_checks tg).
  - left. eauto.
  - now right.
  - congruence.
Qed.

(** one write on a possibly failing sink, compared with the same write on a [Vec] *)
Lemma write1_vs_vec {W} tg (wi : write_impl W) delivered : lawful wi delivered -> forall al bs w w1 r v v1 r0,
  w_offset w = w_offset v ->
  write1 tg wi (al, bs) w = (w1, r) -> write1 tg vec_sink (al, bs) v = (v1, r0) ->
  exists got got0, delivered (w_inner w1) = (delivered (w_inner w) ++ got)%list
    /\ w_inner v1 = (w_inner v ++ got0)%list /\ prefix got got0
    /\ ((exists e, r = WErr e) \/ (r = r0 /\ got = got0 /\ w_offset w1 = w_offset v1)).
Proof.
  intros Hlaw al bs w w1 r v v1 r0 Hw H H0. unfold write1 in *. rewrite Hw in H.
  set (pad := align_offset (w_offset v) al) in *.
  destruct (write_padding vec_sink (N.to_nat pad) (w_inner v)) as [j1 e1] eqn:F1.
  assert (e1 = None).
  { destruct (write_padding_inf vec_sink vec_infallible (N.to_nat pad) (w_inner v)) as [x F]. congruence. }
  subst e1. apply (write_padding_spec vec_sink (fun v => v) vec_lawful) in F1.
  assert (Z : forall k n, (k <= n)%nat -> prefix (repeat x00 k) (repeat x00 n)).
  { intros k n Hk. exists (repeat x00 (n - k)). rewrite <- repeat_app. f_equal. lia. }
  destruct (write_padding wi (N.to_nat pad) (w_inner w)) as [i1 [e|]] eqn:E1.
  - injection H as <- <-. apply (write_padding_spec wi delivered Hlaw) in E1. destruct E1 as [k [Hk E1]].
    assert (P : exists q, w_inner v1 = (w_inner v ++ repeat x00 (N.to_nat pad) ++ q)%list).
    { destruct (uadd tg (w_offset v) pad) as [here|].
      - cbn [vec_sink] in H0. destruct (uadd tg here (len bs)); injection H0 as <- _; exists bs; cbn [w_inner]; now rewrite F1, <- app_assoc.
      - injection H0 as <- _. exists []. cbn [w_inner]. now rewrite app_nil_r. }
    destruct P as [q P]. exists (repeat x00 k), (repeat x00 (N.to_nat pad) ++ q)%list.
    split; [exact E1|]. split; [exact P|]. split; [|left; eauto].
    eapply prefix_trans; [apply Z; exact Hk|]. eexists. reflexivity.
  - apply (write_padding_spec wi delivered Hlaw) in E1.
    destruct (uadd tg (w_offset v) pad) as [here|].
    + cbn [vec_sink] in H0.
      destruct (wi i1 bs) as [i2 [e|]] eqn:E2.
      * injection H as <- <-. apply Hlaw in E2. destruct E2 as [k [Hk E2]].
        assert (P : w_inner v1 = (w_inner v ++ repeat x00 (N.to_nat pad) ++ bs)%list).
        { destruct (uadd tg here (len bs)); injection H0 as <- _; cbn [w_inner]; now rewrite F1, <- app_assoc. }
        exists (repeat x00 (N.to_nat pad) ++ firstn k bs)%list, (repeat x00 (N.to_nat pad) ++ bs)%list.
        split; [cbn [w_inner]; now rewrite E2, E1, <- app_assoc|]. split; [exact P|].
        split; [|left; eauto]. exists (skipn k bs). rewrite <- app_assoc. now rewrite firstn_skipn.
      * apply Hlaw in E2. exists (repeat x00 (N.to_nat pad) ++ bs)%list, (repeat x00 (N.to_nat pad) ++ bs)%list.
        destruct (uadd tg here (len bs)) as [off|]; injection H as <- <-; injection H0 as <- <-; cbn [w_inner w_offset];
          (split; [now rewrite E2, E1, <- app_assoc|]; split; [now rewrite F1, <- app_assoc|]; split; [apply prefix_refl|]; right; repeat split).
    + injection H as <- <-. injection H0 as <- <-. cbn [w_inner w_offset].
      exists (repeat x00 (N.to_nat pad)), (repeat x00 (N.to_nat pad)).
      split; [exact E1|]. split; [exact F1|]. split; [apply prefix_refl|]. right. repeat split.
Qed.

Lemma write1_len {W} tg (wi : write_impl W) delivered : lawful wi delivered -> forall al bs w w1 r pos,
  ual tg al -> at_pos tg (w_offset w) pos -> write1 tg wi (al, bs) w = (w1, r) ->
  exists got pos', delivered (w_inner w1) = (delivered (w_inner w) ++ got)%list
    /\ (at_pos tg (w_offset w1) pos' /\ pos' <= pos + len got)
    /\ (forall o, r = WOk o -> pos' = pos + len got).
Proof.
  intros Hlaw al bs w w1 r pos Hal Hpos H.
  unfold write1 in H.
  assert (Ep : align_offset (w_offset w) al = align_offset pos al).
  { destruct Hpos as [-> _]. now apply align_offset_umod. }
  rewrite Ep in H. set (pad := align_offset pos al) in *.
  destruct (write_padding wi (N.to_nat pad) (w_inner w)) as [i1 [e1|]] eqn:E1.
  - injection H as <- <-. apply (write_padding_spec wi delivered Hlaw) in E1. destruct E1 as [k [Hk E1]].
    eexists. exists pos. split; [exact E1|]. split; [split; [assumption|lia]|]. discriminate.
  - apply (write_padding_spec wi delivered Hlaw) in E1.
    pose proof (uadd_spec tg _ _ pad Hpos) as U1. destruct (uadd tg (w_offset w) pad) as [here|].
    + destruct (wi i1 bs) as [i2 [e2|]] eqn:E2.
      * injection H as <- <-. apply Hlaw in E2. destruct E2 as [k [Hk E2]].
        eexists. exists (pos + pad). split; [cbn [w_inner]; rewrite E2, E1, <- app_assoc; reflexivity|].
        split; [split; [assumption|rewrite len_app, len_repeat; lia]|]. discriminate.
      * apply Hlaw in E2. pose proof (uadd_spec tg _ _ (len bs) U1) as U2.
        destruct (uadd tg here (len bs)) as [off'|]; injection H as <- <-; cbn [w_offset w_inner].
        -- eexists. exists (pos + pad + len bs). split; [rewrite E2, E1, <- app_assoc; reflexivity|].
           split; [split; [assumption|rewrite len_app, len_repeat; lia]|]. intros; rewrite len_app, len_repeat; lia.
        -- eexists. exists (pos + pad). split; [rewrite E2, E1, <- app_assoc; reflexivity|].
           split; [split; [assumption|rewrite len_app, len_repeat; lia]|]. discriminate.
    + injection H as <- <-. eexists. exists pos. split; [exact E1|]. split; [split; [assumption|lia]|]. discriminate.
Qed.

(** C48, failures.  An implementation that uses [?] on its calls stops at the first
    failing call, returns that error, and leaves a prefix of the bytes of the fault-free
    run; [len()] never exceeds the number of bytes received.  If no call fails, it does
    exactly what the fault-free run does. *)
Lemma C48_failure_leaves_prefix_proof : forall W tg l (wi : write_impl W) delivered inner c w ev r w0 ev0 r0,
  target_ok tg = true -> lawful wi delivered -> client_ok tg l c -> propagates c ->
  run_client tg l wi c (writer_new inner) = (w, (ev, r)) ->
  run_client tg l vec_sink c (writer_new []) = (w0, (ev0, r0)) ->
  exists got, delivered (w_inner w) = (delivered inner ++ got)%list
    /\ prefix got (w_inner w0)
    /\ writer_len w <= len got
    /\ ((ev = ev0 /\ r = r0 /\ got = w_inner w0 /\ writer_len w = writer_len w0)
        \/ exists pre t s e x post,
             ev = (pre ++ [(t, s, WErr e)])%list /\ r = WErr e /\ calls_ok pre
             /\ ev0 = (pre ++ (t, s, x) :: post)%list).
Proof.
  intros W tg l wi delivered inner c w ev r w0 ev0 r0 Htg Hlaw Hok Hpr R R0.
  assert (G : forall c w w' ev r v v' ev0 r0 pos, client_ok tg l c -> propagates c -> w_offset w = w_offset v ->
    at_pos tg (w_offset w) pos ->
    run_client tg l wi c w = (w', (ev, r)) -> run_client tg l vec_sink c v = (v', (ev0, r0)) ->
    exists got got0 pos', delivered (w_inner w') = (delivered (w_inner w) ++ got)%list
      /\ w_inner v' = (w_inner v ++ got0)%list /\ prefix got got0
      /\ at_pos tg (w_offset w') pos' /\ pos' <= pos + len got
      /\ ((ev = ev0 /\ r = r0 /\ got = got0 /\ w_offset w' = w_offset v')
          \/ exists pre t s e x post,
               ev = (pre ++ [(t, s, WErr e)])%list /\ r = WErr e /\ calls_ok pre
               /\ ev0 = (pre ++ (t, s, x) :: post)%list)).
  { clear c w ev r w0 ev0 r0 Hok Hpr R R0.
    assert (Base : forall (w v : writer _) pos ev r, w_offset w = w_offset v -> at_pos tg (w_offset w) pos ->
      exists got got0 pos', delivered (w_inner w) = (delivered (w_inner w) ++ got)%list
      /\ w_inner v = (w_inner v ++ got0)%list /\ prefix got got0
      /\ at_pos tg (w_offset w) pos' /\ pos' <= pos + len got
      /\ ((ev = ev /\ r = r /\ got = got0 /\ w_offset w = w_offset v)
          \/ exists pre t s e x post,
               ev = (pre ++ [(t, s, WErr e)])%list /\ r = WErr e /\ calls_ok pre
               /\ ev = (pre ++ (t, s, x) :: post)%list)).
    { intros w v pos ev r Hw Hp. exists [], [], pos. rewrite !app_nil_r. repeat (split; [reflexivity|]).
      split; [apply prefix_refl|]. split; [assumption|]. split; [lia|]. left. auto. }
    induction c as [[o|e]| |k IH|t s k IH]; intros w w' ev r v v' ev0 r0 pos Hok Hpr Hw Hpos R R0; cbn [run_client] in R, R0.
    - injection R as <- <- <-. injection R0 as <- <- <-. now apply Base.
    - injection R as <- <- <-. injection R0 as <- <- <-. now apply Base.
    - injection R as <- <- <-. injection R0 as <- <- <-. now apply Base.
    - unfold writer_len in R, R0. rewrite <- Hw in R0. eapply IH; eauto.
    - destruct Hok as [H1 H2]. destruct Hpr as [P1 P2].
      destruct (std_write1 tg l wi t s Htg H1) as [al [bs [E1 [E2 [Hal [_ E5]]]]]].
      destruct (std_write1 tg l vec_sink t s Htg H1) as [al' [bs' [F1 [F2 [_ [_ F5]]]]]].
      rewrite E1 in F1. injection F1 as <-. rewrite E2 in F2. injection F2 as <-.
      rewrite E5 in R. rewrite F5 in R0. clear E5 F5.
      destruct (write1 tg wi (al, bs) w) as [w1 r1] eqn:Q. destruct (write1 tg vec_sink (al, bs) v) as [v1 s1] eqn:Q0.
      destruct (write1_vs_vec tg wi delivered Hlaw _ _ _ _ _ _ _ _ Hw Q Q0) as [g [g0 [G1 [G2 [G3 G4]]]]].
      destruct (write1_len tg wi delivered Hlaw _ _ _ _ _ _ Hal Hpos Q) as [g' [p1 [L1 [[L2 L3] L4]]]].
      rewrite G1 in L1. apply app_inv_head in L1. subst g'.
      assert (A0 : exists x post q, ev0 = (t, s, x) :: post /\ w_inner v' = (w_inner v1 ++ q)%list).
      { destruct s1 as [o|e| |].
        - destruct (run_client tg l vec_sink (k (IOk o)) v1) as [v2 [ev2 r2]] eqn:Z. injection R0 as <- <- <-.
          destruct (C48_append_only_proof _ tg l vec_sink (fun v => v) _ _ _ _ _ vec_lawful Z) as [q Hq]. eauto.
        - destruct (run_client tg l vec_sink (k (IErr e)) v1) as [v2 [ev2 r2]] eqn:Z. injection R0 as <- <- <-.
          destruct (C48_append_only_proof _ tg l vec_sink (fun v => v) _ _ _ _ _ vec_lawful Z) as [q Hq]. eauto.
        - injection R0 as <- <- <-. do 2 eexists. exists []. rewrite app_nil_r. split; reflexivity.
        - injection R0 as <- <- <-. do 2 eexists. exists []. rewrite app_nil_r. split; reflexivity. }
      destruct r1 as [o|e| |].
      + destruct G4 as [[e G4]|[<- [<- G5]]]; [discriminate|].
        destruct (run_client tg l wi (k (IOk o)) w1) as [w2 [ev2 r2]] eqn:Z. injection R as <- <- <-.
        destruct (run_client tg l vec_sink (k (IOk o)) v1) as [v2 [ev3 r3]] eqn:Z0. injection R0 as <- <- <-.
        destruct (IH (IOk o) _ _ _ _ _ _ _ _ p1 (H2 _) (P2 _) G5 L2 Z Z0) as [h [h0 [p2 [I1 [I2 [I3 [I4 [I5 I6]]]]]]]].
        exists (g ++ h)%list, (g ++ h0)%list, p2. split; [now rewrite I1, G1, <- app_assoc|].
        split; [now rewrite I2, G2, <- app_assoc|]. split; [destruct I3 as [z ->]; exists z; now rewrite app_assoc|].
        split; [assumption|]. split; [rewrite len_app, (L4 o eq_refl) in *; lia|].
        destruct I6 as [[-> [-> [-> I6]]]|[pre [t' [s' [e' [x [post [-> [-> [I7 ->]]]]]]]]]].
        * left. repeat split; assumption.
        * right. exists ((t, s, WOk o) :: pre), t', s', e', x, post. repeat (split; [reflexivity|]).
          split; [constructor; [eexists; reflexivity|assumption]|reflexivity].
      + rewrite P1 in R. cbn [run_client] in R. injection R as <- <- <-.
        destruct A0 as [x [post [q [-> A0]]]].
        exists g, (g0 ++ q)%list, p1. split; [assumption|]. split; [now rewrite A0, G2, <- app_assoc|].
        split; [eapply prefix_trans; [exact G3|eexists; reflexivity]|]. split; [assumption|]. split; [assumption|].
        right. exists [], t, s, e, x, post. repeat (split; [reflexivity|]). split; [constructor|reflexivity].
      + destruct G4 as [[e G4]|[<- [<- G5]]]; [discriminate|]. injection R as <- <- <-. injection R0 as <- <- <-.
        exists g, g, p1. split; [assumption|]. split; [assumption|]. split; [assumption|]. split; [assumption|]. split; [assumption|].
        left. auto.
      + destruct G4 as [[e G4]|[<- [<- G5]]]; [discriminate|]. injection R as <- <- <-. injection R0 as <- <- <-.
        exists g, g, p1. split; [assumption|]. split; [assumption|]. split; [assumption|]. split; [assumption|]. split; [assumption|].
        left. auto. }
  destruct (G c (writer_new inner) w ev r (writer_new []) w0 ev0 r0 0 Hok Hpr eq_refl (at_pos_0 tg) R R0) as [got [got0 [pos' [A1 [A2 [A3 [A4 [A5 A6]]]]]]]].
  cbn [writer_new w_inner app] in A1, A2. exists got. split; [assumption|]. rewrite A2. split; [assumption|].
  split; [|assumption]. unfold writer_len. destruct A4 as [-> _].
  transitivity pos'; [apply N.mod_le; pose proof (umod_pos tg); lia|lia].
Qed.

(** ** C48, the built-in implementations are instances *)
Lemma C48_builtin_impls_proof : forall W tg l (wi : write_impl W) x w,
  target_ok tg = true -> wval_ok tg l x ->
  client_ok tg l (c_val tg l x) /\ propagates (c_val tg l x)
  /\ (exists w' ev r, run_client tg l wi (c_val tg l x) w = (w', (ev, r)) /\ writer_write tg l wi w x = (w', r)).
Proof.
  intros W tg l wi x w Htg Hok. destruct (c_val_ok tg l Htg x Hok) as [A B]. split; [assumption|]. split; [assumption|].
  pose proof (run_c_val tg l wi Htg x w Hok) as E. destruct (run_client tg l wi (c_val tg l x) w) as [w' [ev r]].
  exists w', ev, r. split; [reflexivity|]. unfold writer_write. rewrite <- E. reflexivity.
Qed.

(** ** C47: lazy iterators *)

Lemma iter_loop_mono {W I} tg l (wi : write_impl W) (next : I -> option client * I) : forall fuel fuel' o it w x,
  (fuel <= fuel')%nat -> iter_loop tg l wi next fuel o it w = Some x -> iter_loop tg l wi next fuel' o it w = Some x.
Proof.
  induction fuel as [|fuel IH]; intros [|fuel'] o it w x Hf H; try discriminate; [lia|].
  cbn [iter_loop] in *. destruct (next it) as [[c|] it1]; [|assumption].
  destruct (run_client tg l wi c w) as [w1 [ev [o1|e| |]]]; try assumption. apply IH; [lia|assumption].
Qed.

Lemma iter_loop_pulled {W I} tg l (wi : write_impl W) (next : I -> option client * I) : forall k it xs it1 it2 o w,
  pulled next k it xs it1 -> next it1 = (None, it2) ->
  exists itf w' ev r,
    iter_loop tg l wi next (S k) o it w = Some (itf, (w', r))
    /\ run_client tg l wi (c_rest o xs) w = (w', (ev, r))
    /\ ((itf = it2 /\ r = WOk o)
        \/ exists ys x zs w1 ev1 ev2,
             xs = (ys ++ x :: zs)%list /\ pulled next (S (length ys)) it (ys ++ [x]) itf
             /\ run_client tg l wi (c_rest o ys) w = (w1, (ev1, WOk o))
             /\ run_client tg l wi x w1 = (w', (ev2, r)) /\ forall o, r <> WOk o).
Proof.
  induction k as [|k IH]; intros it xs it1 it2 o w Hp Hn; inversion Hp; subst.
  - cbn [iter_loop]. rewrite Hn. do 4 eexists. split; [reflexivity|]. split; [reflexivity|]. left. auto.
  - rename H0 into E, H1 into P, xs0 into xs. cbn [c_rest].
    change (iter_loop tg l wi next (S (S k)) o it w) with
      (match next it with
       | (None, it1) => Some (it1, (w, WOk o))
       | (Some item, it1) =>
         match run_client tg l wi item w with
         | (w1, (_, WOk _)) => iter_loop tg l wi next (S k) o it1 w1
         | (w1, (_, r)) => Some (it1, (w1, r))
         end
       end).
    rewrite E, run_try.
    assert (P1 : pulled next 1 it [x] it3) by (econstructor; [exact E|constructor]).
    destruct (run_client tg l wi x w) as [w1 [ev [o1|e| |]]] eqn:R.
    + destruct (IH _ _ _ _ o w1 P Hn) as [itf [w' [ev' [r [A [B C]]]]]]. rewrite A, B.
      do 4 eexists. split; [reflexivity|]. split; [reflexivity|].
      destruct C as [C|[ys [y [zs [w2 [ev1 [ev2 [-> [C2 [C3 [C4 C5]]]]]]]]]]]; [now left|].
      right. exists (x :: ys), y, zs, w2. do 2 eexists. split; [reflexivity|]. split; [econstructor; [exact E|exact C2]|].
      split; [cbn [c_rest]; rewrite run_try, R, C3; reflexivity|]. split; [exact C4|assumption].
    + do 4 eexists. split; [reflexivity|]. split; [reflexivity|]. right. exists [], x, xs, w, [], ev.
      split; [reflexivity|]. split; [exact P1|]. split; [reflexivity|]. split; [exact R|discriminate].
    + do 4 eexists. split; [reflexivity|]. split; [reflexivity|]. right. exists [], x, xs, w, [], ev.
      split; [reflexivity|]. split; [exact P1|]. split; [reflexivity|]. split; [exact R|discriminate].
    + do 4 eexists. split; [reflexivity|]. split; [reflexivity|]. right. exists [], x, xs, w, [], ev.
      split; [reflexivity|]. split; [exact P1|]. split; [reflexivity|]. split; [exact R|discriminate].
Qed.

(** C47.  [write_iter] on an iterator that yields [xs] and then [None] (and [None] again
    if it is empty) terminates and does what [write] does with the slice of the same
    values.  It stops pulling at the first item that fails: the iterator is then left
    just after that item; otherwise it is left just after its (last) [None]. *)
Lemma C47_write_iter_finite_proof : forall W I tg l (wi : write_impl W) (next : I -> option client * I) k it xs it1 it2 w,
  pulled next k it xs it1 -> next it1 = (None, it2) -> (xs = [] -> exists it3, next it2 = (None, it3)) ->
  exists fuel0 itf w' ev r,
    (forall fuel, (fuel0 <= fuel)%nat -> write_iter_lazy tg l wi next fuel it w = Some (itf, (w', r)))
    /\ run_client tg l wi (c_slice xs) w = (w', (ev, r))
    /\ (((exists o, r = WOk o) /\ (xs <> [] -> itf = it2) /\ (xs = [] -> next it2 = (None, itf)))
        \/ exists ys x zs w1 ev1 o1 ev2,
             xs = (ys ++ x :: zs)%list /\ pulled next (S (length ys)) it (ys ++ [x]) itf
             /\ run_client tg l wi (c_slice ys) w = (w1, (ev1, WOk o1))
             /\ run_client tg l wi x w1 = (w', (ev2, r)) /\ forall o, r <> WOk o).
Proof.
  intros W I tg l wi next k it xs it1 it2 w Hp Hn He. unfold c_slice, write_iter_lazy. cbn [run_client].
  inversion Hp; subst.
  - destruct (He eq_refl) as [it3 E3]. exists 1%nat, it3, w, [], (WOk (w_offset w)).
    rewrite Hn. split; [|split; [reflexivity|left]].
    + intros [|fuel] Hf; [lia|]. cbn [iter_loop]. now rewrite E3.
    + split; [eauto|]. split; [congruence|auto].
  - rename H into E, H0 into P. rewrite E, run_try. unfold writer_len.
    assert (P1 : pulled next 1 it [x] it3) by (econstructor; [exact E|constructor]).
    destruct (run_client tg l wi x w) as [w1 [ev [o1|e| |]]] eqn:R.
    + destruct (iter_loop_pulled tg l wi next _ _ _ _ _ o1 w1 P Hn) as [itf [w' [ev' [r [A [B C]]]]]].
      rewrite B. exists (S k0), itf, w'. do 2 eexists. split; [|split; [reflexivity|]].
      * intros fuel Hf. eapply iter_loop_mono; [exact Hf|exact A].
      * destruct C as [[-> ->]|[ys [y [zs [w2 [ev1 [ev2 [-> [C2 [C3 [C4 C5]]]]]]]]]]].
        -- left. split; [eauto|]. split; [auto|discriminate].
        -- right. exists (x :: ys), y, zs, w2. do 3 eexists. split; [reflexivity|].
           split; [econstructor; [exact E|exact C2]|].
           split; [rewrite run_try, R, C3; reflexivity|]. split; [exact C4|assumption].
    + exists 0%nat, it3. do 3 eexists. split; [reflexivity|]. split; [reflexivity|]. right.
      exists [], x, xs0, w. do 3 eexists. split; [reflexivity|]. split; [exact P1|]. split; [reflexivity|]. split; [exact R|discriminate].
    + exists 0%nat, it3. do 3 eexists. split; [reflexivity|]. split; [reflexivity|]. right.
      exists [], x, xs0, w. do 3 eexists. split; [reflexivity|]. split; [exact P1|]. split; [reflexivity|]. split; [exact R|discriminate].
    + exists 0%nat, it3. do 3 eexists. split; [reflexivity|]. split; [reflexivity|]. right.
      exists [], x, xs0, w. do 3 eexists. split; [reflexivity|]. split; [exact P1|]. split; [reflexivity|]. split; [exact R|discriminate].
Qed.

(** one write of a non-empty value into a fixed buffer *)
Lemma write1_slice_step tg al bs f r off : bs <> [] -> off + len r < umod tg ->
  (exists f' off', write1 tg slice_sink (al, bs) (Writer (f, r) off) = (Writer (f', []) off', WErr WriteZero)
     /\ len f' = len f + len r)
  \/ (exists f' r' off' o, write1 tg slice_sink (al, bs) (Writer (f, r) off) = (Writer (f', r') off', WOk o)
     /\ (length r' < length r)%nat /\ len f' + len r' = len f + len r /\ off' + len r' = off + len r).
Proof.
  intros Hbs Hlt. unfold write1. cbn [w_offset w_inner].
  set (pad := align_offset off al). rewrite slice_write_padding. cbn zeta.
  assert (Hb0 : (0 < length bs)%nat) by (destruct bs; [congruence|cbn; lia]).
  destruct (Nat.leb_spec (N.to_nat pad) (length r)) as [Hp|Hp].
  - rewrite Nat.min_l by assumption.
    assert (U1 : uadd tg off pad = Done (off + pad)).
    { unfold uadd. replace (off + pad <? umod tg) with true by (symmetry; apply N.ltb_lt; unfold len in Hlt; lia). reflexivity. }
    rewrite U1. unfold slice_sink. rewrite !skipn_length.
    destruct (Nat.ltb_spec (Nat.min (length bs) (length r - N.to_nat pad)) (length bs)) as [Hb|Hb].
    + left. replace (Nat.min (length bs) (length r - N.to_nat pad)) with (length r - N.to_nat pad)%nat by lia.
      do 2 eexists. split; [f_equal; f_equal; f_equal|].
      * apply length_zero_iff_nil. rewrite !skipn_length. lia.
      * rewrite !len_app, len_repeat. unfold len. rewrite firstn_length. lia.
    + right. replace (Nat.min (length bs) (length r - N.to_nat pad)) with (length bs)%nat by lia.
      unfold uadd. replace (off + pad + len bs <? umod tg) with true by (symmetry; apply N.ltb_lt; unfold len in *; lia).
      do 4 eexists. split; [reflexivity|]. rewrite !skipn_length. split; [lia|].
      rewrite !len_app, len_repeat. unfold len in *. rewrite !skipn_length, firstn_all. split; lia.
  - left. rewrite Nat.min_r by lia. do 2 eexists. split; [f_equal; f_equal; f_equal|].
    + apply length_zero_iff_nil. rewrite !skipn_length. lia.
    + rewrite len_app, len_repeat. unfold len. lia.
Qed.

(** C47, infinite iterators.  [write_iter] on an iterator that never ends, over a
    [&mut [u8]], terminates with a [WriteZero] error after filling the buffer, provided
    the values are not zero-sized. *)
Lemma C47_infinite_iter_fixed_buffer_proof : forall I tg l (next : I -> option client * I) it buf,
  target_ok tg = true -> len buf < umod tg ->
  (forall it, exists h v n it1, next it = (Some (c_leaf tg l h v), it1)
     /\ hval_ok tg h v = true /\ std_size_static tg l h = Some n /\ 0 < n) ->
  exists fuel0 itf w',
    (forall fuel, (fuel0 <= fuel)%nat ->
       write_iter_lazy tg l slice_sink next fuel it (writer_new ([], buf)) = Some (itf, (w', WErr WriteZero)))
    /\ snd (w_inner w') = [] /\ len (fst (w_inner w')) = len buf.
Proof.
  intros I tg l next it buf Htg Hlt Hnext.
  assert (Item : forall it f r off, off + len r < umod tg -> exists it1 c, next it = (Some c, it1)
    /\ ((exists f' off' ev, run_client tg l slice_sink c (Writer (f, r) off) = (Writer (f', []) off', (ev, WErr WriteZero))
           /\ len f' = len f + len r)
        \/ (exists f' r' off' o ev, run_client tg l slice_sink c (Writer (f, r) off) = (Writer (f', r') off', (ev, WOk o))
           /\ (length r' < length r)%nat /\ len f' + len r' = len f + len r /\ off' + len r' = off + len r))).
  { clear it. intros it f r off Ho. destruct (Hnext it) as [h [v [n [it1 [E [Hv [Hn Hpos]]]]]]].
    exists it1, (c_leaf tg l h v). split; [exact E|].
    unfold std_size_static in Hn. destruct (out_ty tg l h) as [t|] eqn:Ht; [|discriminate]. injection Hn as <-.
    destruct (leaf_parts _ _ _ _ _ Htg Ht Hv) as [s [E1 [E2 _]]]. unfold c_leaf. rewrite Ht, E1.
    destruct (std_write1 tg l slice_sink t s Htg) as [al [bs [_ [_ [_ [Hl Hw]]]]]]; [split; [eapply SpecLayout.lt_crate; eassumption|assumption]|].
    cbn [run_client]. rewrite Hw.
    destruct (write1_slice_step tg al bs f r off) as [[f' [off' [Q1 Q2]]]|[f' [r' [off' [o [Q1 Q2]]]]]].
    - intros ->. rewrite len_nil in Hl. lia.
    - assumption.
    - left. rewrite Q1. do 3 eexists. split; [reflexivity|assumption].
    - right. rewrite Q1. do 5 eexists. split; [reflexivity|assumption]. }
  assert (Loop : forall m o it f r off, (length r <= m)%nat -> off + len r < umod tg -> exists fuel itf f' off',
    iter_loop tg l slice_sink next fuel o it (Writer (f, r) off) = Some (itf, (Writer (f', []) off', WErr WriteZero)) /\ len f' = len f + len r).
  { clear it. induction m as [|m IH]; intros o it f r off Hm Ho;
      destruct (Item it f r off Ho) as [it1 [c [E [[f' [off' [ev [Q1 Q2]]]]|[f' [r' [off' [o' [ev [Q1 [Q2 [Q3 Q4]]]]]]]]]]]].
    - exists 1%nat, it1, f', off'. cbn [iter_loop]. rewrite E, Q1. split; [reflexivity|assumption].
    - lia.
    - exists 1%nat, it1, f', off'. cbn [iter_loop]. rewrite E, Q1. split; [reflexivity|assumption].
    - destruct (IH o it1 f' r' off') as [fuel [itf [f2 [off2 [L1 L2]]]]]; [lia|lia|].
      exists (S fuel), itf, f2, off2. cbn [iter_loop]. rewrite E, Q1. split; [exact L1|lia]. }
  unfold write_iter_lazy, writer_new.
  destruct (Item it [] buf 0 ltac:(lia)) as [it1 [c [E [[f' [off' [ev [Q1 Q2]]]]|[f' [r' [off' [o' [ev [Q1 [Q2 [Q3 Q4]]]]]]]]]]]].
  - exists 0%nat, it1, (Writer (f', []) off'). rewrite E, Q1. split; [reflexivity|]. split; [reflexivity|]. exact Q2.
  - destruct (Loop (length r') o' it1 f' r' off' (le_n _)) as [fuel [itf [f2 [off2 [L1 L2]]]]]; [lia|].
    exists fuel, itf, (Writer (f2, []) off2). rewrite E, Q1. split.
    + intros fuel' Hf. eapply iter_loop_mono; [exact Hf|exact L1].
    + split; [reflexivity|]. cbn [w_inner fst]. rewrite L2. exact Q3.
Qed.

(** [write_iter] documents: "Returns the offset into the buffer that the first value was
    written to.  If no values were written, returns the [len()]."  This is false for an
    iterator that is not fused: the function calls [next()] again after a first [None].
    Below, the iterator returns [None] and then a value; the value is written at 16, but
    the result is 4. *)
Lemma C47_non_fused_iterator_refuted_proof :
  exists (next : nat -> option client * nat) it itf x h w w1 w' bs,
    x = WLeaf h (v3 1 2 3) /\ wval_ok x86_64 L140 x
    /\ next it = (None, S it) /\ next (S it) = (Some (c_val x86_64 L140 x), S (S it)) /\ next (S (S it)) = (None, itf)
    /\ writer_write x86_64 L140 vec_sink (writer_new []) (WLeaf (HPrim PU32) (bits 2)) = (w, WOk 0)
    /\ writer_len w = 4
    /\ write_iter_lazy x86_64 L140 vec_sink next 5 it w = Some (itf, (w', WOk 4))
    /\ writer_write x86_64 L140 vec_sink w x = (w1, WOk 16) /\ w1 = w'
    /\ as_std_bytes x86_64 L140 h (v3 1 2 3) = Some bs
    /\ read_at (w_inner w') 4 (len bs) <> Some bs /\ read_at (w_inner w') 16 (len bs) = Some bs.
Proof.
  exists (fun n => match n with 1%nat => (Some (c_val x86_64 L140 (WLeaf vec3f (v3 1 2 3))), 2%nat) | _ => (None, S n) end), 0%nat, 3%nat.
  exists (WLeaf vec3f (v3 1 2 3)), vec3f. do 4 eexists.
  split; [reflexivity|]. split; [split; [eexists; vm_compute; reflexivity|reflexivity]|].
  split; [reflexivity|]. split; [reflexivity|]. split; [reflexivity|].
  split; [vm_compute; reflexivity|]. split; [reflexivity|]. split; [vm_compute; reflexivity|].
  split; [vm_compute; reflexivity|]. split; [reflexivity|]. split; [vm_compute; reflexivity|].
  split; [vm_compute; discriminate|vm_compute; reflexivity].
Qed.

(** ** Non-vacuity *)

(** the iterator over the list of the remaining items *)
Definition list_next (it : list client) : option client * list client :=
  match it with [] => (None, []) | x :: r => (Some x, r) end.
Definition two_vec3 : list client := [c_leaf x86_64 L140 vec3f (v3 1 2 3); c_leaf x86_64 L140 vec3f (v3 4 5 6)].

Lemma C47_ex_proof :
  pulled list_next 2 two_vec3 two_vec3 [] /\ list_next [] = (None, [])
  /\ (exists w, write_iter_lazy x86_64 L140 vec_sink list_next 9 two_vec3 (Writer [x09] 1) = Some ([], (w, WOk 16)) /\ writer_len w = 44)
  /\ (exists w, write_iter_lazy x86_64 L140 slice_sink list_next 9 (two_vec3 ++ two_vec3)%list (writer_new ([], repeat xaa 20))
        = Some (two_vec3, (w, WErr WriteZero)) /\ len (fst (w_inner w)) = 20)
  /\ (exists w, write_iter_lazy x86_64 L140 slice_sink (fun n : nat => (Some (c_leaf x86_64 L140 vec3f (v3 1 2 3)), S n)) 99 0%nat (writer_new ([], repeat xaa 100))
        = Some (7%nat, (w, WErr WriteZero)) /\ writer_len w = 96).
Proof.
  split; [repeat (econstructor; [reflexivity|]); constructor|]. split; [reflexivity|].
  split; [eexists; split; [vm_compute; reflexivity|reflexivity]|].
  split; [eexists; split; [vm_compute; reflexivity|reflexivity]|].
  eexists; split; [vm_compute; reflexivity|reflexivity].
Qed.

(** a user-defined type: writes a count, then its elements, and returns the offset of
    the first call, as the trait documents; the number of elements written depends on
    what [len()] returned *)
Definition custom : client :=
  c_try (c_leaf x86_64 L140 (HPrim PU32) (bits 2)) (fun o =>
  CLen (fun n =>
  c_try (c_slice (if n <? 100 then two_vec3 else [])) (fun _ => CRet (IOk o)))).

Lemma C48_ex_proof :
  client_ok x86_64 L140 custom /\ propagates custom
  /\ (exists w ev, run_client x86_64 L140 vec_sink custom (writer_new [x01]) = (w, (ev, WOk 0))
        /\ calls_ok ev /\ map ev_result ev = [WOk 0; WOk 16; WOk 32] /\ writer_len w = 44 /\ len (w_inner w) = 45)
  /\ client_size x86_64 L140 custom = Some (Done 44)
  /\ (exists w ev, run_client x86_64 L140 slice_sink custom (writer_new ([], repeat xaa 30)) = (w, (ev, WErr WriteZero))
        /\ map ev_result ev = [WOk 0; WOk 16; WErr WriteZero] /\ writer_len w = 28 /\ len (fst (w_inner w)) = 30).
Proof.
  assert (L : forall h v, h = HPrim PU32 \/ h = vec3f -> hval_ok x86_64 h v = true -> client_ok x86_64 L140 (c_leaf x86_64 L140 h v)).
  { intros h v [->| ->] Hv; eapply leaf_ok; try eassumption; vm_compute; reflexivity. }
  split; [|split].
  - unfold custom. apply try_ok; [apply L; [auto|reflexivity]|]. intros o n. apply try_ok; [|intros _; exact I].
    apply slice_ok. destruct (n <? 100); [|constructor]. constructor; [apply L; auto|]. constructor; [apply L; auto|constructor].
  - unfold custom. apply try_propagates; [apply leaf_propagates|]. intros o n. apply try_propagates; [|intros _; exact I].
    apply slice_propagates. destruct (n <? 100); [|constructor]. constructor; [apply leaf_propagates|]. constructor; [apply leaf_propagates|constructor].
  - split; [do 2 eexists; split; [vm_compute; reflexivity|]|].
    + split; [repeat constructor; eexists; reflexivity|]. repeat split.
    + split; [vm_compute; reflexivity|]. do 2 eexists. split; [vm_compute; reflexivity|]. repeat split.
Qed.
