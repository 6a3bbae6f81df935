(** * C87: panics that are caught leave the Writer in a known state *)

From Coq Require Import NArith String Bool List Lia ZArith.
From Coq Require Import ZifyBool ZifyN ZifyNat.
From Coq Require Import Strings.Byte.
From Verif Require Import Rust Internal Prims Derive Host Buffer SpecBuf SpecGlsl SpecHost Client SpecClient SpecRetry
  Unwind SpecUnwind
  Arith RustFacts DeriveFacts TypeFacts SpecLayout LayoutFacts HostFacts GlslFacts BufferFacts WriterFacts Samples Proofs_Buffer
  ClientFacts Proofs_Client Proofs_Retry.
Import ListNotations.
Local Open Scope string_scope.
Local Open Scope N_scope.

(** ** Panics of the sink as a kind of error *)

Definition as_error (r : sink_res) : option io_error :=
  match r with
  | SOk => None
  | SErr WriteZero => Some WriteZero
  | SErr (OtherError n) => Some (OtherError (n + 1))
  | SPanic => Some (OtherError 0)
  end.

Definition as_errors {W} (pi : panic_impl W) : write_impl W := fun s bs =>
  let '(s', r) := pi s bs in (s', as_error r).

Definition as_panic (r : wres) : wres :=
  match r with
  | WErr (OtherError n) => if n =? 0 then WPanic else WErr (OtherError (n - 1))
  | r => r
  end.

Lemma as_errors_lawful {W} (pi : panic_impl W) delivered : p_lawful pi delivered -> lawful (as_errors pi) delivered.
Proof.
  intros H s bs s' e. unfold as_errors. destruct (pi s bs) as [s1 r] eqn:E. intros Q. injection Q as <- <-.
  apply H in E. destruct r as [|[|n]|]; exact E.
Qed.

Lemma as_panic_error r e : as_error r = Some e ->
  as_panic (WErr e) = match r with SErr e => WErr e | _ => WPanic end.
Proof.
  destruct r as [|[|n]|]; cbn [as_error]; intros H; try discriminate; injection H as <-; try reflexivity.
  cbn [as_panic]. destruct (N.eqb_spec (n + 1) 0); [lia|]. do 2 f_equal. lia.
Qed.

Lemma p_padding_errors {W} (pi : panic_impl W) n : forall inner,
  exists i r, p_padding pi n inner = (i, r) /\ write_padding (as_errors pi) n inner = (i, as_error r).
Proof.
  induction n as [|n IH]; intros inner; cbn [p_padding write_padding].
  - exists inner, SOk. split; reflexivity.
  - unfold as_errors at 1. destruct (pi inner [x00]) as [i1 [|e|]].
    + apply IH.
    + exists i1, (SErr e). split; [reflexivity|]. destruct e; reflexivity.
    + exists i1, SPanic. split; reflexivity.
Qed.

Lemma p_write_std_errors {W} tg l (pi : panic_impl W) t s w :
  exists w' r, write_std tg l (as_errors pi) t s w = (w', r) /\ p_write_std tg l pi t s w = (w', as_panic r).
Proof.
  unfold write_std, p_write_std. destruct (std_align l t) as [al|]; [|eauto].
  destruct (p_padding_errors pi (N.to_nat (align_offset (w_offset w) al)) (w_inner w)) as [i1 [r1 [-> ->]]].
  destruct (as_error r1) as [e|] eqn:E1.
  - pose proof (as_panic_error _ _ E1) as Q. eexists _, (WErr e). split; [reflexivity|]. rewrite Q.
    destruct r1 as [|er|]; [discriminate|reflexivity|reflexivity].
  - destruct r1 as [|[|er]|]; try discriminate. clear E1.
    destruct (uadd tg (w_offset w) _) as [here|]; [|eauto].
    destruct (bytes_of tg t s) as [bs|]; [|eauto].
    unfold as_errors. destruct (pi i1 bs) as [i2 r2].
    destruct (as_error r2) as [e|] eqn:E2.
    + pose proof (as_panic_error _ _ E2) as Q. eexists _, (WErr e). split; [reflexivity|]. rewrite Q.
      destruct r2 as [|er|]; [discriminate|reflexivity|reflexivity].
    + destruct r2 as [|[|er]|]; try discriminate. destruct (uadd tg here _); eauto.
Qed.

(** ** Sinks that never panic *)

(** C87, no panics.  On a sink that never panics, and for code that catches no panic, this model says
    what the one used by the other claims says. *)
Lemma C87_no_panics_proof : forall W tg l (wi : write_impl W) c w,
  run_uclient tg l (never_panics wi) (no_catch c) w = run_client tg l wi c w.
Proof.
  intros W tg l wi.
  assert (P : forall n inner, p_padding (never_panics wi) n inner
    = match write_padding wi n inner with (i, None) => (i, SOk) | (i, Some e) => (i, SErr e) end).
  { induction n as [|n IH]; intros inner; cbn [p_padding write_padding]; [reflexivity|].
    unfold never_panics at 1. destruct (wi inner [x00]) as [i1 [e|]]; [reflexivity|apply IH]. }
  assert (Q : forall t s w, p_write_std tg l (never_panics wi) t s w = write_std tg l wi t s w).
  { intros t s w. unfold p_write_std, write_std. destruct (std_align l t); [|reflexivity]. rewrite P.
    destruct (write_padding wi _ _) as [i1 [e|]]; [reflexivity|]. destruct (uadd tg _ _); [|reflexivity].
    destruct (bytes_of tg t s) as [bs|]; [|reflexivity]. unfold never_panics.
    destruct (wi i1 bs) as [i2 [e|]]; reflexivity. }
  induction c as [[o|e]| |k IH|t s k IH]; intros w; cbn [no_catch run_uclient run_client]; try reflexivity.
  - apply IH.
  - rewrite Q. destruct (write_std tg l wi t s w) as [w1 [o|e| |]]; [now rewrite IH|now rewrite IH|reflexivity|reflexivity].
Qed.

(** ** One call *)

Lemma p_padding_last {W} (pi : panic_impl W) n : forall inner i r, p_padding pi n inner = (i, r) -> r <> SOk ->
  exists s0, pi s0 [x00] = (i, r).
Proof.
  induction n as [|n IH]; intros inner i r H Hr; cbn [p_padding] in H.
  - injection H as <- <-. contradiction.
  - destruct (pi inner [x00]) as [i1 [|e|]] eqn:E; [eauto| |]; injection H as <- <-; eauto.
Qed.

Lemma p_write_std_last {W} tg l (pi : panic_impl W) t s w w' r al : std_align l t = Some al ->
  p_write_std tg l pi t s w = (w', r) ->
  match r with
  | WErr e => exists s0 bs0, pi s0 bs0 = (w_inner w', SErr e)
  | WPanic => (exists s0 bs0, pi s0 bs0 = (w_inner w', SPanic))
              \/ umod tg <= w_offset w + align_offset (w_offset w) al + size_of tg t
  | _ => True
  end.
Proof.
  intros Hal H. unfold p_write_std in H. rewrite Hal in H.
  destruct (p_padding pi _ (w_inner w)) as [i1 r1] eqn:E1. destruct r1 as [|e|].
  - assert (HU : forall x y, match uadd tg x y with Done z => z = (x + y) mod umod tg | Panicked => umod tg <= x + y end).
    { intros x y. unfold uadd. destruct (N.ltb_spec (x + y) (umod tg)); [symmetry; now apply N.mod_small|].
      destruct (t_checks tg); [assumption|reflexivity]. }
    pose proof (HU (w_offset w) (align_offset (w_offset w) al)) as U1.
    destruct (uadd tg _ _) as [here|]; [|injection H as <- <-; right; lia].
    destruct (bytes_of tg t s) as [bs|]; [|injection H as <- <-; exact Logic.I].
    destruct (pi i1 bs) as [i2 [|e|]] eqn:E2.
    + pose proof (HU here (size_of tg t)) as U2. destruct (uadd tg here _); injection H as <- <-; [exact Logic.I|]. right.
      pose proof (umod_pos tg). pose proof (N.mod_le (w_offset w + align_offset (w_offset w) al) (umod tg)). lia.
    + injection H as <- <-. eauto.
    + injection H as <- <-. eauto.
  - injection H as <- <-. apply p_padding_last in E1; [|discriminate]. destruct E1 as [s0 E1]. eauto.
  - injection H as <- <-. apply p_padding_last in E1; [|discriminate]. destruct E1 as [s0 E1]. eauto.
Qed.

(** C87, one call.  One call of [Writer::write_std140] on any sink, the total staying below
    [usize::MAX + 1]: the sink received a prefix of the padding and the value's bytes; if the call
    returned [Ok], all of it, and [len()] is the end of the value.  If it returned [Err] or panicked,
    either [len()] is unchanged and at most the padding was received, or [len()] is the aligned position
    where the value was to go and at least the padding was received.  The call fails only because the
    sink did, with the same outcome, and the failing sink call was the last one. *)
Lemma C87_one_call_proof : forall W tg l (pi : panic_impl W) delivered t s al bs o w w' r,
  target_ok tg = true -> p_lawful pi delivered -> op_ok tg l (OpStd t s) ->
  std_align l t = Some al -> bytes_of tg t s = Some bs ->
  least_aligned al (writer_len w) o -> o + len bs < umod tg ->
  p_write_std tg l pi t s w = (w', r) ->
  exists got, delivered (w_inner w') = (delivered (w_inner w) ++ got)%list
    /\ prefix got (zero_bytes (o - writer_len w) ++ bs)%list
    /\ match r with
       | WOk o' => o' = o /\ got = (zero_bytes (o - writer_len w) ++ bs)%list /\ writer_len w' = o + len bs
       | WErr _ | WPanic =>
           ((writer_len w' = writer_len w /\ len got <= o - writer_len w)
            \/ (writer_len w' = o /\ o - writer_len w <= len got))
           /\ exists s0 bs0, pi s0 bs0 = (w_inner w', match r with WErr e => SErr e | _ => SPanic end)
       | WUb => False
       end.
Proof.
  intros W tg l pi delivered t s al bs o w w' r Htg Hlaw Hok Hal Hbs Ho Hlt H.
  apply least_aligned_spec in Ho. subst o. unfold writer_len in *.
  replace (w_offset w + align_offset (w_offset w) al - w_offset w) with (align_offset (w_offset w) al) by lia.
  set (pad := align_offset (w_offset w) al) in *. change (zero_bytes pad) with (zeros pad).
  destruct (p_write_std_errors tg l pi t s w) as [w1 [r1 [E1 E2]]]. rewrite H in E2. injection E2 as <- ->.
  assert (Hu : ual tg al).
  { assert (Hpp : parts tg l (WStd t s) = Some [(al, bs)]) by (cbn [parts]; now rewrite Hal, Hbs).
    pose proof (parts_uals tg l Htg (WStd t s) _ Hok Hpp) as Hu. exact (Forall_inv Hu). }
  assert (Hat : at_pos tg (w_offset w) (w_offset w)).
  { split; [symmetry; apply N.mod_small; lia|intros; lia]. }
  destruct (std_parts tg l t s Htg (proj1 Hok) (proj2 Hok)) as [_ [_ [Eb [Es _]]]].
  rewrite Hbs in Eb. injection Eb as Eb. rewrite <- Eb in Es. symmetry in Es.
  rewrite (write_std_write1 tg l _ t s w al bs Hal Hbs Es) in E1.
  pose proof (write1_spec tg _ delivered (as_errors_lawful _ _ Hlaw) _ _ _ _ _ _ Hu Hat E1) as S. cbn zeta in S. fold pad in S.
  pose proof (p_write_std_last tg l pi t s w w' _ al Hal H) as L. fold pad in L. rewrite Es in L.
  destruct r1 as [o1|e1| |].
  - destruct S as [S1 [S2 S3]]. apply (at_pos_small tg) in S1; [|lia]. apply (at_pos_small tg) in S2; [|lia].
    exists (zeros pad ++ bs)%list. split; [assumption|]. split; [exists []; now rewrite app_nil_r|]. cbn [as_panic]. auto.
  - assert (G : exists got, delivered (w_inner w') = (delivered (w_inner w) ++ got)%list /\ prefix got (zeros pad ++ bs)%list
      /\ ((w_offset w' = w_offset w /\ len got <= pad) \/ (w_offset w' = w_offset w + pad /\ pad <= len got))).
    { destruct S as [[k [Q1 [Q2 Q3]]]|[k [Q1 [Q2 Q3]]]].
      - exists (zeros k). split; [assumption|]. rewrite len_zeros. split; [|auto].
        exists (zeros (pad - k) ++ bs)%list. rewrite app_assoc. f_equal. unfold zeros. rewrite <- repeat_app. f_equal. lia.
      - apply (at_pos_small tg) in Q2; [|lia]. exists (zeros pad ++ firstn k bs)%list. split; [assumption|].
        rewrite len_app, len_zeros. split; [|right; split; [assumption|lia]].
        exists (skipn k bs). now rewrite <- app_assoc, firstn_skipn. }
    destruct G as [got [G1 [G2 G3]]]. exists got. split; [assumption|]. split; [assumption|].
    destruct e1 as [|n]; cbn [as_panic] in *; [auto|]. destruct (N.eqb_spec n 0); [|auto].
    split; [assumption|]. destruct L as [L|L]; [assumption|lia].
  - destruct S as [_ [S _]]. lia.
  - contradiction.
Qed.

(** ** User code that catches panics *)

Lemma p_write_std_prefix {W} tg l (pi : panic_impl W) delivered : p_lawful pi delivered -> forall t s w w' r,
  p_write_std tg l pi t s w = (w', r) -> prefix (delivered (w_inner w)) (delivered (w_inner w')).
Proof.
  intros Hlaw t s w w' r H. destruct (p_write_std_errors tg l pi t s w) as [w1 [r1 [E1 E2]]].
  rewrite H in E2. injection E2 as <- ->.
  assert (R : exists ev x, run_client tg l (as_errors pi) (CStd t s CRet) w = (w', (ev, x))).
  { cbn [run_client]. rewrite E1. destruct r1; eauto. }
  destruct R as [ev [x R]]. exact (C48_append_only_proof _ _ _ _ _ _ _ _ _ _ (as_errors_lawful _ _ Hlaw) R).
Qed.

(** C87, append only.  Whatever user code does, whichever panics happen and are caught, bytes already
    delivered are never changed. *)
Lemma C87_append_only_proof : forall W tg l (pi : panic_impl W) delivered u w w' ev r,
  p_lawful pi delivered -> run_uclient tg l pi u w = (w', (ev, r)) ->
  prefix (delivered (w_inner w)) (delivered (w_inner w')).
Proof.
  intros W tg l pi delivered u w w' ev r Hlaw. revert w w' ev r.
  induction u as [[o|e]| |k IH|t s k IH]; intros w w' ev r H; cbn [run_uclient] in H;
    try (injection H as <- <- <-; exists []; now rewrite app_nil_r).
  - eauto.
  - destruct (p_write_std tg l pi t s w) as [w1 r1] eqn:E. apply (p_write_std_prefix _ _ _ _ Hlaw) in E. destruct E as [a E].
    destruct r1 as [o|e| |].
    + destruct (run_uclient tg l pi _ w1) as [w2 [ev2 r2]] eqn:R. injection H as <- <- <-. apply IH in R.
      destruct R as [b R]. exists (a ++ b)%list. now rewrite R, E, app_assoc.
    + destruct (run_uclient tg l pi _ w1) as [w2 [ev2 r2]] eqn:R. injection H as <- <- <-. apply IH in R.
      destruct R as [b R]. exists (a ++ b)%list. now rewrite R, E, app_assoc.
    + destruct (run_uclient tg l pi _ w1) as [w2 [ev2 r2]] eqn:R. injection H as <- <- <-. apply IH in R.
      destruct R as [b R]. exists (a ++ b)%list. now rewrite R, E, app_assoc.
    + injection H as <- <- <-. now exists a.
Qed.

Definition back (r : ioresult) : caught :=
  match r with
  | IOk o => COk o
  | IErr WriteZero => CErr WriteZero
  | IErr (OtherError n) => if n =? 0 then CPan else CErr (OtherError (n - 1))
  end.

Definition as_ret (r : ioresult) : ioresult :=
  match r with IErr (OtherError n) => IErr (OtherError (n + 1)) | r => r end.

(** code that catches panics, as code that handles errors *)
Fixpoint compiled (u : uclient) : client :=
  match u with
  | URet r => CRet (as_ret r)
  | UPanic => CRet (IErr (OtherError 0))
  | ULen k => CLen (fun n => compiled (k n))
  | UStd t s k => CStd t s (fun r => compiled (k (back r)))
  end.

Lemma compiled_ok tg l u : uclient_ok tg l u -> client_ok tg l (compiled u).
Proof.
  induction u as [r| |k IH|t s k IH]; cbn [uclient_ok compiled client_ok]; auto.
  intros [H1 H2]. split; [assumption|]. intros r. apply IH, H2.
Qed.

Definition ev_panic (e : event) : event := let '(t, s, r) := e in (t, s, as_panic r).

Lemma as_panic_back r : as_panic r = match r with
  | WErr e => match back (IErr e) with COk o => WOk o | CErr e => WErr e | CPan => WPanic end
  | r => r
  end.
Proof. destruct r as [o|[|n]| |]; try reflexivity. cbn [as_panic back]. now destruct (n =? 0). Qed.

(** if no call panicked in the compiled run, the compiled run is the run *)
Lemma run_compiled {W} tg l (pi : panic_impl W) u : forall w w' ev r,
  run_client tg l (as_errors pi) (compiled u) w = (w', (ev, r)) ->
  Forall (fun e => ev_result e <> WPanic) ev ->
  run_uclient tg l pi u w = (w', (map ev_panic ev, as_panic r)).
Proof.
  induction u as [[o|e]| |k IH|t s k IH]; intros w w' ev r H Hev; cbn [run_uclient compiled run_client as_ret] in *.
  - injection H as <- <- <-. reflexivity.
  - destruct e as [|n]; injection H as <- <- <-; cbn [map as_panic]; [reflexivity|].
    destruct (N.eqb_spec (n + 1) 0); [lia|]. do 4 f_equal. lia.
  - injection H as <- <- <-. reflexivity.
  - now apply IH.
  - destruct (p_write_std_errors tg l pi t s w) as [w1 [r1 [E1 E2]]]. rewrite E1 in H. rewrite E2.
    destruct r1 as [o|e| |].
    + cbn [as_panic]. destruct (run_client tg l (as_errors pi) _ w1) as [w2 [ev2 r2]] eqn:R. injection H as <- <- <-.
      inversion Hev; subst. cbn [back] in R. rewrite (IH _ _ _ _ _ R) by assumption. reflexivity.
    + destruct (run_client tg l (as_errors pi) _ w1) as [w2 [ev2 r2]] eqn:R. injection H as <- <- <-.
      inversion Hev; subst. specialize (IH _ _ _ _ _ R). rewrite as_panic_back. cbn [map ev_panic].
      assert (Eb : (exists e', back (IErr e) = CErr e') \/ back (IErr e) = CPan).
      { destruct e as [|n]; cbn [back]; [eauto|]. destruct (n =? 0); eauto. }
      rewrite as_panic_back. destruct Eb as [[e' Eb]|Eb]; rewrite Eb in *; rewrite IH by assumption; reflexivity.
    + injection H as <- <- <-. inversion Hev; subst. cbn in *. congruence.
    + injection H as <- <- <-. reflexivity.
Qed.

Lemma as_panic_ok r o : as_panic r = WOk o -> r = WOk o.
Proof. destruct r as [x|[|n]| |]; cbn [as_panic]; try discriminate; auto. destruct (n =? 0); discriminate. Qed.

Lemma run_back {W} tg l (pi : panic_impl W) u : forall w w' ev r,
  run_uclient tg l pi u w = (w', (ev, r)) -> calls_ok ev ->
  exists r', run_client tg l (as_errors pi) (compiled u) w = (w', (ev, r')).
Proof.
  induction u as [[o|e]| |k IH|t s k IH]; intros w w' ev r H Hev; cbn [run_uclient compiled run_client as_ret] in *.
  - injection H as <- <- <-. eauto.
  - injection H as <- <- <-. destruct e; eauto.
  - injection H as <- <- <-. eauto.
  - eauto.
  - destruct (p_write_std_errors tg l pi t s w) as [w1 [r1 [E1 E2]]]. rewrite E2 in H. rewrite E1.
    destruct (as_panic r1) as [o|e| |] eqn:E3.
    + apply as_panic_ok in E3. subst r1.
      destruct (run_uclient tg l pi _ w1) as [w2 [ev2 r2]] eqn:R. injection H as <- <- <-.
      inversion Hev; subst. destruct (IH _ _ _ _ _ R) as [r' R']; [assumption|]. cbn [back]. rewrite R'. eauto.
    + destruct (run_uclient tg l pi _ w1) as [w2 [ev2 r2]] eqn:R. injection H as <- <- <-.
      inversion Hev as [|? ? [o Q] _]; subst. discriminate.
    + destruct (run_uclient tg l pi _ w1) as [w2 [ev2 r2]] eqn:R. injection H as <- <- <-.
      inversion Hev as [|? ? [o Q] _]; subst. discriminate.
    + injection H as <- <- <-. inversion Hev as [|? ? [o Q] _]; subst. discriminate.
Qed.

(** C87, image.  As C48's image theorem, for user code that may catch panics and a sink that may panic:
    if every [Writer::write_std140] call on a fresh [Writer] succeeded, the sink received exactly the
    written values, each at the first aligned position after the previous one, and zeros elsewhere. *)
Lemma C87_image_proof : forall W tg l (pi : panic_impl W) delivered inner u w ev r ps places total,
  target_ok tg = true -> p_lawful pi delivered -> uclient_ok tg l u ->
  run_uclient tg l pi u (writer_new inner) = (w, (ev, r)) -> calls_ok ev ->
  Forall2 (fun e p => ev_part tg l e = Some p) ev ps -> laid_out 0 ps places total ->
  (t_checks tg = true \/ total < umod tg) ->
  (exists img, delivered (w_inner w) = (delivered inner ++ img)%list /\ image places total img)
  /\ map ev_result ev = map WOk (map fst places)
  /\ writer_len w = total.
Proof.
  intros W tg l pi delivered inner u w ev r ps places total Htg Hlaw Hok Hrun Hev Hps Hlo Hc.
  destruct (run_back _ _ _ _ _ _ _ _ Hrun Hev) as [r' R].
  exact (C48_image_proof _ _ _ _ _ _ _ _ _ _ _ _ _ Htg (as_errors_lawful _ _ Hlaw) (compiled_ok _ _ _ Hok) R Hev Hps Hlo Hc).
Qed.

(** ** Code that does not catch *)

Lemma no_catch_compiled {W} tg l (pi : panic_impl W) c : forall w w' ev r,
  run_client tg l (as_errors pi) (compiled (no_catch c)) w = (w', (ev, r)) ->
  run_uclient tg l pi (no_catch c) w = (w', (map ev_panic ev, as_panic r)).
Proof.
  induction c as [[o|e]| |k IH|t s k IH]; intros w w' ev r H; cbn [no_catch run_uclient compiled run_client as_ret] in *.
  - injection H as <- <- <-. reflexivity.
  - destruct e as [|n]; injection H as <- <- <-; cbn [map as_panic]; [reflexivity|].
    destruct (N.eqb_spec (n + 1) 0); [lia|]. do 4 f_equal. lia.
  - injection H as <- <- <-. reflexivity.
  - now apply IH.
  - destruct (p_write_std_errors tg l pi t s w) as [w1 [r1 [E1 E2]]]. rewrite E1 in H. rewrite E2.
    destruct r1 as [o|e| |].
    + cbn [as_panic]. destruct (run_client tg l (as_errors pi) _ w1) as [w2 [ev2 r2]] eqn:R. injection H as <- <- <-.
      cbn [back] in R. rewrite (IH _ _ _ _ _ R). reflexivity.
    + destruct (run_client tg l (as_errors pi) _ w1) as [w2 [ev2 r2]] eqn:R. injection H as <- <- <-.
      rewrite as_panic_back. cbn [map ev_panic].
      assert (Eb : (exists e', back (IErr e) = CErr e') \/ back (IErr e) = CPan).
      { destruct e as [|n]; cbn [back]; [eauto|]. destruct (n =? 0); eauto. }
      rewrite as_panic_back. destruct Eb as [[e' Eb]|Eb]; rewrite Eb in *.
      * rewrite (IH _ _ _ _ _ R). reflexivity.
      * cbn [compiled run_client] in R. injection R as <- <- <-. reflexivity.
    + injection H as <- <- <-. reflexivity.
    + injection H as <- <- <-. reflexivity.
Qed.

Lemma no_catch_infallible {W} tg l (wi : write_impl W) c : infallible wi -> target_ok tg = true -> client_ok tg l c ->
  forall w w' ev r, run_client tg l wi c w = (w', (ev, r)) ->
  exists r', run_client tg l wi (compiled (no_catch c)) w = (w', (ev, r')) /\ as_panic r' = r.
Proof.
  intros Hinf Htg. induction c as [[o|e]| |k IH|t s k IH]; intros Hok w w' ev r H; cbn [no_catch compiled run_client as_ret client_ok] in *.
  - injection H as <- <- <-. eauto.
  - injection H as <- <- <-. destruct e as [|n]; [eauto|]. eexists. split; [reflexivity|].
    cbn [as_panic]. destruct (N.eqb_spec (n + 1) 0); [lia|]. do 2 f_equal. lia.
  - injection H as <- <- <-. eauto.
  - eauto.
  - destruct Hok as [Hop Hk].
    destruct (write_std tg l wi t s w) as [w1 [o|e| |]] eqn:E.
    + destruct (run_client tg l wi _ w1) as [w2 [ev2 r2]] eqn:R. injection H as <- <- <-.
      cbn [back]. destruct (IH _ (Hk _) _ _ _ _ R) as [r' [R' Q]]. rewrite R'. eauto.
    + exfalso. assert (Hs : client_ok tg l (CStd t s CRet)) by (split; [assumption|intros ?; exact Logic.I]).
      destruct (C48_sink_independent_proof _ _ tg l wi wi (CStd t s CRet) w w Htg Hinf Hinf Hs eq_refl)
        as [w2 [w3 [ev' [r' [R [_ [_ Q]]]]]]].
      cbn [run_client] in R. rewrite E in R. injection R as <- <- <-.
      destruct (Q _ (or_introl eq_refl)) as [Z|[o Z]]; discriminate.
    + injection H as <- <- <-. eauto.
    + injection H as <- <- <-. eauto.
Qed.

Lemma propagates_compiled c : propagates c -> propagates (compiled (no_catch c)).
Proof.
  induction c as [r| |k IH|t s k IH]; cbn [propagates no_catch compiled]; auto.
  intros [H1 H2]. split.
  - intros [|n]; cbn [back].
    + now rewrite H1.
    + destruct (N.eqb_spec n 0) as [->|Hn]; [reflexivity|]. rewrite H1. cbn [no_catch compiled as_ret].
      do 3 f_equal. lia.
  - intros o. cbn [back]. auto.
Qed.

Lemma compiled_no_catch_ok tg l c : client_ok tg l c -> client_ok tg l (compiled (no_catch c)).
Proof.
  induction c as [r| |k IH|t s k IH]; cbn [client_ok no_catch compiled]; auto.
  intros [H1 H2]. split; [assumption|]. intros r. destruct (back r); try (apply IH, H2). exact Logic.I.
Qed.

(** C87, failures.  Code that uses [?] on its calls and catches no panic stops at the first call that
    fails or panics, ends the same way, and leaves a prefix of the bytes of the fault-free run; [len()]
    never exceeds the number of bytes received.  If no call fails, it does exactly what the fault-free
    run does. *)
Lemma C87_failure_leaves_prefix_proof : forall W tg l (pi : panic_impl W) delivered inner c w ev r w0 ev0 r0,
  target_ok tg = true -> p_lawful pi delivered -> client_ok tg l c -> propagates c ->
  run_uclient tg l pi (no_catch c) (writer_new inner) = (w, (ev, r)) ->
  run_client tg l vec_sink c (writer_new []) = (w0, (ev0, r0)) ->
  exists got, delivered (w_inner w) = (delivered inner ++ got)%list
    /\ prefix got (w_inner w0)
    /\ writer_len w <= len got
    /\ ((ev = ev0 /\ r = r0 /\ got = w_inner w0 /\ writer_len w = writer_len w0)
        \/ exists pre t s x post,
             ev = (pre ++ [(t, s, r)])%list /\ (r = WPanic \/ exists e, r = WErr e) /\ calls_ok pre
             /\ ev0 = (pre ++ (t, s, x) :: post)%list).
Proof.
  intros W tg l pi delivered inner c w ev r w0 ev0 r0 Htg Hlaw Hok Hpr Hrun H0.
  destruct (no_catch_infallible tg l vec_sink c vec_infallible Htg Hok _ _ _ _ H0) as [r0' [H0' Hr0]].
  destruct (run_client tg l (as_errors pi) (compiled (no_catch c)) (writer_new inner)) as [w1 [ev1 r1]] eqn:R.
  pose proof (no_catch_compiled _ _ _ _ _ _ _ _ R) as R'. rewrite Hrun in R'. injection R' as <- -> ->.
  destruct (C48_failure_leaves_prefix_proof _ _ _ _ _ _ _ _ _ _ _ _ _ Htg (as_errors_lawful _ _ Hlaw)
    (compiled_no_catch_ok _ _ _ Hok) (propagates_compiled _ Hpr) R H0') as [got [G1 [G2 [G3 G4]]]].
  exists got. split; [assumption|]. split; [assumption|]. split; [assumption|].
  assert (Hmap : forall evs, (forall e, In e evs -> ev_result e = WPanic \/ exists o, ev_result e = WOk o) -> map ev_panic evs = evs).
  { induction evs as [|[[t s] x] evs IH]; intros Q; [reflexivity|]. cbn [map ev_panic]. rewrite IH by (intros; apply Q; now right).
    destruct (Q _ (or_introl eq_refl)) as [Z|[o Z]]; cbn in Z; subst x; reflexivity. }
  destruct G4 as [[-> [-> [G5 G6]]]|[pre [t [s [e [x [post [-> [-> [G5 ->]]]]]]]]]].
  - left. split; [|auto]. apply Hmap.
    destruct (C48_sink_independent_proof _ _ tg l vec_sink vec_sink c (writer_new []) (writer_new []) Htg
      vec_infallible vec_infallible Hok eq_refl) as [w2 [w3 [ev' [r' [Q1 [_ [_ Q2]]]]]]].
    rewrite H0 in Q1. injection Q1 as <- <- <-. assumption.
  - right. exists pre, t, s, x, post. rewrite map_app. cbn [map].
    split.
    { apply f_equal2; [|reflexivity]. apply (Hmap pre). intros q Hq. right. unfold calls_ok in G5. rewrite Forall_forall in G5. auto. }
    split.
    { destruct e as [|n]; cbn [as_panic]; [eauto|]. destruct (n =? 0); eauto. }
    split; [assumption|reflexivity].
Qed.

(** ** Histories *)

Lemma p_write_leaf {W} tg l (pi : panic_impl W) h v w : target_ok tg = true ->
  (exists t, out_ty tg l h = Some t) -> hval_ok tg h v = true ->
  exists w' r, writer_write tg l (as_errors pi) w (WLeaf h v) = (w', r) /\ p_write tg l pi w (WLeaf h v) = (w', as_panic r).
Proof.
  intros Htg [t Ht] Hv. destruct (leaf_parts _ _ _ _ _ Htg Ht Hv) as [s [E1 _]].
  unfold writer_write, p_write. cbn [write_val c_val]. unfold write_leaf, c_leaf. rewrite Ht, E1.
  cbn [no_catch run_uclient].
  destruct (p_write_std_errors tg l pi t s w) as [w' [r [Q1 Q2]]]. exists w', r. split; [assumption|]. rewrite Q2.
  destruct (as_panic r); reflexivity.
Qed.

Lemma succeeded_as_panic rs : forall ps, succeeded (map as_panic rs) ps = succeeded rs ps.
Proof.
  induction rs as [|r rs IH]; intros ps; [reflexivity|]. cbn [map].
  assert (D : (exists o, r = WOk o) \/ (forall o, r <> WOk o) /\ forall o, as_panic r <> WOk o).
  { destruct r as [o|[|n]| |]; cbn [as_panic]; try (right; split; discriminate); [eauto|].
    destruct (n =? 0); right; split; discriminate. }
  destruct ps as [|[al bs] ps].
  { destruct (as_panic r), r; reflexivity. }
  destruct D as [[o ->]|[D1 D2]].
  - cbn [as_panic succeeded]. now rewrite IH.
  - destruct (as_panic r) as [o|e| |]; [now destruct (D2 o)|destruct r as [o'|e'| |]; [now destruct (D1 o')|..]..]; cbn [succeeded]; apply IH.
Qed.

Lemma p_writes_errors {W} tg l (pi : panic_impl W) : target_ok tg = true -> forall xs w0 w rs, typed_all tg l xs ->
  p_writes tg l pi (map leaf xs) w0 = (w, rs) ->
  exists rs', run_ops tg l (as_errors pi) (map (fun x => OpWrite (leaf x)) xs) w0 = (w, rs') /\ rs = map as_panic rs'.
Proof.
  intros Htg. induction xs as [|[h v] xs IH]; intros w0 w rs Hty H; cbn [map p_writes run_ops run_op] in *.
  - injection H as <- <-. now exists [].
  - inversion Hty as [|? ? Hx Hvs]; subst. cbn [fst snd] in Hx. change (leaf (h, v)) with (WLeaf h v) in *.
    destruct (p_write_leaf tg l pi h v w0 Htg (proj1 Hx) (proj2 Hx)) as [w1 [r [Q1 Q2]]]. rewrite Q1. rewrite Q2 in H.
    destruct (p_writes tg l pi (map leaf xs) w1) as [w2 rs2] eqn:R. injection H as <- <-.
    destruct (IH _ _ _ Hvs R) as [rs' [R' ->]]. rewrite R'. exists (r :: rs'). split; reflexivity.
Qed.

(** C87, histories.  After any sequence of [write]s on a fresh [Writer] whose errors and panics are all
    caught and ignored: every value whose write returned [Ok] is in the output, at the offset returned
    plus a shift; the shifts never decrease, and the output is as long as [len()] plus the last shift.
    The shift is 0 exactly if the output holds these values at their offsets, zeros elsewhere, and has
    length [len()]. *)
Lemma C87_history_proof : forall W tg l (pi : panic_impl W) delivered inner xs w rs ps places total,
  target_ok tg = true -> p_lawful pi delivered -> typed_all tg l xs ->
  parts tg l (WSeq (map leaf xs)) = Some ps -> laid_out 0 ps places total -> total < umod tg ->
  p_writes tg l pi (map leaf xs) (writer_new inner) = (w, rs) ->
  length rs = length xs
  /\ Forall (fun r => (exists o, r = WOk o) \/ (exists e, r = WErr e) \/ r = WPanic) rs
  /\ exists got d ds, delivered (w_inner w) = (delivered inner ++ got)%list
     /\ len got = writer_len w + d
     /\ shifted 0 (succeeded rs ps) ds d got
     /\ (d = 0 <-> image (succeeded rs ps) (writer_len w) got).
Proof.
  intros W tg l pi delivered inner xs w rs ps places total Htg Hlaw Hty Hp Hlo Hlt Hr.
  destruct (p_writes_errors tg l pi Htg _ _ _ _ Hty Hr) as [rs' [R ->]].
  destruct (C82_ignored_errors_proof _ _ _ _ _ _ _ _ _ _ _ _ Htg (as_errors_lawful _ _ Hlaw) Hty Hp Hlo Hlt R) as [H1 [H2 H3]].
  rewrite map_length. split; [assumption|]. split.
  { rewrite Forall_forall in *. intros r Hin. apply in_map_iff in Hin. destruct Hin as [r' [<- Hin]].
    destruct (H2 _ Hin) as [[o ->]|[e ->]]; [left; cbn; eauto|right].
    destruct e as [|n]; cbn [as_panic]; [eauto|]. destruct (n =? 0); eauto. }
  rewrite succeeded_as_panic. exact H3.
Qed.

(** C87, offsets in histories.  The values whose write returned [Ok] do not overlap, each is at a
    multiple of its alignment, none is later than it would be without failures, and [len()] is at or after
    the end of the last one and at most what it would be without failures. *)
Lemma C87_history_offsets_proof : forall W tg l (pi : panic_impl W) delivered inner xs w rs ps places total,
  target_ok tg = true -> p_lawful pi delivered -> typed_all tg l xs ->
  parts tg l (WSeq (map leaf xs)) = Some ps -> laid_out 0 ps places total -> total < umod tg ->
  p_writes tg l pi (map leaf xs) (writer_new inner) = (w, rs) ->
  increasing 0 (succeeded rs ps) (writer_len w) /\ writer_len w <= total
  /\ forall i o al bs, nth_error rs i = Some (WOk o) -> nth_error ps i = Some (al, bs) ->
     aligned al o /\ forall o' bs', nth_error places i = Some (o', bs') -> o <= o'.
Proof.
  intros W tg l pi delivered inner xs w rs ps places total Htg Hlaw Hty Hp Hlo Hlt Hr.
  destruct (p_writes_errors tg l pi Htg _ _ _ _ Hty Hr) as [rs' [R ->]].
  destruct (C82_ignored_offsets_proof _ _ _ _ _ _ _ _ _ _ _ _ Htg (as_errors_lawful _ _ Hlaw) Hty Hp Hlo Hlt R) as [H1 [H2 H3]].
  rewrite succeeded_as_panic. split; [assumption|]. split; [assumption|].
  intros i o al bs Hi. rewrite nth_error_map in Hi. destruct (nth_error rs' i) as [r|] eqn:E; [|discriminate].
  cbn [option_map] in Hi. injection Hi as Hi. apply as_panic_ok in Hi. subst r. now apply H3.
Qed.

(** ** Iterators *)

(** C87, iterators.  [write_iter] on an iterator that yields [xs] and then panics: if every item
    succeeds, [write_iter] panics and the [Writer] is as after writing the items one by one; otherwise it
    ends like the first item that fails or panics, and the iterator was not called again. *)
Lemma C87_iterator_panic_proof : forall W I tg l (pi : panic_impl W) (next : I -> pnext * I) it xs it1 it2 w,
  p_pulled next it xs it1 -> next it1 = (NPanic, it2) ->
  exists fuel0 itf w' r,
    (forall fuel, (fuel0 <= fuel)%nat -> p_write_iter tg l pi next fuel it w = Some (itf, (w', r)))
    /\ ((wrote tg l pi w xs w' /\ itf = it2 /\ r = WPanic)
        \/ exists ys x zs w1 ev,
             xs = (ys ++ x :: zs)%list /\ p_pulled next it (ys ++ [x]) itf /\ wrote tg l pi w ys w1
             /\ run_uclient tg l pi x w1 = (w', (ev, r)) /\ forall o, r <> WOk o).
Proof.
  intros W I tg l pi next.
  assert (L : forall it xs it1, p_pulled next it xs it1 -> forall it2, next it1 = (NPanic, it2) -> forall o w,
    exists fuel0 itf w' r,
    (forall fuel, (fuel0 <= fuel)%nat -> p_iter_loop tg l pi next fuel o it w = Some (itf, (w', r)))
    /\ ((wrote tg l pi w xs w' /\ itf = it2 /\ r = WPanic)
        \/ exists ys x zs w1 ev,
             xs = (ys ++ x :: zs)%list /\ p_pulled next it (ys ++ [x]) itf /\ wrote tg l pi w ys w1
             /\ run_uclient tg l pi x w1 = (w', (ev, r)) /\ forall o, r <> WOk o)).
  { induction 1 as [it|it x it1 xs it2 Hn _ IH]; intros it3 Hp o w.
    - exists 1%nat, it3, w, WPanic. split; [|left; split; [constructor|auto]].
      intros [|fuel] Hf; [lia|]. cbn [p_iter_loop]. now rewrite Hp.
    - destruct (run_uclient tg l pi x w) as [w1 [ev r]] eqn:R.
      assert (D : (exists o', r = WOk o') \/ forall o', r <> WOk o').
      { destruct r; [left; eauto|right|right|right]; discriminate. }
      destruct D as [[o' ->]|D].
      + destruct (IH _ Hp o w1) as [fuel0 [itf [w' [r [Hf Q]]]]]. exists (S fuel0), itf, w', r. split.
        { intros [|fuel] Hle; [lia|]. cbn [p_iter_loop]. rewrite Hn, R. apply Hf. lia. }
        destruct Q as [[Q1 [Q2 Q3]]|[ys [x' [zs [w2 [ev2 [-> [Q2 [Q3 [Q4 Q5]]]]]]]]]].
        * left. split; [econstructor; eassumption|auto].
        * right. exists (x :: ys), x', zs, w2, ev2. split; [reflexivity|]. split; [econstructor; eassumption|].
          split; [econstructor; eassumption|auto].
      + exists 1%nat, it1, w1, r. split.
        { intros [|fuel] Hle; [lia|]. cbn [p_iter_loop]. rewrite Hn, R. destruct r; try reflexivity. now destruct (D offset). }
        right. exists [], x, xs, w, ev. split; [reflexivity|]. split; [econstructor; [eassumption|constructor]|].
        split; [constructor|auto]. }
  intros it xs it1 it2 w Hp Hn. unfold p_write_iter. inversion Hp as [|? x it0 xs' ? Hn0 Hp']; subst.
  - exists 0%nat, it2, w, WPanic. rewrite Hn. split; [reflexivity|left; split; [constructor|auto]].
  - rewrite Hn0. destruct (run_uclient tg l pi x w) as [w1 [ev r]] eqn:R.
    assert (D : (exists o', r = WOk o') \/ forall o', r <> WOk o').
    { destruct r; [left; eauto|right|right|right]; discriminate. }
    destruct D as [[o' ->]|D].
    + destruct (L _ _ _ Hp' _ Hn o' w1) as [fuel0 [itf [w' [r [Hf Q]]]]]. exists fuel0, itf, w', r. split; [exact Hf|].
      destruct Q as [[Q1 [Q2 Q3]]|[ys [x' [zs [w2 [ev2 [-> [Q2 [Q3 [Q4 Q5]]]]]]]]]].
      * left. split; [econstructor; eassumption|auto].
      * right. exists (x :: ys), x', zs, w2, ev2. split; [reflexivity|]. split; [econstructor; eassumption|].
        split; [econstructor; eassumption|auto].
    + exists 0%nat, it0, w1, r. split.
      { intros fuel _. destruct r; try reflexivity. now destruct (D offset). }
      right. exists [], x, xs', w, ev. split; [reflexivity|]. split; [econstructor; [eassumption|constructor]|].
      split; [constructor|auto].
Qed.

(** ** Examples *)

(** a sink that follows a script: on [SErr] and [SPanic] it takes two bytes of the argument *)
Definition moody : panic_impl (list sink_res * list byte) := fun st bs =>
  match fst st with
  | [] | SOk :: _ => ((tl (fst st), (snd st ++ bs)%list), SOk)
  | r :: script => ((script, (snd st ++ firstn 2 bs)%list), r)
  end.

Lemma moody_lawful : p_lawful moody snd.
Proof.
  intros [script data] bs s' r H. unfold moody in H. cbn [fst snd tl] in H.
  destruct script as [|[|e|] script]; injection H as <- <-; cbn [snd]; try reflexivity;
    (exists (Nat.min 2 (length bs)); split; [lia|]; f_equal;
     destruct bs as [|? [|? ?]]; reflexivity).
Qed.

Lemma capped_lawful cap : p_lawful (capped_vec cap) (fun v => v).
Proof.
  intros v bs s' r H. unfold capped_vec in H. destruct (_ <=? _); injection H as <- <-; [reflexivity|].
  exists 0%nat. split; [lia|]. cbn [firstn]. now rewrite app_nil_r.
Qed.

(** Three [Vec3]s and a [u32] in std140 on a [Vec] that may hold 30 bytes: the third write panics while
    padding, with [len()] unchanged; so does the last, without padding. *)
Lemma C87_ex_capped_proof :
  p_lawful (capped_vec 30) (fun v => v)
  /\ (exists w, p_writes x86_64 L140 (capped_vec 30)
       [WLeaf vec3f (v3 1 2 3); WLeaf vec3f (v3 1 2 3); WLeaf vec3f (v3 1 2 3); WLeaf (HPrim PU32) (bits 7)] (writer_new [])
       = (w, [WOk 0; WOk 16; WPanic; WPanic]) /\ writer_len w = 28 /\ len (w_inner w) = 30).
Proof.
  split; [apply capped_lawful|]. eexists. split; [vm_compute; reflexivity|]. split; vm_compute; reflexivity.
Qed.

(** A panic half-way through the first value: [len()] stays 0 although two bytes were taken, and the next
    value is found two bytes after the offset returned for it. *)
Lemma C87_ex_history_proof :
  exists w bs xs, xs = [(vec3f, v3 1 2 3); (vec3f, v3 4 5 6)]
  /\ p_lawful moody snd /\ typed_all x86_64 L140 xs
  /\ p_writes x86_64 L140 moody (map leaf xs) (writer_new ([SPanic], [])) = (w, [WPanic; WOk 0])
  /\ writer_len w = 12 /\ len (snd (w_inner w)) = 14
  /\ as_std_bytes x86_64 L140 vec3f (v3 4 5 6) = Some bs
  /\ read_at (snd (w_inner w)) (0 + 2) 12 = Some bs /\ read_at (snd (w_inner w)) 0 12 <> Some bs.
Proof.
  eexists _, _, _. split; [reflexivity|]. split; [apply moody_lawful|]. split.
  { repeat apply Forall_cons; [split; [eexists; vm_compute; reflexivity|vm_compute; reflexivity]..|apply Forall_nil]. }
  split; [vm_compute; reflexivity|]. split; [vm_compute; reflexivity|]. split; [vm_compute; reflexivity|].
  split; [vm_compute; reflexivity|]. split; [vm_compute; reflexivity|]. vm_compute. discriminate.
Qed.

Definition once (n : nat) : pnext * nat :=
  (match n with O => NSome (no_catch (c_leaf x86_64 L140 vec3f (v3 1 2 3))) | _ => NPanic end, S n).

(** An iterator that yields one [Vec3] and then panics. *)
Lemma C87_ex_iterator_proof :
  p_pulled once 0%nat [no_catch (c_leaf x86_64 L140 vec3f (v3 1 2 3))] 1%nat /\ once 1%nat = (NPanic, 2%nat)
  /\ exists w, p_write_iter x86_64 L140 moody once 5 0%nat (writer_new ([], [])) = Some (2%nat, (w, WPanic))
     /\ writer_len w = 12.
Proof.
  split. { econstructor; [reflexivity|constructor]. }
  split; [reflexivity|]. eexists. split; vm_compute; reflexivity.
Qed.

Definition stop (r : caught) : uclient := match r with COk o => URet (IOk o) | CErr e => URet (IErr e) | CPan => UPanic end.

(** User code that writes a value, catches a panic of the second write and then writes the value again. *)
Lemma C87_ex_catch_proof :
  exists t s al bs u w ev, out_ty x86_64 L140 vec3f = Some t /\ as_std x86_64 L140 vec3f (v3 1 2 3) = Some s
  /\ std_align L140 t = Some al /\ bytes_of x86_64 t s = Some bs /\ op_ok x86_64 L140 (OpStd t s)
  /\ u = UStd t s (fun r => UStd t s (fun r => match r with CPan => UStd t s stop | r => stop r end))
  /\ uclient_ok x86_64 L140 u
  /\ run_uclient x86_64 L140 moody u (writer_new (repeat SOk 5 ++ [SPanic], [])%list) = (w, (ev, WOk 16))
  /\ map ev_result ev = [WOk 0; WPanic; WOk 16] /\ writer_len w = 28 /\ len (snd (w_inner w)) = 30.
Proof.
  destruct (leaf_parts x86_64 L140 vec3f (v3 1 2 3) _ eq_refl ltac:(vm_compute; reflexivity) ltac:(vm_compute; reflexivity)) as [s [E1 [E2 _]]].
  match type of E2 with has_sty ?t _ = _ => set (ty := t) in * end.
  assert (Hok : op_ok x86_64 L140 (OpStd ty s)).
  { split; [apply (lt_crate _ _ vec3f); vm_compute; reflexivity|assumption]. }
  vm_compute in E1. injection E1 as Hs. 
  exists ty, s. eexists _, _, _, _, _. split; [vm_compute; reflexivity|]. split; [vm_compute; now rewrite <- Hs|].
  split; [vm_compute; reflexivity|]. split; [rewrite <- Hs; vm_compute; reflexivity|]. split; [assumption|].
  split; [reflexivity|]. split.
  { cbn [uclient_ok]. split; [assumption|]. intros _. split; [assumption|].
    intros [o|e|]; cbn [stop uclient_ok]; try exact Logic.I. split; [assumption|]. intros [| |]; exact Logic.I. }
  rewrite <- Hs. split; [vm_compute; reflexivity|]. split; [reflexivity|]. split; vm_compute; reflexivity.
Qed.

(** A slice of three [Vec3]s on a [Vec] that may hold 30 bytes: the write panics, and the 30 bytes are the
    first 30 of the 44 of the fault-free run. *)
Lemma C87_ex_failure_proof :
  exists x w ev w0 ev0 o, x = WSeq [WLeaf vec3f (v3 1 2 3); WLeaf vec3f (v3 4 5 6); WLeaf vec3f (v3 7 8 9)]
  /\ wval_ok x86_64 L140 x
  /\ client_ok x86_64 L140 (c_val x86_64 L140 x) /\ propagates (c_val x86_64 L140 x)
  /\ run_uclient x86_64 L140 (capped_vec 30) (no_catch (c_val x86_64 L140 x)) (writer_new []) = (w, (ev, WPanic))
  /\ run_client x86_64 L140 vec_sink (c_val x86_64 L140 x) (writer_new []) = (w0, (ev0, WOk o))
  /\ len (w_inner w) = 30 /\ len (w_inner w0) = 44 /\ w_inner w = firstn 30 (w_inner w0) /\ writer_len w = 28.
Proof.
  eexists _, _, _, _, _, _. split; [reflexivity|].
  match goal with |- wval_ok ?a ?b ?c /\ _ => assert (Hok : wval_ok a b c) end.
  { cbn [wval_ok]. split; [|split; [|split; [|exact Logic.I]]]; (split; [eexists; vm_compute; reflexivity|vm_compute; reflexivity]). }
  split; [exact Hok|].
  destruct (C48_builtin_impls_proof unit x86_64 L140 io_sink _ (writer_new tt) eq_refl Hok) as [H1 [H2 _]].
  split; [exact H1|]. split; [exact H2|].
  split; [vm_compute; reflexivity|]. split; [vm_compute; reflexivity|].
  split; [vm_compute; reflexivity|]. split; [vm_compute; reflexivity|]. split; vm_compute; reflexivity.
Qed.
