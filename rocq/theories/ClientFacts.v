(** * Facts about user-defined writers *)

From Coq Require Import NArith String Bool List Lia ZArith.
From Coq Require Import ZifyBool ZifyN ZifyNat.
From Coq Require Import Strings.Byte.
From Verif Require Import Rust Internal Prims Derive Host Buffer SpecBuf SpecHost Client SpecClient
  Arith RustFacts DeriveFacts TypeFacts SpecLayout LayoutFacts HostFacts GlslFacts BufferFacts WriterFacts Proofs_Buffer.
Import ListNotations.
Local Open Scope string_scope.
Local Open Scope N_scope.

(** a call of [write_std] with a well-typed value is a [write1] *)
Lemma std_write1 {W} tg l (wi : write_impl W) t s : target_ok tg = true -> op_ok tg l (OpStd t s) ->
  exists al bs, std_align l t = Some al /\ bytes_of tg t s = Some bs /\ ual tg al /\ len bs = size_of tg t
    /\ forall w, write_std tg l wi t s w = write1 tg wi (al, bs) w.
Proof.
  intros Htg [Ht Hs]. destruct (std_parts _ _ _ _ Htg Ht Hs) as [_ [A [Eb [El G]]]].
  exists (alN l t), (flat tg t s). split; [assumption|]. split; [assumption|].
  split; [now apply (lgood_ual tg l)|]. split; [assumption|].
  intros w. apply write_std_write1; [assumption|assumption|now symmetry].
Qed.

Section Bind.
  Context {W : Type} (tg : target) (l : lay) (wi : write_impl W).

  Lemma run_bind c : forall k w,
    run_client tg l wi (c_bind c k) w =
    match run_client tg l wi c w with
    | (w1, (ev, WOk o)) => let '(w2, (ev', r)) := run_client tg l wi (k (IOk o)) w1 in (w2, ((ev ++ ev')%list, r))
    | (w1, (ev, WErr e)) => let '(w2, (ev', r)) := run_client tg l wi (k (IErr e)) w1 in (w2, ((ev ++ ev')%list, r))
    | p => p
    end.
  Proof.
    induction c as [r| |f IH|t s f IH]; intros k w; cbn [c_bind run_client].
    - destruct r as [o|e]; [destruct (run_client tg l wi (k (IOk o)) w) as [w2 [ev r]]|destruct (run_client tg l wi (k (IErr e)) w) as [w2 [ev r]]]; reflexivity.
    - reflexivity.
    - apply IH.
    - destruct (write_std tg l wi t s w) as [w1 [o|e| |]]; try reflexivity.
      + rewrite IH. destruct (run_client tg l wi (f (IOk o)) w1) as [w2 [ev [o'|e'| |]]]; try reflexivity.
        * destruct (run_client tg l wi (k (IOk o')) w2) as [w3 [ev' r']]. reflexivity.
        * destruct (run_client tg l wi (k (IErr e')) w2) as [w3 [ev' r']]. reflexivity.
      + rewrite IH. destruct (run_client tg l wi (f (IErr e)) w1) as [w2 [ev [o'|e'| |]]]; try reflexivity.
        * destruct (run_client tg l wi (k (IOk o')) w2) as [w3 [ev' r']]. reflexivity.
        * destruct (run_client tg l wi (k (IErr e')) w2) as [w3 [ev' r']]. reflexivity.
  Qed.

  Lemma run_try c k w :
    run_client tg l wi (c_try c k) w =
    match run_client tg l wi c w with
    | (w1, (ev, WOk o)) => let '(w2, (ev', r)) := run_client tg l wi (k o) w1 in (w2, ((ev ++ ev')%list, r))
    | p => p
    end.
  Proof.
    unfold c_try. rewrite run_bind. destruct (run_client tg l wi c w) as [w1 [ev [o|e| |]]]; try reflexivity.
    cbn [run_client]. now rewrite app_nil_r.
  Qed.

  Definition strip (p : writer W * (list event * wres)) : writer W * wres := (fst p, snd (snd p)).

  (** the loop over the items *)
  Lemma run_rest_app o a b : forall w,
    run_client tg l wi (c_rest o (a ++ b)%list) w =
    match run_client tg l wi (c_rest o a) w with
    | (w1, (ev, WOk _)) => let '(w2, (ev', r)) := run_client tg l wi (c_rest o b) w1 in (w2, ((ev ++ ev')%list, r))
    | p => p
    end.
  Proof.
    induction a as [|c a IH]; intros w.
    - cbn [app c_rest run_client]. destruct (run_client tg l wi (c_rest o b) w) as [w2 [ev r]]. reflexivity.
    - cbn [app c_rest]. rewrite !run_try. destruct (run_client tg l wi c w) as [w1 [ev [o1|e| |]]]; try reflexivity.
      rewrite IH. destruct (run_client tg l wi (c_rest o a) w1) as [w2 [ev2 [o2|e| |]]]; try reflexivity.
      destruct (run_client tg l wi (c_rest o b) w2) as [w3 [ev3 r]]. now rewrite app_assoc.
  Qed.

  Lemma rest_ret o a : forall w w1 ev o1, run_client tg l wi (c_rest o a) w = (w1, (ev, WOk o1)) -> o1 = o.
  Proof.
    induction a as [|c a IH]; intros w w1 ev o1 H; cbn [c_rest] in H.
    - now injection H.
    - rewrite run_try in H. destruct (run_client tg l wi c w) as [w2 [ev2 [o2|e| |]]]; try discriminate.
      destruct (run_client tg l wi (c_rest o a) w2) as [w3 [ev3 r]] eqn:E. injection H as <- <- ->. eauto.
  Qed.
End Bind.

(** built-in implementations *)
Lemma run_c_val {W} tg l (wi : write_impl W) : target_ok tg = true -> forall x w, wval_ok tg l x ->
  strip (run_client tg l wi (c_val tg l x) w) = write_val tg l wi x w.
Proof.
  intros Htg. induction x as [h v|t s|items IH] using wval_ind'; intros w Hok.
  - destruct Hok as [[t Ht] Hv]. destruct (leaf_parts _ _ _ _ _ Htg Ht Hv) as [s [E1 _]].
    cbn [c_val write_val]. unfold c_leaf, write_leaf. rewrite Ht, E1. cbn [run_client].
    destruct (write_std tg l wi t s w) as [w1 [o|e| |]]; reflexivity.
  - cbn [c_val write_val run_client]. destruct (write_std tg l wi t s w) as [w1 [o|e| |]]; reflexivity.
  - apply wval_ok_WSeq in Hok. rewrite write_val_WSeq. unfold write_iter. cbn [c_val]. unfold c_slice. cbn [run_client].
    destruct items as [|x items]; [reflexivity|]. cbn [map]. inversion Hok as [|? ? H1 H2]; subst. inversion IH as [|? ? I1 I2]; subst.
    rewrite run_try. pose proof (I1 w H1) as E. destruct (run_client tg l wi (c_val tg l x) w) as [w1 [ev r]].
    cbn [strip fst snd] in E. rewrite <- E. destruct r as [o|e| |]; try reflexivity.
    assert (R : forall items w, Forall (fun x => forall w, wval_ok tg l x -> strip (run_client tg l wi (c_val tg l x) w) = write_val tg l wi x w) items ->
      wvals_ok tg l items -> strip (run_client tg l wi (c_rest o (map (c_val tg l) items)) w) = write_iter_rest tg l wi o items w).
    { clear. induction items as [|x items IH]; intros w HI HO; [reflexivity|].
      inversion HO as [|? ? H1 H2]; subst. inversion HI as [|? ? I1 I2]; subst.
      cbn [map c_rest write_iter_rest]. rewrite run_try. pose proof (I1 w H1) as E.
      destruct (run_client tg l wi (c_val tg l x) w) as [w1 [ev r]]. cbn [strip fst snd] in E. rewrite <- E.
      destruct r as [o1|e| |]; try reflexivity. cbn beta iota. transitivity (strip (run_client tg l wi (c_rest o (map (c_val tg l) items)) w1)); [|exact (IH w1 I2 H2)].
      destruct (run_client tg l wi (c_rest o (map (c_val tg l) items)) w1) as [w2 [ev2 r2]]. reflexivity. }
    cbn beta iota. transitivity (strip (run_client tg l wi (c_rest o (map (c_val tg l) items)) w1)); [|exact (R items w1 I2 H2)].
    destruct (run_client tg l wi (c_rest o (map (c_val tg l) items)) w1) as [w2 [ev2 r2]]. reflexivity.
Qed.

Lemma bind_ok tg l c k : client_ok tg l c -> (forall r, client_ok tg l (k r)) -> client_ok tg l (c_bind c k).
Proof.
  intros Hc Hk. induction c as [r| |f IH|t s f IH]; cbn [c_bind client_ok] in *; auto.
  destruct Hc as [H1 H2]. split; [assumption|]. intros r. apply IH. apply H2.
Qed.

Lemma try_ok tg l c k : client_ok tg l c -> (forall o, client_ok tg l (k o)) -> client_ok tg l (c_try c k).
Proof. intros Hc Hk. apply bind_ok; [assumption|]. intros [o|e]; [apply Hk|exact I]. Qed.

Lemma slice_ok tg l items : Forall (client_ok tg l) items -> client_ok tg l (c_slice items).
Proof.
  assert (R : forall items o, Forall (client_ok tg l) items -> client_ok tg l (c_rest o items)).
  { clear. induction 1 as [|c items Hc _ IH]; [exact I|]. cbn [c_rest]. apply try_ok; [assumption|]. intros _. exact IH. }
  intros H n. destruct H as [|c items Hc H]; [exact I|]. apply try_ok; [assumption|]. intros o. now apply R.
Qed.

Lemma bind_propagates c k : propagates c -> (forall e, k (IErr e) = CRet (IErr e)) -> (forall o, propagates (k (IOk o))) ->
  propagates (c_bind c k).
Proof.
  intros Hc He Hk. induction c as [r| |f IH|t s f IH]; cbn [c_bind propagates] in *; auto.
  - destruct r as [o|e]; [apply Hk|rewrite He; exact I].
  - destruct Hc as [H1 H2]. split; [|intros o; apply IH, H2]. intros e. rewrite H1. cbn [c_bind]. apply He.
Qed.

Lemma try_propagates c k : propagates c -> (forall o, propagates (k o)) -> propagates (c_try c k).
Proof. intros Hc Hk. apply bind_propagates; auto. Qed.

Lemma slice_propagates items : Forall propagates items -> propagates (c_slice items).
Proof.
  assert (R : forall items o, Forall propagates items -> propagates (c_rest o items)).
  { clear. induction 1 as [|c items Hc _ IH]; [exact I|]. cbn [c_rest]. apply try_propagates; [assumption|]. intros _. exact IH. }
  intros H n. destruct H as [|c items Hc H]; [exact I|]. apply try_propagates; [assumption|]. intros o. now apply R.
Qed.

Lemma leaf_ok tg l h v t : target_ok tg = true -> out_ty tg l h = Some t -> hval_ok tg h v = true -> client_ok tg l (c_leaf tg l h v).
Proof.
  intros Htg Ht Hv. destruct (leaf_parts _ _ _ _ _ Htg Ht Hv) as [s [E1 [E2 _]]]. unfold c_leaf. rewrite Ht, E1.
  split; [split; [eapply lt_crate; eassumption|assumption]|]. intros r. exact I.
Qed.
Lemma leaf_propagates tg l h v : propagates (c_leaf tg l h v).
Proof. unfold c_leaf. destruct (out_ty tg l h); [|exact I]. destruct (as_std tg l h v); [|exact I]. split; [reflexivity|]. intros o. exact I. Qed.

Lemma c_val_ok tg l : target_ok tg = true -> forall x, wval_ok tg l x -> client_ok tg l (c_val tg l x) /\ propagates (c_val tg l x).
Proof.
  intros Htg. induction x as [h v|t s|items IH] using wval_ind'; intros Hok.
  - destruct Hok as [[t Ht] Hv]. cbn [c_val]. split; [now apply (leaf_ok tg l h v t)|apply leaf_propagates].
  - cbn [c_val client_ok propagates]. split; [split; [exact Hok|intros r; exact I]|split; [reflexivity|intros o; exact I]].
  - apply wval_ok_WSeq in Hok. cbn [c_val]. rewrite Forall_forall in IH. unfold wvals_ok in Hok. rewrite Forall_forall in Hok.
    split; [apply slice_ok|apply slice_propagates]; apply Forall_forall; intros c Hc; apply in_map_iff in Hc;
      destruct Hc as [x [<- Hx]]; now apply IH; [|apply Hok].
Qed.
