(** * C76, C77: Writers on a [Cursor] and on a [BufWriter] *)

From Coq Require Import NArith String Bool List Lia ZArith.
From Coq Require Import ZifyBool ZifyN ZifyNat.
From Coq Require Import Strings.Byte PeanoNat.
From Verif Require Import Rust Internal Prims Derive Host Rows Buffer Sinks SpecBuf SpecUse SpecSinks
  Arith RustFacts BufferFacts WriterFacts Samples Proofs_Buffer.
Import ListNotations.
Local Open Scope string_scope.
Local Open Scope N_scope.

(** ** Two sinks that answer alike *)

Section Sim.
  Context {W1 W2 : Type} (tg : target) (l : lay) (wi1 : write_impl W1) (wi2 : write_impl W2) (R : W1 -> W2 -> Prop).
  Hypothesis step : forall s1 s2 bs, R s1 s2 ->
    snd (wi1 s1 bs) = snd (wi2 s2 bs) /\ R (fst (wi1 s1 bs)) (fst (wi2 s2 bs)).

  Definition Rw (w1 : writer W1) (w2 : writer W2) : Prop := R (w_inner w1) (w_inner w2) /\ w_offset w1 = w_offset w2.
  Definition Rr {A} (p1 : writer W1 * A) (p2 : writer W2 * A) : Prop := snd p1 = snd p2 /\ Rw (fst p1) (fst p2).

  Lemma sim_padding n : forall s1 s2, R s1 s2 ->
    snd (write_padding wi1 n s1) = snd (write_padding wi2 n s2)
    /\ R (fst (write_padding wi1 n s1)) (fst (write_padding wi2 n s2)).
  Proof.
    induction n as [|n IH]; intros s1 s2 H; cbn [write_padding]; [auto|].
    destruct (step s1 s2 [x00] H) as [E H'].
    destruct (wi1 s1 [x00]) as [a1 e1], (wi2 s2 [x00]) as [a2 e2]. cbn [fst snd] in *. subst e2.
    destruct e1; [auto|]. now apply IH.
  Qed.

  Lemma sim_std t s w1 w2 : Rw w1 w2 -> Rr (write_std tg l wi1 t s w1) (write_std tg l wi2 t s w2).
  Proof.
    intros [H Ho]. unfold write_std. rewrite <- Ho.
    destruct (std_align l t) as [al|]; [|repeat split; assumption].
    destruct (sim_padding (N.to_nat (align_offset (w_offset w1) al)) _ _ H) as [E H1].
    destruct (write_padding wi1 _ _) as [a1 e1], (write_padding wi2 _ _) as [a2 e2]. cbn [fst snd] in *. subst e2.
    destruct e1; [repeat split; assumption|].
    destruct (uadd tg (w_offset w1) _) as [o|]; [|repeat split; assumption].
    destruct (bytes_of tg t s) as [bs|]; [|repeat split; assumption].
    destruct (step a1 a2 bs H1) as [E H2].
    destruct (wi1 a1 bs) as [b1 e1], (wi2 a2 bs) as [b2 e2]. cbn [fst snd] in *. subst e2.
    destruct e1; [repeat split; assumption|].
    destruct (uadd tg o _); repeat split; assumption.
  Qed.

  Lemma sim_rest o items :
    Forall (fun x => forall w1 w2, Rw w1 w2 -> Rr (write_val tg l wi1 x w1) (write_val tg l wi2 x w2)) items ->
    forall w1 w2, Rw w1 w2 -> Rr (write_iter_rest tg l wi1 o items w1) (write_iter_rest tg l wi2 o items w2).
  Proof.
    induction 1 as [|x r Hx Hr IH]; intros w1 w2 H; cbn [write_iter_rest]; [split; [reflexivity|exact H]|].
    destruct (Hx w1 w2 H) as [E H'].
    destruct (write_val tg l wi1 x w1) as [a1 e1], (write_val tg l wi2 x w2) as [a2 e2]. cbn [fst snd] in *. subst e2.
    destruct e1; try (split; [reflexivity|exact H']). now apply IH.
  Qed.

  Lemma sim_val : forall x w1 w2, Rw w1 w2 -> Rr (write_val tg l wi1 x w1) (write_val tg l wi2 x w2).
  Proof.
    induction x as [h v|t s|items IH] using wval_ind'; intros w1 w2 H.
    - cbn [write_val]. unfold write_leaf. destruct (out_ty tg l h) as [t|]; [|split; [reflexivity|exact H]].
      destruct (as_std tg l h v) as [s|]; [|split; [reflexivity|exact H]]. now apply sim_std.
    - cbn [write_val]. now apply sim_std.
    - assert (S : forall W (wi : write_impl W) o it w,
        (fix rest (iter : list wval) (w : writer W) {struct iter} : writer W * wres :=
             match iter with
             | [] => (w, WOk o)
             | item :: iter' =>
               match write_val tg l wi item w with
               | (w', WOk _) => rest iter' w'
               | (w', r) => (w', r)
               end
             end) it w = write_iter_rest tg l wi o it w).
      { intros W wi o it. induction it as [|y r IHr]; intros w; [reflexivity|]. cbn.
        destruct (write_val tg l wi y w) as [w' [| | |]]; auto. }
      cbn [write_val]. destruct items as [|x r].
      + split; [|exact H]. cbn. unfold writer_len. now destruct H as [_ ->].
      + inversion IH as [|? ? Hx Hr]; subst. destruct (Hx w1 w2 H) as [E H'].
        destruct (write_val tg l wi1 x w1) as [a1 e1], (write_val tg l wi2 x w2) as [a2 e2]. cbn [fst snd] in *. subst e2.
        destruct e1; try (split; [reflexivity|exact H']). rewrite 2 S. now apply sim_rest.
  Qed.

  Lemma sim_op o w1 w2 : Rw w1 w2 -> Rr (run_op tg l wi1 o w1) (run_op tg l wi2 o w2).
  Proof.
    intros H. destruct o as [x|xs|t s]; cbn [run_op].
    - now apply sim_val.
    - unfold write_iter. destruct xs as [|x r].
      + split; [|exact H]. cbn. now destruct H as [_ ->].
      + destruct (sim_val x w1 w2 H) as [E H'].
        destruct (write_val tg l wi1 x w1) as [a1 e1], (write_val tg l wi2 x w2) as [a2 e2]. cbn [fst snd] in *. subst e2.
        destruct e1; try (split; [reflexivity|exact H']). apply sim_rest; [|exact H'].
        apply Forall_forall. intros y _. apply sim_val.
    - now apply sim_std.
  Qed.

  Lemma sim_ops os : forall w1 w2, Rw w1 w2 -> Rr (run_ops tg l wi1 os w1) (run_ops tg l wi2 os w2).
  Proof.
    induction os as [|o os IH]; intros w1 w2 H; cbn [run_ops]; [split; [reflexivity|exact H]|].
    destruct (sim_op o w1 w2 H) as [E H'].
    destruct (run_op tg l wi1 o w1) as [a1 e1], (run_op tg l wi2 o w2) as [a2 e2]. cbn [fst snd] in *. subst e2.
    specialize (IH a1 a2 H').
    destruct (run_ops tg l wi1 os a1) as [b1 r1], (run_ops tg l wi2 os a2) as [b2 r2]. destruct IH as [E H2].
    cbn [fst snd] in *. subst r2. split; [reflexivity|exact H2].
  Qed.

  Lemma sim_vals xs : forall w1 w2, Rw w1 w2 -> Rr (write_vals tg l wi1 xs w1) (write_vals tg l wi2 xs w2).
  Proof.
    induction xs as [|x xs IH]; intros w1 w2 H; cbn [write_vals]; [split; [reflexivity|exact H]|].
    destruct (sim_val x w1 w2 H) as [E H']. unfold writer_write.
    destruct (write_val tg l wi1 x w1) as [a1 e1], (write_val tg l wi2 x w2) as [a2 e2]. cbn [fst snd] in *. subst e2.
    destruct e1; try (split; [reflexivity|exact H']).
    specialize (IH a1 a2 H').
    destruct (write_vals tg l wi1 xs a1) as [b1 [o1 f1]], (write_vals tg l wi2 xs a2) as [b2 [o2 f2]]. destruct IH as [E H2].
    cbn [fst snd] in *. injection E as <- <-. split; [reflexivity|exact H2].
  Qed.
End Sim.

(** ** C76: Cursor *)

Definition over (buf : list byte) (p : nat) (v : list byte) : list byte :=
  match v with
  | [] => buf
  | _ :: _ =>
    let filled := (buf ++ repeat x00 (p - length buf))%list in
    (firstn p filled ++ v ++ skipn (p + length v) filled)%list
  end.

Lemma skipn_add {A} a : forall b (x : list A), skipn (a + b) x = skipn b (skipn a x).
Proof.
  induction a as [|a IH]; intros b x; [reflexivity|]. destruct x; cbn [plus skipn]; [now rewrite skipn_nil|apply IH].
Qed.

Lemma firstn_exact {A} (a b : list A) n : length a = n -> firstn n (a ++ b) = a.
Proof. intros <-. rewrite firstn_app, Nat.sub_diag, firstn_all. cbn [firstn]. apply app_nil_r. Qed.
Lemma skipn_exact {A} (a b : list A) n : length a = n -> skipn n (a ++ b) = b.
Proof. intros <-. rewrite skipn_app, Nat.sub_diag, skipn_all. reflexivity. Qed.

Lemma over_over buf p v bs : over (over buf p v) (p + length v) bs = over buf p (v ++ bs)%list.
Proof.
  destruct v as [|b0 v0]; [cbn [app length over]; now rewrite Nat.add_0_r|].
  set (v := b0 :: v0). destruct bs as [|c0 bs0]; [now rewrite app_nil_r|]. set (bs := c0 :: bs0).
  set (fl := (buf ++ repeat x00 (p - length buf))%list).
  assert (Lf : (p <= length fl)%nat) by (unfold fl; rewrite app_length, repeat_length; lia).
  assert (E1 : over buf p v = (firstn p fl ++ v ++ skipn (p + length v) fl)%list) by reflexivity.
  assert (E2 : over buf p (v ++ bs)%list = (firstn p fl ++ (v ++ bs) ++ skipn (p + length (v ++ bs)) fl)%list) by reflexivity.
  assert (Lp : length (firstn p fl) = p) by (apply firstn_length_le; exact Lf).
  assert (L1 : (p + length v <= length (over buf p v))%nat)
    by (rewrite E1, 2 app_length, Lp; lia).
  rewrite E2. unfold over at 1. unfold bs at 1. fold bs. cbv zeta.
  replace (p + length v - length (over buf p v))%nat with O by lia. cbn [repeat]. rewrite app_nil_r, E1.
  assert (Lpv : length (firstn p fl ++ v)%list = (p + length v)%nat) by (rewrite app_length, Lp; reflexivity).
  rewrite (skipn_add (p + length v) (length bs)), (app_assoc (firstn p fl) v), (firstn_exact _ _ _ Lpv), (skipn_exact _ _ _ Lpv).
  rewrite <- skipn_add, <- !app_assoc. do 4 f_equal. rewrite app_length. lia.
Qed.

Lemma over_spec buf p img : overwritten buf p img (over buf (N.to_nat p) img).
Proof.
  split; [intros ->; reflexivity|]. intros Hne. destruct img as [|b0 v0]; [contradiction|]. set (v := b0 :: v0).
  set (fl := (buf ++ repeat x00 (N.to_nat p - length buf))%list).
  assert (E : over buf (N.to_nat p) v = (firstn (N.to_nat p) fl ++ v ++ skipn (N.to_nat p + length v) fl)%list) by reflexivity.
  assert (Lf : length fl = Nat.max (length buf) (N.to_nat p)) by (unfold fl; rewrite app_length, repeat_length; lia).
  assert (Lp : length (firstn (N.to_nat p) fl) = N.to_nat p) by (apply firstn_length_le; lia).
  rewrite E. split; [|split].
  - unfold len. rewrite 2 app_length, Lp, skipn_length, Lf. lia.
  - rewrite read_at_app_r by (unfold len; rewrite Lp; lia).
    unfold len at 1. rewrite Lp, N2Nat.id, N.sub_diag. rewrite read_at_app_l by (unfold len; lia).
    unfold read_at. replace (0 + len v <=? len v) with true by (unfold len; lia). cbn [N.to_nat skipn].
    unfold len. now rewrite Nat2N.id, firstn_all.
  - intros i Hi Hlt.
    assert (F : nth_error fl (N.to_nat i) = match byte_at buf i with Some x => Some x | None =>
                  if i <? N.max (len buf) p then Some x00 else None end).
    { unfold byte_at, fl. destruct (Nat.ltb_spec (N.to_nat i) (length buf)) as [Hs|Hs].
      - rewrite nth_error_app1 by exact Hs. destruct (nth_error buf (N.to_nat i)) eqn:En; [reflexivity|].
        apply nth_error_None in En. lia.
      - rewrite nth_error_app2 by exact Hs. replace (nth_error buf (N.to_nat i)) with (@None byte)
          by (symmetry; apply nth_error_None; exact Hs).
        destruct (i <? N.max (len buf) p) eqn:Eb.
        + apply nth_error_repeat. unfold len in Eb. lia.
        + apply nth_error_None. rewrite repeat_length. unfold len in Eb. lia. }
    unfold len in Hlt at 1. rewrite 2 app_length, Lp, skipn_length, Lf in Hlt.
    unfold byte_at at 1. destruct Hi as [Hi|Hi].
    + rewrite nth_error_app1 by (rewrite Lp; lia).
      assert (G : nth_error (firstn (N.to_nat p) fl) (N.to_nat i) = nth_error fl (N.to_nat i)).
      { rewrite <- (firstn_skipn (N.to_nat p) fl) at 2. rewrite nth_error_app1 by (rewrite Lp; lia). reflexivity. }
      rewrite G, F. destruct (byte_at buf i); [reflexivity|]. replace (i <? N.max (len buf) p) with true by lia. reflexivity.
    + unfold len in Hi.
      rewrite nth_error_app2 by (rewrite Lp; lia). rewrite nth_error_app2 by (rewrite Lp; lia). rewrite Lp.
      assert (G : nth_error (skipn (N.to_nat p + length v) fl) (N.to_nat i - N.to_nat p - length v) = nth_error fl (N.to_nat i)).
      { rewrite <- (firstn_skipn (N.to_nat p + length v) fl) at 2. rewrite nth_error_app2; rewrite firstn_length; [f_equal|]; lia. }
      rewrite G, F. destruct (byte_at buf i) eqn:Eb; [reflexivity|].
      assert (i < len buf) by (unfold len; lia).
      unfold byte_at in Eb. apply nth_error_None in Eb. unfold len in *. lia.
Qed.

(** C76.  A Writer on a [Cursor<Vec<u8>>] at position [p] does what a Writer on an empty [Vec]
    does: every operation of any history returns the same, [len()] is the same, the position
    advances by the number of bytes written, and the buffer is overwritten at [p] with the bytes
    the [Vec] would hold. *)
Lemma C76_cursor_over_vec_proof : forall tg l os p buf w rs,
  run_ops tg l vec_sink os (writer_new []) = (w, rs) ->
  exists b, run_ops tg l cursor_vec_sink os (writer_new (Cursor p buf))
      = (Writer (Cursor (p + len (w_inner w)) b) (writer_len w), rs)
    /\ overwritten buf p (w_inner w) b
    /\ (p + len (w_inner w) <= len buf -> copy_at buf p (w_inner w) = Some b).
Proof.
  intros tg l os p buf w rs H.
  pose (R := fun (v : list byte) (c : cursor) => c = Cursor (p + len v) (over buf (N.to_nat p) v)).
  assert (S : forall s1 s2 bs, R s1 s2 -> snd (vec_sink s1 bs) = snd (cursor_vec_sink s2 bs) /\ R (fst (vec_sink s1 bs)) (fst (cursor_vec_sink s2 bs))).
  { intros v c bs ->. unfold vec_sink. cbn [fst snd]. destruct bs as [|b0 bs0].
    - rewrite app_nil_r. split; reflexivity.
    - set (bs := b0 :: bs0). split; [reflexivity|]. unfold R.
      transitivity (Cursor (p + len v + len bs) (over (over buf (N.to_nat p) v) (N.to_nat (p + len v)) bs)); [reflexivity|].
      replace (N.to_nat (p + len v)) with (N.to_nat p + length v)%nat by (unfold len; lia).
      rewrite over_over. f_equal. unfold len. rewrite app_length. lia. }
  assert (H0 : Rw R (writer_new []) (writer_new (Cursor p buf))).
  { split; [|reflexivity]. cbn. unfold R, len. cbn. f_equal. lia. }
  destruct (sim_ops tg l vec_sink cursor_vec_sink R S os _ _ H0) as [E [H1 H2]]. rewrite H in *. cbn [fst snd] in *.
  destruct (run_ops tg l cursor_vec_sink os (writer_new (Cursor p buf))) as [[c off] rs']. cbn [fst snd w_inner w_offset] in *. subst.
  exists (over buf (N.to_nat p) (w_inner w)). split; [|split].
  - rewrite H1. reflexivity.
  - apply over_spec.
  - intros Hf. unfold copy_at. replace (p + len (w_inner w) <=? len buf) with true by lia.
    f_equal. unfold over. destruct (w_inner w) as [|b0 v0] eqn:Ew.
    + cbn [app len length N.of_nat]. unfold len. cbn [length N.of_nat]. rewrite N.add_0_r. apply firstn_skipn.
    + rewrite <- Ew in *. replace (N.to_nat p - length buf)%nat with O by (unfold len in Hf; lia). cbn [repeat]. rewrite app_nil_r.
      do 3 f_equal. unfold len. lia.
Qed.

(** C76.  A Writer on a [Cursor<&mut [u8]>] at position [p] does what a Writer on the part of the
    slice from [p] on does, including its failures. *)
Lemma C76_cursor_over_slice_proof : forall tg l os p buf filled rest n rs,
  p <= len buf ->
  run_ops tg l slice_sink os (writer_new ([], skipn (N.to_nat p) buf)) = (Writer (filled, rest) n, rs) ->
  run_ops tg l cursor_slice_sink os (writer_new (Cursor p buf))
    = (Writer (Cursor (p + len filled) (firstn (N.to_nat p) buf ++ filled ++ rest)%list) n, rs).
Proof.
  intros tg l os p buf filled rest n rs Hp H.
  pose (R := fun (st : list byte * list byte) (c : cursor) =>
    c = Cursor (p + len (fst st)) (firstn (N.to_nat p) buf ++ fst st ++ snd st)%list).
  assert (Lp : length (firstn (N.to_nat p) buf) = N.to_nat p) by (apply firstn_length_le; unfold len in Hp; lia).
  assert (S : forall s1 s2 bs, R s1 s2 -> snd (slice_sink s1 bs) = snd (cursor_slice_sink s2 bs) /\ R (fst (slice_sink s1 bs)) (fst (cursor_slice_sink s2 bs))).
  { intros [f r] c bs ->. unfold slice_sink, cursor_slice_sink. cbn [fst snd cu_pos cu_buf]. cbv zeta.
    replace (length (firstn (N.to_nat p) buf ++ f ++ r)%list - N.to_nat (p + len f))%nat with (length r)
      by (rewrite 2 app_length, Lp; unfold len; lia).
    set (amt := Nat.min (length bs) (length r)).
    assert (Q : R (f ++ firstn amt bs, skipn amt r)%list
      (Cursor (p + len f + N.of_nat amt)
         (firstn (N.to_nat (p + len f)) (firstn (N.to_nat p) buf ++ f ++ r)
          ++ firstn amt bs ++ skipn (N.to_nat (p + len f) + amt) (firstn (N.to_nat p) buf ++ f ++ r))%list)).
    { unfold R. cbn [fst snd].
      assert (L : length (firstn (N.to_nat p) buf ++ f)%list = N.to_nat (p + len f)) by (rewrite app_length, Lp; unfold len; lia).
      assert (La : length (firstn amt bs) = amt) by (apply firstn_length_le; unfold amt; lia).
      f_equal.
      - unfold len. rewrite app_length, La. lia.
      - rewrite (skipn_add (N.to_nat (p + len f)) amt), (app_assoc _ f), (firstn_exact _ _ _ L), (skipn_exact _ _ _ L).
        rewrite <- !app_assoc. reflexivity. }
    destruct (Nat.ltb amt (length bs)); cbn [fst snd]; split; try reflexivity; exact Q. }
  assert (H0 : Rw R (writer_new ([], skipn (N.to_nat p) buf)) (writer_new (Cursor p buf))).
  { split; [|reflexivity]. cbn. unfold R, len. cbn. rewrite firstn_skipn. f_equal. lia. }
  destruct (sim_ops tg l slice_sink cursor_slice_sink R S os _ _ H0) as [E [H1 H2]]. rewrite H in *. cbn [fst snd w_inner w_offset] in *.
  destruct (run_ops tg l cursor_slice_sink os (writer_new (Cursor p buf))) as [[c off] rs']. cbn [fst snd w_inner w_offset] in *. subst.
  rewrite H1. reflexivity.
Qed.

(** ** C77: BufWriter *)

Lemma flush_spec script : forall data buf b e, flush_loop script data buf = (b, e) ->
  buf_accepted b = (data ++ buf)%list /\ (e = None -> bw_buf b = []) /\ prefix data (bw_data b) /\ prefix (bw_data b) (data ++ buf)%list.
Proof.
  assert (P : forall (x y : list byte), prefix x (x ++ y)%list) by (intros x y; now exists y).
  assert (Pr : forall (x : list byte), prefix x x) by (intros x; exists []; now rewrite app_nil_r).
  induction script as [|r script IH]; intros data buf b e H; cbn [flush_loop] in H.
  - destruct buf as [|b0 bf]; injection H as <- <-; unfold buf_accepted; cbn [bw_data bw_buf]; rewrite ?app_nil_r; auto.
  - destruct buf as [|b0 bf]; [injection H as <- <-; unfold buf_accepted; cbn [bw_data bw_buf]; rewrite ?app_nil_r; auto|].
    destruct r as [n| |er].
    + destruct (Nat.min n (length (b0 :: bf))) as [|k] eqn:Ek.
      * injection H as <- <-. unfold buf_accepted. cbn [bw_data bw_buf]. repeat split; auto; discriminate.
      * specialize (IH _ _ _ _ H). rewrite <- app_assoc, firstn_skipn in IH. destruct IH as [A [B [[x C] D]]].
        repeat split; auto. exists (firstn (S k) (b0 :: bf) ++ x)%list. now rewrite app_assoc.
    + now apply IH.
    + injection H as <- <-. unfold buf_accepted. cbn [bw_data bw_buf]. repeat split; auto; discriminate.
Qed.

(** C77.  A [BufWriter] of any capacity, on a sink that makes short writes, is interrupted or
    fails, obeys the contract of [Write]; so everything said about Writers on lawful sinks holds
    for it, with "the bytes that reached the sink" being those passed on and those buffered. *)
Lemma C77_buffered_lawful_proof : forall cap, lawful (buf_sink cap) buf_accepted.
Proof.
  intros cap b bs b' e H. unfold buf_sink in H. cbv zeta in H.
  destruct (Nat.ltb_spec (length bs) (cap - length (bw_buf b))) as [L1|L1].
  { injection H as <- <-. unfold buf_accepted. cbn [bw_data bw_buf]. apply app_assoc. }
  assert (F : exists b1 e1, (if Nat.ltb (cap - length (bw_buf b)) (length bs) then buf_flush b else (b, None)) = (b1, e1)
     /\ buf_accepted b1 = buf_accepted b /\ (e1 = None -> (cap <= length bs)%nat -> bw_buf b1 = [] \/ bs = [])).
  { destruct (Nat.ltb_spec (cap - length (bw_buf b)) (length bs)) as [L2|L2].
    - destruct (buf_flush b) as [b1 e1] eqn:E. exists b1, e1. unfold buf_flush in E.
      destruct (flush_spec _ _ _ _ _ E) as [A [B _]]. repeat split; auto.
    - exists b, None. repeat split; auto. intros _ Lc.
      destruct cap as [|cap]; [right; destruct bs; [reflexivity|cbn in *; lia]|].
      left. destruct (bw_buf b); [reflexivity|cbn [length] in *; lia]. }
  destruct F as [b1 [e1 [E1 [A B]]]]. rewrite E1 in H. destruct e1 as [e1|].
  { injection H as <- <-. exists O. split; [lia|]. cbn [firstn]. now rewrite app_nil_r. }
  destruct (Nat.leb_spec cap (length bs)) as [Lc|Lc].
  - destruct (script_loop (bw_script b1) (bw_data b1) bs) as [[sc da] e2] eqn:Es. injection H as <- <-.
    pose proof (script_lawful (bw_script b1, bw_data b1) bs (sc, da) e2 Es) as L. cbn [snd] in L.
    rewrite <- A. unfold buf_accepted. cbn [bw_data bw_buf].
    destruct (B eq_refl Lc) as [E|E]; rewrite E in *.
    + rewrite !app_nil_r. exact L.
    + assert (D : da = bw_data b1).
      { destruct e2; [destruct L as [k [_ L]]; rewrite firstn_nil in L|]; rewrite app_nil_r in L; exact L. }
      rewrite D. destruct e2; [exists O; split; [lia|]; cbn [firstn]|]; now rewrite app_nil_r.
  - injection H as <- <-. rewrite <- A. unfold buf_accepted. cbn [bw_data bw_buf]. apply app_assoc.
Qed.

Lemma buf_sink_data cap b bs : prefix (bw_data b) (bw_data (fst (buf_sink cap b bs))).
Proof.
  assert (Pr : forall (x : list byte), prefix x x) by (intros x; exists []; now rewrite app_nil_r).
  unfold buf_sink. cbv zeta. destruct (Nat.ltb (length bs) _); [apply Pr|].
  assert (F : exists b1 e1, (if Nat.ltb (cap - length (bw_buf b)) (length bs) then buf_flush b else (b, None)) = (b1, e1)
     /\ prefix (bw_data b) (bw_data b1)).
  { destruct (Nat.ltb _ _); [|eexists; eexists; split; [reflexivity|apply Pr]].
    destruct (buf_flush b) as [b1 e1] eqn:E. exists b1, e1. split; [reflexivity|]. unfold buf_flush in E.
    apply (flush_spec _ _ _ _ _ E). }
  destruct F as [b1 [[e1|] [-> P]]]; [exact P|]. destruct (Nat.leb _ _); [|exact P].
  destruct (script_loop (bw_script b1) (bw_data b1) bs) as [[sc da] e2] eqn:Es. cbn [fst bw_data].
  pose proof (script_lawful (bw_script b1, bw_data b1) bs (sc, da) e2 Es) as L. cbn [snd] in L.
  destruct P as [x P]. destruct e2; [destruct L as [k [_ L]]|]; rewrite L, P, <- app_assoc; eexists; reflexivity.
Qed.

Lemma buf_run_data tg l cap os w0 w1 rs : run_ops tg l (buf_sink cap) os w0 = (w1, rs) ->
  prefix (bw_data (w_inner w0)) (bw_data (w_inner w1)).
Proof.
  intros H. pose (R := fun s1 s2 : bufw => s1 = s2 /\ prefix (bw_data (w_inner w0)) (bw_data s1)).
  assert (S : forall s1 s2 bs, R s1 s2 -> snd (buf_sink cap s1 bs) = snd (buf_sink cap s2 bs)
    /\ R (fst (buf_sink cap s1 bs)) (fst (buf_sink cap s2 bs))).
  { intros s1 s2 bs [<- [x P]]. split; [reflexivity|]. split; [reflexivity|].
    destruct (buf_sink_data cap s1 bs) as [y ->]. rewrite P, <- app_assoc. eexists. reflexivity. }
  assert (H0 : Rw R w0 w0) by (split; [split; [reflexivity|exists []; now rewrite app_nil_r]|reflexivity]).
  destruct (sim_ops tg l _ _ R S os _ _ H0) as [_ [[_ P] _]]. rewrite H in P. exact P.
Qed.

(** C77.  After a history of successful operations on a new [BufWriter], followed by a [flush]:
    the sink behind it has received a prefix of the expected bytes; if the flush succeeded, all of
    them, and nothing is left in the buffer. *)
Lemma C77_flush_proof : forall tg l cap script data os w rs ps places total b e,
  target_ok tg = true -> Forall (op_ok tg l) os ->
  ops_parts tg l os = Some ps -> laid_out 0 ps places total -> (t_checks tg = true \/ total < umod tg) ->
  run_ops tg l (buf_sink cap) os (writer_new (buf_new script data)) = (w, rs) -> all_ok rs ->
  buf_flush (w_inner w) = (b, e) ->
  exists img got, image places total img /\ writer_len w = total
    /\ bw_data b = (data ++ got)%list /\ prefix got img
    /\ (e = None -> got = img /\ bw_buf b = []).
Proof.
  intros tg l cap script data os w rs ps places total b e Htg Hok Hp Hl Hno Hr Hall Hf.
  destruct (C03_history_image_proof _ tg l (buf_sink cap) buf_accepted _ os w rs ps places total Htg
    (C77_buffered_lawful_proof cap) Hok Hr Hall Hp Hl Hno) as [[img [D Hi]] [_ Hlen]].
  unfold buf_new, buf_accepted in D. cbn [bw_data bw_buf] in D. rewrite app_nil_r in D.
  unfold buf_flush in Hf. destruct (flush_spec _ _ _ _ _ Hf) as [A [B [_ C]]]. unfold buf_accepted in A.
  rewrite D in A, C.
  destruct (buf_run_data _ _ _ _ _ _ _ Hr) as [x X]. cbn [writer_new w_inner buf_new bw_data] in X.
  destruct (flush_spec _ _ _ _ _ Hf) as [_ [_ [[y Y] _]]]. rewrite X, <- app_assoc in Y.
  exists img, (x ++ y)%list. rewrite Y, <- app_assoc in A. apply app_inv_head in A.
  repeat split; try assumption; try apply Hi.
  - exists (bw_buf b). now symmetry.
  - rewrite (B H), app_nil_r in A. exact A.
  - exact (B H).
Qed.

Lemma buf_vals_data tg l cap xs w0 w1 r : write_vals tg l (buf_sink cap) xs w0 = (w1, r) ->
  prefix (bw_data (w_inner w0)) (bw_data (w_inner w1)).
Proof.
  intros H. pose (R := fun s1 s2 : bufw => s1 = s2 /\ prefix (bw_data (w_inner w0)) (bw_data s1)).
  assert (S : forall s1 s2 bs, R s1 s2 -> snd (buf_sink cap s1 bs) = snd (buf_sink cap s2 bs)
    /\ R (fst (buf_sink cap s1 bs)) (fst (buf_sink cap s2 bs))).
  { intros s1 s2 bs [<- [x P]]. split; [reflexivity|]. split; [reflexivity|].
    destruct (buf_sink_data cap s1 bs) as [y ->]. rewrite P, <- app_assoc. eexists. reflexivity. }
  assert (H0 : Rw R w0 w0) by (split; [split; [reflexivity|exists []; now rewrite app_nil_r]|reflexivity]).
  destruct (sim_vals tg l _ _ R S xs _ _ H0) as [_ [[_ P] _]]. rewrite H in P. exact P.
Qed.

(** C77.  Whatever happens (errors included), the sink behind a [BufWriter] has received a prefix
    of the bytes a Writer on a [Vec] would have produced, before and after a [flush]. *)
Lemma C77_prefix_proof : forall tg l cap script data xs w offs e ps places total,
  target_ok tg = true -> typed_all tg l xs ->
  parts tg l (WSeq (map leaf xs)) = Some ps -> laid_out 0 ps places total -> total < umod tg ->
  write_vals tg l (buf_sink cap) (map leaf xs) (writer_new (buf_new script data)) = (w, (offs, e)) ->
  exists full got got', image places total full
    /\ bw_data (w_inner w) = (data ++ got)%list
    /\ bw_data (fst (buf_flush (w_inner w))) = (data ++ got')%list
    /\ prefix got got' /\ prefix got' full.
Proof.
  intros tg l cap script data xs w offs e ps places total Htg Ht Hp Hl Hlt Hr.
  destruct (C09_failure_leaves_prefix_proof _ tg l (buf_sink cap) buf_accepted _ xs w offs e ps places total Htg
    (C77_buffered_lawful_proof cap) Ht Hr Hp Hl Hlt) as [w0 [full [acc [_ [_ [Hi [D [Pf _]]]]]]]].
  unfold buf_new, buf_accepted in D. cbn [bw_data bw_buf] in D. rewrite app_nil_r in D.
  destruct (buf_vals_data _ _ _ _ _ _ _ Hr) as [x X]. cbn [writer_new w_inner buf_new bw_data] in X.
  destruct (buf_flush (w_inner w)) as [b f] eqn:Hf. unfold buf_flush in Hf.
  destruct (flush_spec _ _ _ _ _ Hf) as [A [_ [[y Y] _]]]. unfold buf_accepted in A. rewrite D in A.
  rewrite X, <- app_assoc in Y. rewrite Y, <- app_assoc in A. apply app_inv_head in A.
  exists full, x, (x ++ y)%list. cbn [fst]. split; [exact Hi|]. split; [exact X|]. split; [exact Y|].
  split; [now exists y|]. destruct Pf as [z Pf]. exists (bw_buf b ++ z)%list. rewrite Pf, <- A. now rewrite <- app_assoc.
Qed.

(** C77.  It is not true that the bytes of values written successfully have reached the sink
    behind a [BufWriter]. *)
Lemma C77_success_means_delivered_refuted_proof :
  exists cap x w o, wval_ok x86_64 L140 x
    /\ writer_write x86_64 L140 (buf_sink cap) (writer_new (buf_new [] [])) x = (w, WOk o)
    /\ writer_len w = 4 /\ bw_data (w_inner w) = []
    /\ (exists b, buf_flush (w_inner w) = (b, None) /\ len (bw_data b) = 4).
Proof.
  exists 8%nat, (WLeaf (HPrim PU32) (bits 2)). do 2 eexists.
  split; [split; [eexists; vm_compute; reflexivity|vm_compute; reflexivity]|].
  split; [vm_compute; reflexivity|]. split; [reflexivity|]. split; [reflexivity|].
  eexists. split; vm_compute; reflexivity.
Qed.

(** C77: the sample history through a buffer of 20 bytes, on a sink that already holds a byte, makes short
    writes and is interrupted. *)
Lemma C77_ex_proof :
  Forall (op_ok x86_64 L140) sample_ops
  /\ (exists w rs b, run_ops x86_64 L140 (buf_sink 20) sample_ops (writer_new (buf_new [RAccept 3; RInterrupted; RAccept 10] [xff])) = (w, rs)
      /\ rs = [WOk 0; WOk 16; WOk 80; WOk 88] /\ writer_len w = 96
      /\ (1 <= length (bw_data (w_inner w)) < 97)%nat
      /\ buf_flush (w_inner w) = (b, None) /\ bw_buf b = [] /\ len (bw_data b) = 97
      /\ bw_data b = w_inner (fst (run_ops x86_64 L140 vec_sink sample_ops (writer_new [xff]))))
  /\ (exists w offs, write_vals x86_64 L140 (buf_sink 20) (map leaf sample_xs) (writer_new (buf_new [RAccept 3; RError 5] [xff])) = (w, (offs, Some (WErr (OtherError 5))))
      /\ offs = [0] /\ len (bw_data (w_inner w)) = 4).
Proof.
  split; [apply sample_ops_ok|]. split.
  - do 3 eexists. split; [vm_compute; reflexivity|]. split; [reflexivity|]. split; [reflexivity|].
    split; [cbn; lia|]. split; [vm_compute; reflexivity|]. conjs; vm_compute; reflexivity.
  - do 2 eexists. split; [vm_compute; reflexivity|]. split; [reflexivity|vm_compute; reflexivity].
Qed.

(** C76: the sample history over the middle of a buffer of 200 bytes; past the end of a short
    one; and a slice that is too short. *)
Lemma C76_ex_proof :
  (exists w rs b, run_ops x86_64 L140 vec_sink sample_ops (writer_new []) = (w, rs) /\ len (w_inner w) = 96
     /\ run_ops x86_64 L140 cursor_vec_sink sample_ops (writer_new (Cursor 16 (repeat xaa 200))) = (Writer (Cursor 112 b) 96, rs)
     /\ len b = 200 /\ byte_at b 15 = Some xaa /\ byte_at b 16 = Some x02 /\ byte_at b 112 = Some xaa)
  /\ (exists b rs, run_ops x86_64 L140 cursor_vec_sink sample_ops (writer_new (Cursor 16 (repeat xaa 10))) = (Writer (Cursor 112 b) 96, rs)
     /\ len b = 112 /\ byte_at b 9 = Some xaa /\ byte_at b 10 = Some x00)
  /\ (exists f r rs, run_ops x86_64 L140 slice_sink sample_ops (writer_new ([], skipn 16 (repeat xaa 50))) = (Writer (f, r) 16, rs)
     /\ rs = [WOk 0; WErr WriteZero; WErr WriteZero; WErr WriteZero]).
Proof.
  split; [|split].
  - do 3 eexists. split; [vm_compute; reflexivity|]. split; [reflexivity|]. split; [vm_compute; reflexivity|]. conjs; vm_compute; reflexivity.
  - do 2 eexists. split; [vm_compute; reflexivity|]. conjs; vm_compute; reflexivity.
  - do 3 eexists. split; [vm_compute; reflexivity|]. vm_compute. reflexivity.
Qed.
