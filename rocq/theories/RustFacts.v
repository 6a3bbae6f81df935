(** * Facts about the Rust platform model *)

From Coq Require Import NArith String Bool List Lia ZArith.
From Coq Require Import ZifyBool ZifyN ZifyNat.
From Coq Require Import Strings.Byte.
From Verif Require Import Rust Internal SpecGlsl Arith.
Import ListNotations.
Local Open Scope N_scope.

(** ** Induction over types *)
Section StyInd.
  Variable P : sty -> Prop.
  Hypothesis Hprim : forall p, P (TPrim p).
  Hypothesis Harr : forall p n, P (TArray p n).
  Hypothesis Hstruct : forall l n al fs, Forall (fun nf => P (snd nf)) fs -> P (TStruct l n al fs).
  Hypothesis Hdyn : forall t, P t -> P (TDyn t).
  Fixpoint sty_ind' (t : sty) : P t :=
    match t with
    | TPrim p => Hprim p
    | TArray p n => Harr p n
    | TStruct l n al fs =>
      Hstruct l n al fs
        ((fix go (fs : list (string * sty)) : Forall (fun nf => P (snd nf)) fs :=
            match fs with
            | [] => Forall_nil _
            | nf :: r => Forall_cons nf (sty_ind' (snd nf)) (go r)
            end) fs)
    | TDyn t' => Hdyn t' (sty_ind' t')
    end.
End StyInd.

(** ** Small list facts *)

Lemma len_app {A} (a b : list A) : len (a ++ b) = len a + len b.
Proof. unfold len. rewrite app_length. lia. Qed.
Lemma len_nil {A} : len (@nil A) = 0. Proof. reflexivity. Qed.
Lemma len_cons {A} (x : A) l : len (x :: l) = 1 + len l.
Proof. unfold len. cbn [length]. lia. Qed.
Lemma len_map {A B} (f : A -> B) l : len (map f l) = len l.
Proof. unfold len. now rewrite map_length. Qed.
Lemma len_repeat {A} (x : A) n : len (repeat x n) = N.of_nat n.
Proof. unfold len. now rewrite repeat_length. Qed.
Lemma len_rev {A} (l : list A) : len (rev l) = len l.
Proof. unfold len. now rewrite rev_length. Qed.

Lemma map_opt_cons {A B} (f : A -> option B) x l :
  map_opt f (x :: l) =
  match f x, map_opt f l with Some y, Some ys => Some (y :: ys) | _, _ => None end.
Proof. reflexivity. Qed.

Lemma map_opt_Some_length {A B} (f : A -> option B) l l' :
  map_opt f l = Some l' -> length l' = length l.
Proof.
  revert l'. induction l as [|x l IH]; intros l' H.
  - cbn in H. injection H as <-. reflexivity.
  - rewrite map_opt_cons in H. destruct (f x); [|discriminate].
    destruct (map_opt f l) as [ys|]; [|discriminate]. injection H as <-.
    cbn [length]. f_equal. now apply IH.
Qed.

Lemma map_opt_id_Some {A} (l : list A) : map_opt (fun c => c) (map Some l) = Some l.
Proof.
  induction l as [|x l IH]; [reflexivity|]. cbn [map]. rewrite map_opt_cons, IH. reflexivity.
Qed.

Lemma map_opt_Forall2 {A B} (f : A -> option B) l l' :
  map_opt f l = Some l' <-> Forall2 (fun x y => f x = Some y) l l'.
Proof.
  revert l'. induction l as [|x l IH]; intros l'.
  - cbn. split; intros H; [injection H as <-; constructor|inversion H; reflexivity].
  - rewrite map_opt_cons. split; intros H.
    + destruct (f x) as [y|] eqn:E; [|discriminate].
      destruct (map_opt f l) as [ys|]; [|discriminate]. injection H as <-.
      constructor; [assumption|]. now apply IH.
    + inversion H as [|? y ? ys E F]; subst. rewrite E.
      apply IH in F. rewrite F. reflexivity.
Qed.

Lemma map_opt_total {A B} (f : A -> option B) l :
  Forall (fun x => exists y, f x = Some y) l -> exists l', map_opt f l = Some l'.
Proof.
  induction 1 as [|x l [y Hy] _ [ys IH]]; [exists []; reflexivity|].
  rewrite map_opt_cons, Hy, IH. eauto.
Qed.

Lemma map_opt_ext {A B} (f g : A -> option B) l :
  (forall x, In x l -> f x = g x) -> map_opt f l = map_opt g l.
Proof.
  induction l as [|x l IH]; intros H; [reflexivity|].
  rewrite !map_opt_cons, IH, (H x); [reflexivity|now left|intros; apply H; now right].
Qed.

Lemma nodupb_NoDup l : nodupb l = true <-> NoDup l.
Proof.
  induction l as [|x l IH]; cbn [nodupb].
  - split; [constructor|reflexivity].
  - rewrite andb_true_iff, negb_true_iff, IH. split.
    + intros [H1 H2]. constructor; [|assumption]. intros Hin.
      assert (existsb (String.eqb x) l = true); [|congruence].
      apply existsb_exists. exists x. split; [assumption|apply String.eqb_refl].
    + intros H. inversion H as [|? ? H1 H2]; subst. split; [|assumption].
      destruct (existsb (String.eqb x) l) eqn:E; [|reflexivity].
      apply existsb_exists in E. destruct E as [y [Hy E]].
      apply String.eqb_eq in E. subst. contradiction.
Qed.

Lemma assoc_cons {A} k k' (v : A) l :
  assoc k ((k', v) :: l) = if String.eqb k k' then Some v else assoc k l.
Proof. unfold assoc. cbn [find fst]. destruct (String.eqb k k'); reflexivity. Qed.

Lemma assoc_in {A} k (v : A) l : assoc k l = Some v -> In (k, v) l.
Proof.
  induction l as [|[k' v'] l IH]; [discriminate|].
  rewrite assoc_cons. destruct (String.eqb_spec k k') as [->|].
  - intros H. injection H as ->. now left.
  - intros H. right. now apply IH.
Qed.

Lemma assoc_nodup {A} k (v : A) l : NoDup (map fst l) -> In (k, v) l -> assoc k l = Some v.
Proof.
  induction l as [|[k' v'] l IH]; intros Hn Hin; [contradiction|].
  cbn [map fst] in Hn. inversion Hn as [|? ? H1 H2]; subst.
  rewrite assoc_cons. destruct Hin as [E|Hin].
  - injection E as -> ->. now rewrite String.eqb_refl.
  - destruct (String.eqb_spec k k') as [->|]; [|now apply IH].
    exfalso. apply H1. apply in_map_iff. exists (k', v). split; [reflexivity|assumption].
Qed.

Lemma assoc_None {A} k (l : list (string * A)) : assoc k l = None <-> ~ In k (map fst l).
Proof.
  induction l as [|[k' v'] l IH]; [cbn; tauto|].
  rewrite assoc_cons. cbn [map fst In]. destruct (String.eqb_spec k k') as [->|Hn].
  - split; [discriminate|]. intros H. exfalso. apply H. now left.
  - rewrite IH. split; [intros H [E|E]; congruence|tauto].
Qed.

Lemma existsb_eqb_in x l : existsb (String.eqb x) l = true <-> In x l.
Proof.
  rewrite existsb_exists. split.
  - intros [y [H E]]. apply String.eqb_eq in E. now subst.
  - intros H. exists x. split; [assumption|apply String.eqb_refl].
Qed.

(** ** Equality tests *)

Lemma lay_eqb_eq a b : lay_eqb a b = true <-> a = b.
Proof. destruct a, b; cbn; split; congruence. Qed.
Lemma lay_eqb_refl a : lay_eqb a a = true.
Proof. destruct a; reflexivity. Qed.
Lemma prim_eqb_eq a b : prim_eqb a b = true <-> a = b.
Proof. destruct a, b; cbn; split; congruence. Qed.

Lemma sty_eqb_eq a : forall b, sty_eqb a b = true -> a = b.
Proof.
  induction a as [p|p n|l n al fs IH|t IH] using sty_ind'; intros [q|q m|l' n' al' fs'|u] H;
    try discriminate H; cbn [sty_eqb] in H.
  - apply prim_eqb_eq in H. congruence.
  - apply andb_true_iff in H. destruct H as [H1 H2].
    apply prim_eqb_eq in H1. apply N.eqb_eq in H2. congruence.
  - rewrite !andb_true_iff in H. destruct H as [[[H1 H2] H3] H4].
    apply lay_eqb_eq in H1. apply String.eqb_eq in H2. apply N.eqb_eq in H3. subst l' n' al'.
    f_equal. revert fs' H4. induction IH as [|[x t] fs Ht _ IHfs]; intros [|[y u] fs'] H4;
      try discriminate H4; [reflexivity|].
    rewrite !andb_true_iff in H4. destruct H4 as [[H4 H5] H6].
    apply String.eqb_eq in H4. apply Ht in H5. cbn [snd] in H5. subst.
    f_equal. now apply IHfs.
  - f_equal. now apply IH.
Qed.

Lemma sty_eqb_refl a : sty_eqb a a = true.
Proof.
  induction a as [p|p n|l n al fs IH|t IH] using sty_ind'; cbn [sty_eqb].
  - now apply prim_eqb_eq.
  - rewrite N.eqb_refl, andb_true_r. now apply prim_eqb_eq.
  - rewrite lay_eqb_refl, String.eqb_refl, N.eqb_refl. cbn [andb].
    induction IH as [|[x t] fs Ht _ IHfs]; [reflexivity|].
    rewrite String.eqb_refl, IHfs, andb_true_r. exact Ht.
  - exact IH.
Qed.

(** ** Encoding of primitives *)

Lemma to_N_byte_of_N n : Byte.to_N (byte_of_N n) = n mod 256.
Proof.
  unfold byte_of_N. pose proof (N.mod_upper_bound n 256 ltac:(lia)) as H.
  destruct (Byte.of_N (n mod 256)) as [b|] eqn:E.
  - now apply Byte.to_of_N.
  - exfalso. apply Byte.of_N_None_iff in E. lia.
Qed.

Lemma byte_of_N_add b n : byte_of_N (Byte.to_N b + 256 * n) = b.
Proof.
  unfold byte_of_N.
  rewrite N.mul_comm, N.mod_add by lia.
  rewrite N.mod_small by (pose proof (Byte.to_N_bounded b); lia).
  now rewrite Byte.of_to_N.
Qed.

Lemma length_le_bytes k n : length (le_bytes k n) = k.
Proof. revert n. induction k as [|k IH]; intros n; cbn [le_bytes length]; [reflexivity|now rewrite IH]. Qed.

Lemma le_val_le_bytes k n : le_val (le_bytes k n) = n mod 256 ^ N.of_nat k.
Proof.
  revert n. induction k as [|k IH]; intros n; cbn [le_bytes le_val].
  - cbn. symmetry. apply N.mod_1_r.
  - rewrite to_N_byte_of_N, IH, Nat2N.inj_succ, N.pow_succ_r by lia.
    rewrite N.mod_mul_r by (try apply N.pow_nonzero; lia). reflexivity.
Qed.

Lemma le_bytes_le_val bs : le_bytes (length bs) (le_val bs) = bs.
Proof.
  induction bs as [|b r IH]; [reflexivity|]. cbn [length le_val le_bytes].
  rewrite byte_of_N_add. f_equal.
  replace ((Byte.to_N b + 256 * le_val r) / 256) with (le_val r); [exact IH|].
  apply N.div_unique with (r := Byte.to_N b); [pose proof (Byte.to_N_bounded b)|]; lia.
Qed.

Lemma le_val_bound bs : le_val bs < 256 ^ len bs.
Proof.
  induction bs as [|b r IH]; [cbn; lia|]. cbn [le_val].
  rewrite len_cons, N.add_1_l, N.pow_succ_r by lia.
  pose proof (Byte.to_N_bounded b). lia.
Qed.

Lemma pbits_pow p : 2 ^ (8 * psize p) = 256 ^ psize p.
Proof. rewrite N.pow_mul_r. reflexivity. Qed.

Lemma len_enc_prim tg p n : len (enc_prim tg p n) = psize p.
Proof.
  unfold enc_prim. destruct (t_big tg); rewrite ?len_rev; unfold len; rewrite length_le_bytes; lia.
Qed.

Lemma dec_enc tg p n : pbits_ok p n = true -> dec_bytes tg (enc_prim tg p n) = n.
Proof.
  unfold pbits_ok, dec_bytes, enc_prim. intros H. apply N.ltb_lt in H. rewrite pbits_pow in H.
  destruct (t_big tg); rewrite ?rev_involutive, le_val_le_bytes, N2Nat.id;
    now apply N.mod_small.
Qed.

Lemma enc_dec tg p bs : len bs = psize p -> enc_prim tg p (dec_bytes tg bs) = bs.
Proof.
  unfold enc_prim, dec_bytes. intros H.
  assert (E : N.to_nat (psize p) = length bs) by (unfold len in H; lia).
  rewrite E. destruct (t_big tg).
  - rewrite <- rev_length, le_bytes_le_val. apply rev_involutive.
  - apply le_bytes_le_val.
Qed.

Lemma dec_ok tg p bs : len bs = psize p -> pbits_ok p (dec_bytes tg bs) = true.
Proof.
  unfold pbits_ok, dec_bytes. intros H. apply N.ltb_lt. rewrite pbits_pow, <- H.
  destruct (t_big tg); [rewrite <- (len_rev bs)|]; apply le_val_bound.
Qed.

Lemma le_bytes_0 k : le_bytes k 0 = repeat x00 k.
Proof. induction k as [|k IH]; [reflexivity|]. cbn [le_bytes repeat]. rewrite <- IH. reflexivity. Qed.

Lemma rev_repeat {A} (x : A) k : rev (repeat x k) = repeat x k.
Proof.
  induction k as [|k IH]; [reflexivity|]. cbn [repeat rev]. rewrite IH.
  clear IH. induction k as [|k IH]; [reflexivity|]. cbn [repeat app]. now rewrite IH.
Qed.

Lemma enc_prim_0 tg p : enc_prim tg p 0 = repeat x00 (N.to_nat (psize p)).
Proof. unfold enc_prim. rewrite le_bytes_0, rev_repeat. now destruct (t_big tg). Qed.

(** ** Named versions of the inner loops *)

Fixpoint fields_ok (fs : list (string * sty)) (vs : list (string * sval)) : bool :=
  match fs, vs with
  | [], [] => true
  | (f, ft) :: fs', (g, v) :: vs' => String.eqb f g && has_sty ft v && fields_ok fs' vs'
  | _, _ => false
  end.

Lemma has_sty_struct l n al fs vs : has_sty (TStruct l n al fs) (SRec vs) = fields_ok fs vs.
Proof.
  reflexivity.
Qed.

Fixpoint mem_fields (tg : target) (al cur : N) (fs : list (string * sty)) (vs : list (string * sval))
  : option (list (option byte)) :=
  match fs, vs with
  | [], [] => Some (repeat None (N.to_nat (padding_needed_for cur al)))
  | (f, ft) :: fs', (g, v) :: vs' =>
    let '(sz, fal) := layout_of tg ft in
    let pad := padding_needed_for cur fal in
    match String.eqb f g, mem_of tg ft v, mem_fields tg al (cur + pad + sz) fs' vs' with
    | true, Some m, Some r => Some (repeat None (N.to_nat pad) ++ m ++ r)
    | _, _, _ => None
    end
  | _, _ => None
  end.

Lemma mem_of_struct tg l n al fs vs :
  mem_of tg (TStruct l n al fs) (SRec vs)
  = mem_fields tg (repr_c_align (map (fun nf => layout_of tg (snd nf)) fs)) 0 fs vs.
Proof.
  cbn [mem_of]. generalize (repr_c_align (map (fun nf => layout_of tg (snd nf)) fs)) as A.
  generalize 0 as cur. intros cur A. revert cur vs.
  induction fs as [|[f ft] fs IH]; intros cur [|[g v] vs]; try reflexivity.
  cbn [mem_fields]. destruct (layout_of tg ft) as [sz fal]. rewrite <- IH. reflexivity.
Qed.

Fixpoint from_fields (tg : target) (al cur : N) (fs : list (string * sty)) (bs : list byte)
  : option (list (string * sval)) :=
  match fs with
  | [] => if len bs =? padding_needed_for cur al then Some [] else None
  | (f, ft) :: fs' =>
    let '(sz, fal) := layout_of tg ft in
    let pad := padding_needed_for cur fal in
    if pad + sz <=? len bs then
      let bs' := skipn (N.to_nat pad) bs in
      match from_bytes tg ft (firstn (N.to_nat sz) bs'),
            from_fields tg al (cur + pad + sz) fs' (skipn (N.to_nat sz) bs') with
      | Some v, Some vs => Some ((f, v) :: vs)
      | _, _ => None
      end
    else None
  end.

Lemma from_bytes_struct tg l n al fs bs :
  from_bytes tg (TStruct l n al fs) bs
  = match from_fields tg (repr_c_align (map (fun nf => layout_of tg (snd nf)) fs)) 0 fs bs with
    | Some vs => Some (SRec vs)
    | None => None
    end.
Proof.
  cbn [from_bytes]. generalize (repr_c_align (map (fun nf => layout_of tg (snd nf)) fs)) as A.
  intros A.
  match goal with |- match ?a with _ => _ end = match ?b with _ => _ end =>
    assert (E : a = b); [|now rewrite E] end.
  generalize 0 as cur. intros cur. revert cur bs.
  induction fs as [|[f ft] fs IH]; intros cur bs; [reflexivity|].
  cbn [from_fields]. destruct (layout_of tg ft) as [sz fal].
  destruct (padding_needed_for cur fal + sz <=? len bs); [|reflexivity].
  rewrite <- IH. reflexivity.
Qed.

(** ** Types without compiler-inserted padding *)

Fixpoint nopad (tg : target) (t : sty) : bool :=
  match t with
  | TPrim _ | TArray _ _ => true
  | TStruct _ _ _ fs =>
    let al := repr_c_align (map (fun nf => layout_of tg (snd nf)) fs) in
    (fix go (cur : N) (fs : list (string * sty)) : bool :=
       match fs with
       | [] => padding_needed_for cur al =? 0
       | (_, ft) :: fs' =>
         (padding_needed_for cur (align_of tg ft) =? 0) && nopad tg ft
         && go (cur + size_of tg ft) fs'
       end) 0 fs
  | TDyn t' => nopad tg t'
  end.

Fixpoint nopad_fields (tg : target) (al cur : N) (fs : list (string * sty)) : bool :=
  match fs with
  | [] => padding_needed_for cur al =? 0
  | (_, ft) :: fs' =>
    (padding_needed_for cur (align_of tg ft) =? 0) && nopad tg ft
    && nopad_fields tg al (cur + size_of tg ft) fs'
  end.

Lemma nopad_struct tg l n al fs :
  nopad tg (TStruct l n al fs)
  = nopad_fields tg (repr_c_align (map (fun nf => layout_of tg (snd nf)) fs)) 0 fs.
Proof.
  cbn [nopad]. generalize (repr_c_align (map (fun nf => layout_of tg (snd nf)) fs)) as A. intros A.
  match goal with |- ?f 0 fs = _ =>
    enough (H : forall cur, f cur fs = nopad_fields tg A cur fs) by apply H end.
  induction fs as [|[f ft] fs IH]; intros cur; [reflexivity|].
  cbn [nopad_fields]. rewrite <- IH. reflexivity.
Qed.

(** the packed encoding of a value *)
Fixpoint flat (tg : target) (t : sty) (s : sval) {struct t} : list byte :=
  match t, s with
  | TPrim p, SBits n => enc_prim tg p n
  | TArray p _, SArr ns => flat_map (enc_prim tg p) ns
  | TStruct _ _ _ fs, SRec vs =>
    (fix go (fs : list (string * sty)) (vs : list (string * sval)) : list byte :=
       match fs, vs with
       | (_, ft) :: fs', (_, v) :: vs' => flat tg ft v ++ go fs' vs'
       | _, _ => []
       end) fs vs
  | TDyn t', SNew s' => flat tg t' s'
  | _, _ => []
  end.

Fixpoint flat_fields (tg : target) (fs : list (string * sty)) (vs : list (string * sval)) : list byte :=
  match fs, vs with
  | (_, ft) :: fs', (_, v) :: vs' => flat tg ft v ++ flat_fields tg fs' vs'
  | _, _ => []
  end.

Lemma flat_struct tg l n al fs vs : flat tg (TStruct l n al fs) (SRec vs) = flat_fields tg fs vs.
Proof.
  cbn [flat]. revert vs. induction fs as [|[f ft] fs IH]; intros [|[g v] vs]; try reflexivity.
  cbn [flat_fields]. rewrite <- IH. reflexivity.
Qed.

(** sum of the sizes of the fields *)
Fixpoint sizes (tg : target) (fs : list (string * sty)) : N :=
  match fs with
  | [] => 0
  | (_, ft) :: r => size_of tg ft + sizes tg r
  end.

Lemma sizes_app tg a b : sizes tg (a ++ b) = sizes tg a + sizes tg b.
Proof. induction a as [|[f t] a IH]; cbn [sizes app]; [lia|]. rewrite IH. lia. Qed.

Lemma layout_of_eq tg t : layout_of tg t = (size_of tg t, align_of tg t).
Proof. unfold size_of, align_of. destruct (layout_of tg t); reflexivity. Qed.

Lemma nopad_fields_end tg al fs : forall cur,
  nopad_fields tg al cur fs = true ->
  repr_c_end cur (map (fun nf => layout_of tg (snd nf)) fs) = cur + sizes tg fs
  /\ padding_needed_for (cur + sizes tg fs) al = 0.
Proof.
  induction fs as [|[f ft] fs IH]; intros cur H; cbn [nopad_fields] in H.
  - cbn [map repr_c_end sizes]. apply N.eqb_eq in H.
    replace (cur + 0) with cur by lia. split; [reflexivity|assumption].
  - rewrite !andb_true_iff in H. destruct H as [[H1 H2] H3]. apply N.eqb_eq in H1.
    cbn [map repr_c_end sizes snd]. rewrite layout_of_eq, H1.
    apply IH in H3. destruct H3 as [H3 H4].
    replace (cur + 0 + size_of tg ft) with (cur + size_of tg ft) by lia.
    rewrite H3. split; [lia|]. now rewrite N.add_assoc.
Qed.

Lemma nopad_size_of tg l n al fs :
  nopad tg (TStruct l n al fs) = true -> size_of tg (TStruct l n al fs) = sizes tg fs.
Proof.
  rewrite nopad_struct. intros H. apply nopad_fields_end in H. destruct H as [H1 H2].
  unfold size_of. cbn [layout_of fst]. unfold repr_c_size. rewrite H1. cbn [N.add] in *.
  replace (0 + sizes tg fs) with (sizes tg fs) in * by lia. rewrite H2. lia.
Qed.

Lemma len_flat_map_enc tg p ns : len (flat_map (enc_prim tg p) ns) = len ns * psize p.
Proof.
  induction ns as [|n ns IH]; [reflexivity|]. cbn [flat_map].
  rewrite len_app, len_enc_prim, IH, len_cons. lia.
Qed.

(** main facts: encoding of padding-free types *)
Lemma flat_mem tg t : forall s, nopad tg t = true -> has_sty t s = true ->
  mem_of tg t s = Some (map Some (flat tg t s)) /\ len (flat tg t s) = size_of tg t.
Proof.
  induction t as [p|p n|l n al fs IH|t IH] using sty_ind'; intros s Hn Hs.
  - destruct s; try discriminate Hs. cbn [has_sty] in Hs. cbn [mem_of flat]. rewrite Hs.
    split; [reflexivity|]. rewrite len_enc_prim. reflexivity.
  - destruct s; try discriminate Hs. cbn [has_sty] in Hs. cbn [mem_of flat]. rewrite Hs.
    apply andb_true_iff in Hs. destruct Hs as [H1 H2]. apply N.eqb_eq in H1.
    split; [reflexivity|]. rewrite len_flat_map_enc, H1. reflexivity.
  - destruct s as [| |vs|]; try discriminate Hs.
    rewrite has_sty_struct in Hs. rewrite nopad_size_of by assumption.
    rewrite mem_of_struct, flat_struct. rewrite nopad_struct in Hn.
    revert Hn. generalize (repr_c_align (map (fun nf => layout_of tg (snd nf)) fs)) as A.
    generalize 0 as cur. intros cur A Hn. revert cur vs Hs Hn.
    induction IH as [|[f ft] fs Hft _ IHfs]; intros cur [|[g v] vs] Hs Hn; try discriminate Hs.
    + cbn [mem_fields nopad_fields flat_fields sizes] in *. apply N.eqb_eq in Hn. rewrite Hn.
      split; reflexivity.
    + cbn [fields_ok] in Hs. rewrite !andb_true_iff in Hs. destruct Hs as [[Hs1 Hs2] Hs3].
      cbn [nopad_fields] in Hn. rewrite !andb_true_iff in Hn. destruct Hn as [[Hn1 Hn2] Hn3].
      cbn [mem_fields flat_fields sizes]. rewrite layout_of_eq.
      apply N.eqb_eq in Hn1. rewrite Hn1, Hs1.
      destruct (Hft v Hn2 Hs2) as [E1 E2]. cbn [snd] in E1, E2. rewrite E1.
      replace (cur + 0 + size_of tg ft) with (cur + size_of tg ft) by lia.
      destruct (IHfs _ _ Hs3 Hn3) as [E3 E4]. rewrite E3.
      cbn [N.to_nat repeat app]. rewrite map_app. split; [reflexivity|].
      rewrite len_app, E2, E4. reflexivity.
  - destruct s as [| | |s]; try discriminate Hs. cbn [nopad has_sty mem_of flat] in *.
    now apply IH.
Qed.

Lemma bytes_of_flat tg t s : nopad tg t = true -> has_sty t s = true ->
  bytes_of tg t s = Some (flat tg t s).
Proof.
  intros Hn Hs. unfold bytes_of. destruct (flat_mem tg t s Hn Hs) as [-> _].
  apply map_opt_id_Some.
Qed.

Lemma len_flat tg t s : nopad tg t = true -> has_sty t s = true -> len (flat tg t s) = size_of tg t.
Proof. intros Hn Hs. now apply flat_mem. Qed.

Lemma firstn_app_len {A} (a b : list A) n : len a = n -> firstn (N.to_nat n) (a ++ b) = a.
Proof.
  intros H. replace (N.to_nat n) with (length a) by (unfold len in H; lia).
  rewrite firstn_app, Nat.sub_diag, firstn_all. cbn. now rewrite app_nil_r.
Qed.
Lemma skipn_app_len {A} (a b : list A) n : len a = n -> skipn (N.to_nat n) (a ++ b) = b.
Proof.
  intros H. replace (N.to_nat n) with (length a) by (unfold len in H; lia).
  rewrite skipn_app, Nat.sub_diag, skipn_all. reflexivity.
Qed.
Lemma len_firstn {A} (l : list A) n : n <= len l -> len (firstn (N.to_nat n) l) = n.
Proof. unfold len. intros H. rewrite firstn_length. lia. Qed.
Lemma len_skipn {A} (l : list A) n : len (skipn (N.to_nat n) l) = len l - n.
Proof. unfold len. rewrite skipn_length. lia. Qed.

(** decoding an encoding *)
Lemma chunks_flat_map tg p ns :
  chunks (length ns) (N.to_nat (psize p)) (flat_map (enc_prim tg p) ns) = map (enc_prim tg p) ns.
Proof.
  induction ns as [|n ns IH]; [reflexivity|]. cbn [length chunks flat_map map].
  rewrite firstn_app_len, skipn_app_len by apply len_enc_prim. now rewrite IH.
Qed.

Lemma from_bytes_flat tg t : forall s, nopad tg t = true -> has_sty t s = true ->
  from_bytes tg t (flat tg t s) = Some s.
Proof.
  induction t as [p|p n|l n al fs IH|t IH] using sty_ind'; intros s Hn Hs.
  - destruct s; try discriminate Hs. cbn [has_sty] in Hs. cbn [from_bytes flat].
    rewrite len_enc_prim, N.eqb_refl, dec_enc by assumption. reflexivity.
  - destruct s as [|ns| |]; try discriminate Hs. cbn [has_sty] in Hs.
    apply andb_true_iff in Hs. destruct Hs as [H1 H2]. apply N.eqb_eq in H1.
    cbn [from_bytes flat]. rewrite len_flat_map_enc, H1, N.eqb_refl.
    replace (N.to_nat n) with (length ns) by (unfold len in H1; lia).
    rewrite chunks_flat_map, map_map. do 2 f_equal.
    clear H1 Hn. induction ns as [|x ns IH]; [reflexivity|]. cbn [map forallb] in *.
    apply andb_true_iff in H2. destruct H2 as [H2 H3]. rewrite dec_enc, IH by assumption. reflexivity.
  - destruct s as [| |vs|]; try discriminate Hs.
    rewrite has_sty_struct in Hs. rewrite from_bytes_struct, flat_struct. rewrite nopad_struct in Hn.
    revert Hn. generalize (repr_c_align (map (fun nf => layout_of tg (snd nf)) fs)) as A.
    intros A Hn.
    assert (E : from_fields tg A 0 fs (flat_fields tg fs vs) = Some vs); [|now rewrite E].
    revert Hn. generalize 0 as cur. intros cur Hn. revert cur vs Hs Hn.
    induction IH as [|[f ft] fs Hft _ IHfs]; intros cur [|[g v] vs] Hs Hn; try discriminate Hs.
    + cbn [from_fields flat_fields nopad_fields] in *. apply N.eqb_eq in Hn. rewrite Hn. reflexivity.
    + cbn [fields_ok] in Hs. rewrite !andb_true_iff in Hs. destruct Hs as [[Hs1 Hs2] Hs3].
      cbn [nopad_fields] in Hn. rewrite !andb_true_iff in Hn. destruct Hn as [[Hn1 Hn2] Hn3].
      apply String.eqb_eq in Hs1. apply N.eqb_eq in Hn1. subst g.
      cbn [from_fields flat_fields]. rewrite layout_of_eq, Hn1.
      cbn [snd] in Hft.
      assert (L : len (flat tg ft v) = size_of tg ft) by (now apply len_flat).
      rewrite len_app, L.
      destruct (N.leb_spec (0 + size_of tg ft) (size_of tg ft + len (flat_fields tg fs vs))); [|lia].
      change (N.to_nat 0) with 0%nat. cbn [skipn].
      rewrite firstn_app_len, skipn_app_len by exact L.
      rewrite Hft by assumption.
      replace (cur + 0 + size_of tg ft) with (cur + size_of tg ft) by lia.
      rewrite IHfs by assumption. reflexivity.
  - destruct s as [| | |s]; try discriminate Hs. cbn [nopad has_sty from_bytes flat] in *.
    now rewrite IH.
Qed.

(** every byte string of the right length decodes, to a value that encodes to it *)
Lemma chunks_ok tg p : forall n bs, len bs = N.of_nat n * psize p ->
  let ns := map (dec_bytes tg) (chunks n (N.to_nat (psize p)) bs) in
  len ns = N.of_nat n /\ forallb (pbits_ok p) ns = true /\ flat_map (enc_prim tg p) ns = bs.
Proof.
  induction n as [|n IH]; intros bs H; cbn [chunks map].
  - assert (bs = []) as -> by (destruct bs; [reflexivity|rewrite len_cons in H; lia]).
    repeat split.
  - assert (L1 : len (firstn (N.to_nat (psize p)) bs) = psize p) by (apply len_firstn; lia).
    destruct (IH (skipn (N.to_nat (psize p)) bs)) as [E1 [E2 E3]].
    { rewrite len_skipn. lia. }
    cbv zeta. rewrite len_cons, E1. split; [lia|]. split.
    + cbn [forallb]. rewrite dec_ok by exact L1. exact E2.
    + cbn [flat_map]. rewrite E3, enc_dec by exact L1. apply firstn_skipn.
Qed.

Lemma from_bytes_total tg t : forall bs, nopad tg t = true -> len bs = size_of tg t ->
  exists s, from_bytes tg t bs = Some s /\ has_sty t s = true /\ flat tg t s = bs.
Proof.
  induction t as [p|p n|l n al fs IH|t IH] using sty_ind'; intros bs Hn Hl.
  - cbn [from_bytes]. unfold size_of in Hl. cbn [layout_of fst] in Hl.
    rewrite Hl, N.eqb_refl. eexists. split; [reflexivity|]. cbn [has_sty flat].
    split; [now apply dec_ok|now apply enc_dec].
  - cbn [from_bytes]. unfold size_of in Hl. cbn [layout_of fst] in Hl.
    rewrite Hl, N.eqb_refl. eexists. split; [reflexivity|]. cbn [has_sty flat].
    destruct (chunks_ok tg p (N.to_nat n) bs) as [E1 [E2 E3]]; [lia|].
    rewrite E2, E3, andb_true_r. split; [apply N.eqb_eq; lia|reflexivity].
  - rewrite nopad_size_of in Hl by assumption. rewrite from_bytes_struct.
    rewrite nopad_struct in Hn. revert Hn.
    generalize (repr_c_align (map (fun nf => layout_of tg (snd nf)) fs)) as A.
    intros A Hn.
    assert (E : exists vs, from_fields tg A 0 fs bs = Some vs
                /\ fields_ok fs vs = true /\ flat_fields tg fs vs = bs).
    { revert Hn. generalize 0 as cur. intros cur Hn. revert cur bs Hl Hn.
      induction IH as [|[f ft] fs Hft _ IHfs]; intros cur bs Hl Hn.
      - cbn [from_fields sizes nopad_fields] in *. apply N.eqb_eq in Hn. rewrite Hl, Hn.
        exists []. repeat split. destruct bs; [reflexivity|rewrite len_cons in Hl; lia].
      - cbn [nopad_fields] in Hn. rewrite !andb_true_iff in Hn. destruct Hn as [[Hn1 Hn2] Hn3].
        apply N.eqb_eq in Hn1. cbn [sizes] in Hl.
        cbn [from_fields]. rewrite layout_of_eq, Hn1.
        destruct (N.leb_spec (0 + size_of tg ft) (len bs)); [|lia].
        change (N.to_nat 0) with 0%nat. cbn [skipn].
        cbn [snd] in Hft.
        destruct (Hft (firstn (N.to_nat (size_of tg ft)) bs) Hn2) as [v [E1 [E2 E3]]].
        { apply len_firstn. lia. }
        destruct (IHfs (cur + size_of tg ft) (skipn (N.to_nat (size_of tg ft)) bs)) as [vs [E4 [E5 E6]]].
        { rewrite len_skipn. lia. }
        { assumption. }
        replace (cur + 0 + size_of tg ft) with (cur + size_of tg ft) by lia.
        rewrite E1, E4. eexists. split; [reflexivity|]. cbn [fields_ok flat_fields].
        rewrite String.eqb_refl, E2, E5, E3, E6. split; [reflexivity|apply firstn_skipn]. }
    destruct E as [vs [E1 [E2 E3]]]. rewrite E1. eexists. split; [reflexivity|].
    rewrite has_sty_struct, flat_struct. split; assumption.
  - cbn [nopad] in Hn. destruct (IH bs Hn) as [s [E1 [E2 E3]]]; [exact Hl|].
    cbn [from_bytes]. rewrite E1. exists (SNew s). repeat split; assumption.
Qed.

Lemma bytes_of_typed tg t : forall s bs, bytes_of tg t s = Some bs -> has_sty t s = true.
Proof.
  unfold bytes_of. intros s bs H.
  destruct (mem_of tg t s) as [m|] eqn:E; [|discriminate]. clear H bs.
  revert s m E. induction t as [p|p n|l n al fs IH|t IH] using sty_ind'; intros s m E.
  - destruct s; try discriminate E. cbn [mem_of has_sty] in *.
    destruct (pbits_ok p n); [reflexivity|discriminate].
  - destruct s; try discriminate E. cbn [mem_of has_sty] in *.
    destruct (_ && _); [reflexivity|discriminate].
  - destruct s as [| |vs|]; try discriminate E. rewrite mem_of_struct in E. rewrite has_sty_struct.
    revert E. generalize (repr_c_align (map (fun nf => layout_of tg (snd nf)) fs)) as A.
    generalize 0 as cur. intros cur A E. revert cur vs m E.
    induction IH as [|[f ft] fs Hft _ IHfs]; intros cur [|[g v] vs] m E; try discriminate E; [reflexivity|].
    cbn [mem_fields] in E. destruct (layout_of tg ft) as [sz fal]. cbn [fields_ok].
    destruct (String.eqb f g); [|discriminate].
    destruct (mem_of tg ft v) as [m1|] eqn:E1; [|discriminate].
    destruct (mem_fields _ _ _ _ _) as [r|] eqn:E2; [|discriminate].
    apply Hft in E1. cbn [snd] in E1. apply IHfs in E2. rewrite E1, E2. reflexivity.
  - destruct s as [| | |s]; try discriminate E. cbn [mem_of has_sty] in *. eauto.
Qed.

Lemma has_sty_zeroed t : has_sty t (zeroed t) = true.
Proof.
  induction t as [p|p n|l n al fs IH|t IH] using sty_ind'.
  - cbn [zeroed has_sty]. unfold pbits_ok. apply N.ltb_lt.
    apply N.neq_0_lt_0. apply N.pow_nonzero. lia.
  - cbn [zeroed has_sty]. rewrite len_repeat, N2Nat.id, N.eqb_refl. cbn [andb].
    apply forallb_forall. intros x Hx. apply repeat_spec in Hx. subst.
    unfold pbits_ok. apply N.ltb_lt. apply N.neq_0_lt_0. apply N.pow_nonzero. lia.
  - cbn [zeroed]. rewrite has_sty_struct.
    induction IH as [|[f ft] fs Hft _ IHfs]; [reflexivity|].
    cbn [map fields_ok fst snd]. rewrite String.eqb_refl, IHfs, andb_true_r. exact Hft.
  - exact IH.
Qed.

Lemma repeat_app_same {A} (x : A) a b : repeat x a ++ repeat x b = repeat x (a + b).
Proof. symmetry. apply repeat_app. Qed.

Lemma flat_zeroed tg t : nopad tg t = true -> flat tg t (zeroed t) = repeat x00 (N.to_nat (size_of tg t)).
Proof.
  induction t as [p|p n|l n al fs IH|t IH] using sty_ind'; intros Hn.
  - cbn [zeroed flat]. apply enc_prim_0.
  - cbn [zeroed flat]. unfold size_of. cbn [layout_of fst].
    rewrite N2Nat.inj_mul. induction (N.to_nat n) as [|k IHk]; [reflexivity|].
    cbn [repeat flat_map]. rewrite IHk, enc_prim_0, repeat_app_same. f_equal.
  - cbn [zeroed]. rewrite nopad_size_of by assumption. rewrite flat_struct.
    rewrite nopad_struct in Hn. revert Hn.
    generalize (repr_c_align (map (fun nf => layout_of tg (snd nf)) fs)) as A.
    generalize 0 as cur. intros cur A Hn. revert cur Hn.
    induction IH as [|[f ft] fs Hft _ IHfs]; intros cur Hn; [reflexivity|].
    cbn [nopad_fields] in Hn. rewrite !andb_true_iff in Hn. destruct Hn as [[Hn1 Hn2] Hn3].
    cbn [map flat_fields fst snd sizes]. cbn [snd] in Hft. rewrite Hft by assumption.
    rewrite (IHfs _ Hn3), repeat_app_same. f_equal. lia.
  - cbn [nopad zeroed flat] in *. now apply IH.
Qed.
