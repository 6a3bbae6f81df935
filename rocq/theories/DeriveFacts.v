(** * Facts about the derive macro *)

From Coq Require Import NArith String Ascii Bool List Lia ZArith.
From Coq Require Import ZifyBool ZifyN ZifyNat.
From Coq Require Import DecimalString DecimalNat.
From Verif Require Import Rust Internal Prims Derive SpecGlsl Arith RustFacts.
Import ListNotations.
Local Open Scope string_scope.
Local Open Scope N_scope.

(** ** Names *)

Lemma append_inj_l (p : string) : forall a b, p ++ a = p ++ b -> a = b.
Proof.
  induction p as [|c p IH]; intros a b H; [exact H|].
  cbn [append] in H. injection H as H. now apply IH.
Qed.

Lemma dec_inj i j : dec i = dec j -> i = j.
Proof.
  unfold dec. intros H.
  assert (E : NilEmpty.uint_of_string (NilEmpty.string_of_uint (Nat.to_uint i))
              = NilEmpty.uint_of_string (NilEmpty.string_of_uint (Nat.to_uint j))) by now rewrite H.
  rewrite !NilEmpty.usu in E. injection E as E. now apply DecimalNat.Unsigned.to_uint_inj.
Qed.

Lemma pad_fn_name_inj l n i j : pad_fn_name l n i = pad_fn_name l n j -> i = j.
Proof.
  unfold pad_fn_name. intros H.
  do 5 apply append_inj_l in H. now apply dec_inj.
Qed.

Lemma pad_field_name_inj i j : pad_field_name i = pad_field_name j -> i = j.
Proof. unfold pad_field_name. intros H. apply append_inj_l in H. now apply dec_inj. Qed.

(** *** decimal digits at the end of a name *)

Definition is_digit (c : ascii) : bool :=
  let n := nat_of_ascii c in Nat.leb 48 n && Nat.leb n 57.

Fixpoint all_digits (s : string) : bool :=
  match s with
  | EmptyString => true
  | String c r => is_digit c && all_digits r
  end.

Lemma dec_digits i : all_digits (dec i) = true.
Proof.
  unfold dec. induction (Nat.to_uint i) as [|u IH|u IH|u IH|u IH|u IH|u IH|u IH|u IH|u IH|u IH];
    cbn [NilEmpty.string_of_uint all_digits]; [reflexivity|..]; rewrite IH; reflexivity.
Qed.

Lemma digits_suffix c : is_digit c = false -> forall a b x y,
  all_digits x = true -> all_digits y = true ->
  a ++ String c x = b ++ String c y -> a = b /\ x = y.
Proof.
  intros Hc. induction a as [|d a IH]; intros [|e b] x y Hx Hy H; cbn [append] in H.
  - injection H as H. now split.
  - exfalso. injection H as -> H. subst x. clear Hy.
    induction b as [|f b IHb]; cbn [append all_digits] in Hx.
    + rewrite Hc in Hx. discriminate.
    + apply andb_true_iff in Hx. apply IHb, Hx.
  - exfalso. injection H as -> H. subst y. clear Hx IH.
    induction a as [|f a IHb]; cbn [append all_digits] in Hy.
    + rewrite Hc in Hy. discriminate.
    + apply andb_true_iff in Hy. apply IHb, Hy.
  - injection H as -> H. destruct (IH b x y Hx Hy H) as [-> ->]. now split.
Qed.

Lemma append_assoc (a b c : string) : (a ++ b) ++ c = a ++ (b ++ c).
Proof. induction a as [|d a IH]; cbn [append]; [reflexivity|now rewrite IH]. Qed.

Lemma append_inj_r : forall a b p, a ++ p = b ++ p -> a = b.
Proof.
  assert (L : forall a b, String.length (a ++ b) = (String.length a + String.length b)%nat).
  { induction a as [|c a IH]; intros b; cbn [append String.length]; [reflexivity|now rewrite IH]. }
  induction a as [|c a IH]; intros [|d b] p H; cbn [append] in H.
  - reflexivity.
  - apply (f_equal String.length) in H. cbn [String.length] in H. rewrite L in H. lia.
  - apply (f_equal String.length) in H. cbn [String.length] in H. rewrite L in H. lia.
  - injection H as -> H. apply IH in H. now subst.
Qed.

Lemma append_inj_r_len : forall a b p q, String.length p = String.length q -> a ++ p = b ++ q -> a = b /\ p = q.
Proof.
  assert (L : forall a b, String.length (a ++ b) = (String.length a + String.length b)%nat).
  { induction a as [|c a IH]; intros b; cbn [append String.length]; [reflexivity|now rewrite IH]. }
  induction a as [|c a IH]; intros [|d b] p q Hl H; cbn [append] in H.
  - now split.
  - apply (f_equal String.length) in H. cbn [String.length] in H. rewrite L in H. lia.
  - apply (f_equal String.length) in H. cbn [String.length] in H. rewrite L in H. lia.
  - injection H as -> H. destruct (IH b p q Hl H) as [-> ->]. now split.
Qed.

Lemma pad_fn_name_full_inj l n i l' n' i' :
  pad_fn_name l n i = pad_fn_name l' n' i' -> l = l' /\ n = n' /\ i = i'.
Proof.
  unfold pad_fn_name. intros H. apply (append_inj_l "_") in H.
  replace (n ++ "__" ++ trait_name l ++ "Pad" ++ dec i)
    with ((n ++ "__" ++ trait_name l ++ "Pa") ++ String "d"%char (dec i)) in H
    by (now rewrite !append_assoc).
  replace (n' ++ "__" ++ trait_name l' ++ "Pad" ++ dec i')
    with ((n' ++ "__" ++ trait_name l' ++ "Pa") ++ String "d"%char (dec i')) in H
    by (now rewrite !append_assoc).
  apply digits_suffix in H; [|reflexivity|apply dec_digits|apply dec_digits].
  destruct H as [H1 H2]. apply dec_inj in H2.
  apply append_inj_r_len in H1; [|destruct l, l'; reflexivity].
  destruct H1 as [H1 H3]. destruct l, l'; try discriminate H3; auto.
Qed.

Lemma generated_name_inj l n l' n' : trait_name l ++ n = trait_name l' ++ n' -> l = l' /\ n = n'.
Proof.
  destruct l, l'; cbn; intros H; injection H as H; split; congruence.
Qed.

(** ** Closed form of the padding *)

(** alignment of a field type, 0 if it has none *)
Definition alN (l : lay) (t : sty) : N := match std_align l t with Some a => a | None => 0 end.

(** alignment of the generated struct *)
Definition struct_al (l : lay) (fields : list (string * sty)) : N :=
  fold_right N.max 0 (min_struct_alignment l :: map (fun f => alN l (snd f)) fields).

Section Closed.
  Variables (tg : target) (l : lay) (fields : list (string * sty)).

  Definition ty_at (k : nat) : sty :=
    match nth_error fields k with Some f => snd f | None => TArray PU8 0 end.
  Definition next_al (k : nat) : N :=
    match nth_error fields (k + 1) with Some f => alN l (snd f) | None => struct_al l fields end.

  (** offset of field [k] *)
  Fixpoint start (k : nat) : N :=
    match k with
    | O => 0
    | S j => start j + size_of tg (ty_at j) + align_offset (start j + size_of tg (ty_at j)) (next_al j)
    end.
  Definition fend (k : nat) : N := start k + size_of tg (ty_at k).
  Definition pad (k : nat) : N := align_offset (fend k) (next_al k).

  Lemma start_S k : start (S k) = fend k + pad k.
  Proof. reflexivity. Qed.
  Lemma start_mono k : start k <= start (S k).
  Proof. rewrite start_S. unfold fend. lia. Qed.
  Lemma start_mono_le j k : (j <= k)%nat -> start j <= start k.
  Proof.
    induction 1 as [|k H IH]; [lia|]. pose proof (start_mono k). lia.
  Qed.
End Closed.

(** ** The token streams built by the macro *)

Section Emit.
  Variables (l : lay) (name : string) (fields : list (string * sty)).
  Let n := length fields.
  Let pad_fns := map (pad_fn_name l name) (seq 0 n).

  Fixpoint prefix_expr (k : nat) : cexpr :=
    match k with
    | O => CLit 0
    | S j => CAdd (CAdd (prefix_expr j) (CSizeOf (ty_at fields j))) (CCall (pad_fn_name l name j))
    end.

  Lemma pad_fns_nth k : (k < n)%nat -> nth_error pad_fns k = Some (pad_fn_name l name k).
  Proof.
    intros H. unfold pad_fns. rewrite nth_error_map.
    rewrite (nth_error_nth' (seq 0 n) 0%nat) by (now rewrite seq_length).
    rewrite seq_nth by assumption. reflexivity.
  Qed.

  Lemma fields_nth k : (k < n)%nat -> exists f, nth_error fields k = Some (f, ty_at fields k).
  Proof.
    intros H. unfold ty_at. destruct (nth_error fields k) as [[f t]|] eqn:E.
    - exists f. reflexivity.
    - apply nth_error_None in E. unfold n in H. lia.
  Qed.

  Lemma offset_after_loop_eq target : (target < n)%nat -> forall m k, (k + m = target)%nat ->
    offset_after_loop fields pad_fns target (seq k (S m)) (prefix_expr k)
    = Some (CAdd (prefix_expr target) (CSizeOf (ty_at fields target))).
  Proof.
    intros Ht. induction m as [|m IH]; intros k Hk.
    - assert (k = target) by lia. subst k. cbn [seq offset_after_loop].
      destruct (fields_nth target Ht) as [f ->]. rewrite Nat.ltb_irrefl. reflexivity.
    - change (seq k (S (S m))) with (k :: seq (S k) (S m)). cbn [offset_after_loop].
      destruct (fields_nth k ltac:(lia)) as [f ->].
      destruct (Nat.ltb_spec k target); [|lia].
      rewrite (pad_fns_nth k) by lia.
      change (CAdd (CAdd (prefix_expr k) (CSizeOf (ty_at fields k))) (CCall (pad_fn_name l name k)))
        with (prefix_expr (S k)).
      apply IH. lia.
  Qed.

  Definition pad_body (k : nat) : cexpr :=
    CAlignOffset (CAdd (prefix_expr k) (CSizeOf (ty_at fields k)))
      (match nth_error fields (k + 1) with
       | Some f => CAlignOf (snd f)
       | None => struct_alignment l fields
       end).

  Lemma pad_fn_impl_eq k : (k < n)%nat -> pad_fn_impl l fields pad_fns k = Some (pad_body k).
  Proof.
    intros Hk. unfold pad_fn_impl, offset_after_field.
    change (CLit 0) with (prefix_expr 0).
    rewrite (offset_after_loop_eq k Hk k 0) by lia. reflexivity.
  Qed.

  Lemma pad_bodies_eq :
    map_opt (pad_fn_impl l fields pad_fns) (seq 0 n) = Some (map pad_body (seq 0 n)).
  Proof.
    apply map_opt_Forall2. assert (H : forall k, In k (seq 0 n) -> (k < n)%nat).
    { intros k Hk. apply in_seq in Hk. lia. }
    revert H. generalize (seq 0 n) as ks. induction ks as [|k ks IH]; intros H; cbn [map]; constructor.
    - apply pad_fn_impl_eq. apply H. now left.
    - apply IH. intros j Hj. apply H. now right.
  Qed.

  Fixpoint gen_gfields (idx : nat) (fs : list (string * sty)) : list (string * gfield) :=
    match fs with
    | [] => []
    | (f, t) :: r =>
      (f, GOut t) :: (pad_field_name idx, GPad (CCall (pad_fn_name l name idx)))
        :: gen_gfields (S idx) r
    end.

  Lemma struct_fields_loop_eq fs : forall idx, (idx + length fs = n)%nat ->
    struct_fields_loop pad_fns idx fs = Some (gen_gfields idx fs).
  Proof.
    induction fs as [|[f t] fs IH]; intros idx H; [reflexivity|].
    cbn [length] in H. cbn [struct_fields_loop gen_gfields].
    rewrite pad_fns_nth by lia. rewrite IH by lia. reflexivity.
  Qed.

  Definition pad_env : list (string * cexpr) :=
    map (fun k => (pad_fn_name l name k, pad_body k)) (seq 0 n).

  Lemma combine_map {A B C} (f : A -> B) (g : A -> C) (xs : list A) :
    combine (map f xs) (map g xs) = map (fun x => (f x, g x)) xs.
  Proof. induction xs as [|x xs IH]; [reflexivity|]. cbn [map combine]. now rewrite IH. Qed.

  Lemma emit_eq generics :
    emit l (DeriveInput name generics (DNamed fields)) =
    Some {| g_pads := pad_env;
            g_name := trait_name l ++ name;
            g_generics := generics;
            g_fields := gen_gfields 0 fields;
            g_align := struct_alignment l fields;
            g_output := (trait_name l ++ name, []);
            g_inits := map fst fields;
            g_from := map fst fields |}.
  Proof.
    unfold emit. cbn [di_data di_ident di_generics].
    fold n. fold pad_fns. rewrite pad_bodies_eq, struct_fields_loop_eq by reflexivity.
    unfold pad_fns. rewrite combine_map. reflexivity.
  Qed.

  Lemma derive_inits_eq : derive_inits l name fields = map fst fields.
  Proof. unfold derive_inits. now rewrite emit_eq. Qed.
  Lemma derive_from_eq : derive_from l name fields = map fst fields.
  Proof. unfold derive_from. now rewrite emit_eq. Qed.

  Lemma NoDup_map_inj {A B} (f : A -> B) (xs : list A) :
    (forall x y, f x = f y -> x = y) -> NoDup xs -> NoDup (map f xs).
  Proof.
    intros Hf. induction 1 as [|x xs Hx Hn IH]; cbn [map]; constructor; [|assumption].
    intros Hin. apply in_map_iff in Hin. destruct Hin as [y [E Hy]]. apply Hf in E. now subst.
  Qed.

  Lemma pad_env_assoc k : (k < n)%nat -> assoc (pad_fn_name l name k) pad_env = Some (pad_body k).
  Proof.
    intros H. apply assoc_nodup.
    - unfold pad_env. rewrite map_map. cbn [fst]. apply NoDup_map_inj.
      + intros x y. apply pad_fn_name_inj.
      + apply seq_NoDup.
    - unfold pad_env. apply in_map_iff. exists k. split; [reflexivity|]. apply in_seq. lia.
  Qed.
End Emit.

(** ** Const evaluation *)

Section Eval.
  Variables (tg : target) (l : lay) (name : string) (fields : list (string * sty)).
  Let n := length fields.
  Let env := pad_env l name fields.

  Definition checked (x : N) (v : N) : cres := if x <? umod tg then CVal v else COverflow.

  Definition all_aligned : Prop := Forall (fun f => exists a, std_align l (snd f) = Some a) fields.

  Fixpoint ceval_list (fuel : nat) (es : list cexpr) (k : list N -> cres) : cres :=
    match es with
    | [] => k []
    | e :: es' => cbind (ceval tg l env fuel e) (fun x => ceval_list fuel es' (fun xs => k (x :: xs)))
    end.

  Lemma ceval_CMaxArr fuel es :
    ceval tg l env fuel (CMaxArr es)
    = ceval_list fuel es (fun xs => match max_arr xs with Some m => CVal m | None => CUnresolved end).
  Proof.
    destruct fuel as [|fuel].
    - unfold ceval. fold (ceval tg l env 0).
      match goal with |- _ ?k0 = _ => generalize k0 as k end.
      induction es as [|e es IH]; intros k; [reflexivity|]. cbn [ceval_list].
      destruct (ceval tg l env 0 e); try reflexivity. cbn [cbind]. apply IH.
    - change (ceval tg l env (S fuel) (CMaxArr es)) with
        ((fix evs (es : list cexpr) (k : list N -> cres) {struct es} : cres :=
            match es with
            | [] => k []
            | e :: es' => cbind (ceval tg l env (S fuel) e) (fun x => evs es' (fun xs => k (x :: xs)))
            end) es (fun xs => match max_arr xs with Some m => CVal m | None => CUnresolved end)).
      match goal with |- _ ?k0 = _ => generalize k0 as k end.
      induction es as [|e es IH]; intros k; [reflexivity|]. cbn [ceval_list].
      destruct (ceval tg l env (S fuel) e); try reflexivity. cbn [cbind]. apply IH.
  Qed.

  Lemma ceval_list_aligns fuel fs k :
    Forall (fun f => exists a, std_align l (snd f) = Some a) fs ->
    ceval_list fuel (map (fun f : string * sty => CAlignOf (snd f)) fs) k = k (map (fun f => alN l (snd f)) fs).
  Proof.
    intros H. revert k. induction H as [|f fs [a Ha] _ IH]; intros k; [reflexivity|].
    cbn [map ceval_list].
    replace (ceval tg l env fuel (CAlignOf (snd f))) with (CVal a)
      by (destruct fuel; cbn [ceval]; now rewrite Ha).
    cbn [cbind]. rewrite IH. unfold alN at 2. rewrite Ha. reflexivity.
  Qed.

  Lemma ceval_struct_alignment fuel : all_aligned ->
    ceval tg l env fuel (struct_alignment l fields) = CVal (struct_al l fields).
  Proof.
    intros H. unfold struct_alignment. rewrite ceval_CMaxArr. cbn [ceval_list].
    replace (ceval tg l env fuel (CLit (min_struct_alignment l))) with (CVal (min_struct_alignment l))
      by (destruct fuel; reflexivity).
    cbn [cbind]. rewrite ceval_list_aligns by exact H. rewrite max_arr_spec. reflexivity.
  Qed.

  Lemma ceval_list_unaligned fuel fs k :
    ~ Forall (fun f => exists a, std_align l (snd f) = Some a) fs ->
    exists e, ceval_list fuel (map (fun f : string * sty => CAlignOf (snd f)) fs) k = e /\ e = CUnresolved.
  Proof.
    revert k. induction fs as [|f fs IH]; intros k H; [exfalso; apply H; constructor|].
    cbn [map ceval_list].
    destruct (std_align l (snd f)) as [a|] eqn:E.
    - replace (ceval tg l env fuel (CAlignOf (snd f))) with (CVal a)
        by (destruct fuel; cbn [ceval]; now rewrite E).
      cbn [cbind]. apply IH. intros Hf. apply H. constructor; eauto.
    - replace (ceval tg l env fuel (CAlignOf (snd f))) with CUnresolved
        by (destruct fuel; cbn [ceval]; now rewrite E).
      cbn [cbind]. eauto.
  Qed.

  Lemma ceval_struct_alignment_unaligned fuel : ~ all_aligned ->
    ceval tg l env fuel (struct_alignment l fields) = CUnresolved.
  Proof.
    intros H. unfold struct_alignment. rewrite ceval_CMaxArr. cbn [ceval_list].
    replace (ceval tg l env fuel (CLit (min_struct_alignment l))) with (CVal (min_struct_alignment l))
      by (destruct fuel; reflexivity).
    cbn [cbind].
    match goal with |- ceval_list _ _ ?k = _ => destruct (ceval_list_unaligned fuel fields k H) as [e [-> ->]] end.
    reflexivity.
  Qed.

  Lemma all_aligned_nth k f : all_aligned -> nth_error fields k = Some f -> std_align l (snd f) = Some (alN l (snd f)).
  Proof.
    intros H E. apply nth_error_In in E. apply (proj1 (Forall_forall _ _) H) in E. destruct E as [a E].
    unfold alN. now rewrite E.
  Qed.

  (** equations of [ceval] that do not depend on the fuel's shape *)
  Lemma ceval_CAdd fuel a b : ceval tg l env fuel (CAdd a b)
    = cbind (ceval tg l env fuel a) (fun x => cbind (ceval tg l env fuel b) (fun y =>
        if x + y <? umod tg then CVal (x + y) else COverflow)).
  Proof. destruct fuel; reflexivity. Qed.
  Lemma ceval_CSizeOf fuel t : ceval tg l env fuel (CSizeOf t) = CVal (size_of tg t).
  Proof. destruct fuel; reflexivity. Qed.
  Lemma ceval_CAlignOffset fuel a b : ceval tg l env fuel (CAlignOffset a b)
    = cbind (ceval tg l env fuel a) (fun x => cbind (ceval tg l env fuel b) (fun y =>
        CVal (align_offset x y))).
  Proof. destruct fuel; reflexivity. Qed.
  Lemma ceval_CAlignOf fuel t : ceval tg l env fuel (CAlignOf t)
    = match std_align l t with Some a => CVal a | None => CUnresolved end.
  Proof. destruct fuel; reflexivity. Qed.
  Lemma ceval_CCall fuel k : (k < n)%nat ->
    ceval tg l env (S fuel) (CCall (pad_fn_name l name k)) = ceval tg l env fuel (pad_body l name fields k).
  Proof.
    intros H. cbn [ceval]. unfold env. rewrite pad_env_assoc by exact H. reflexivity.
  Qed.

  Let st := start tg l fields.
  Let fe := fend tg l fields.

  Hypothesis Hal : all_aligned.
  Hypothesis Hpos : 0 < umod tg.

  Lemma ceval_prefix : forall k fuel, (k <= fuel)%nat -> (k <= n)%nat ->
    ceval tg l env fuel (prefix_expr l name fields k) = checked (st k) (st k).
  Proof.
    induction k as [k IHk] using (well_founded_induction lt_wf). intros fuel Hf Hn.
    destruct k as [|j].
    - cbn [prefix_expr]. destruct fuel; cbn [ceval]; unfold checked; cbn [st];
        change (st 0) with 0; destruct (N.ltb_spec 0 (umod tg)); (reflexivity || lia).
    - cbn [prefix_expr]. rewrite !ceval_CAdd, ceval_CSizeOf.
      rewrite (IHk j) by lia. unfold checked at 1.
      pose proof (start_mono tg l fields j) as Hm. fold st in Hm.
      destruct (N.ltb_spec (st j) (umod tg)) as [H1|H1].
      2:{ cbn [cbind]. unfold checked. destruct (N.ltb_spec (st (S j)) (umod tg)); [lia|reflexivity]. }
      cbn [cbind].
      assert (Hs : st (S j) = fe j + pad tg l fields j) by reflexivity.
      change (st j + size_of tg (ty_at fields j)) with (fe j).
      destruct (N.ltb_spec (fe j) (umod tg)) as [H2|H2].
      2:{ cbn [cbind]. unfold checked. destruct (N.ltb_spec (st (S j)) (umod tg)); [lia|reflexivity]. }
      cbn [cbind].
      destruct fuel as [|fuel]; [lia|].
      rewrite ceval_CCall by lia. unfold pad_body.
      rewrite ceval_CAlignOffset, ceval_CAdd, ceval_CSizeOf, (IHk j) by lia.
      unfold checked. destruct (N.ltb_spec (st j) (umod tg)); [|lia]. cbn [cbind].
      change (st j + size_of tg (ty_at fields j)) with (fe j).
      destruct (N.ltb_spec (fe j) (umod tg)); [|lia]. cbn [cbind].
      assert (E : ceval tg l env fuel
                    match nth_error fields (j + 1) with
                    | Some f => CAlignOf (snd f)
                    | None => struct_alignment l fields
                    end = CVal (next_al l fields j)).
      { unfold next_al. destruct (nth_error fields (j + 1)) as [f|] eqn:E.
        - rewrite ceval_CAlignOf, (all_aligned_nth _ _ Hal E). reflexivity.
        - now apply ceval_struct_alignment. }
      rewrite E. cbn [cbind]. rewrite Hs. reflexivity.
  Qed.

  Lemma ceval_pad k fuel : (k < fuel)%nat -> (k < n)%nat ->
    ceval tg l env fuel (CCall (pad_fn_name l name k)) = checked (fe k) (pad tg l fields k).
  Proof.
    intros Hf Hn. destruct fuel as [|fuel]; [lia|].
    rewrite ceval_CCall by lia. unfold pad_body.
    rewrite ceval_CAlignOffset, ceval_CAdd, ceval_CSizeOf, ceval_prefix by lia.
    unfold checked. assert (st k <= fe k) by (unfold fe, fend, st; lia).
    destruct (N.ltb_spec (st k) (umod tg)).
    2:{ cbn [cbind]. destruct (N.ltb_spec (fe k) (umod tg)); [lia|reflexivity]. }
    cbn [cbind]. change (st k + size_of tg (ty_at fields k)) with (fe k).
    destruct (N.ltb_spec (fe k) (umod tg)); [|reflexivity]. cbn [cbind].
    assert (E : ceval tg l env fuel
                  match nth_error fields (k + 1) with
                  | Some f => CAlignOf (snd f)
                  | None => struct_alignment l fields
                  end = CVal (next_al l fields k)).
    { unfold next_al. destruct (nth_error fields (k + 1)) as [f|] eqn:E.
      - rewrite ceval_CAlignOf, (all_aligned_nth _ _ Hal E). reflexivity.
      - now apply ceval_struct_alignment. }
    rewrite E. reflexivity.
  Qed.
End Eval.

(** ** The generated struct in closed form *)

Fixpoint gen_fields (tg : target) (l : lay) (fin : N) (idx : nat) (cur : N)
    (fs : list (string * sty)) : list (string * sty) :=
  match fs with
  | [] => []
  | (f, t) :: r =>
    let e := cur + size_of tg t in
    let p := align_offset e (match r with (_, u) :: _ => alN l u | [] => fin end) in
    (f, t) :: (pad_field_name idx, TArray PU8 p) :: gen_fields tg l fin (S idx) (e + p) r
  end.

Lemma gen_names tg l fin fs : forall idx cur cur' l' name,
  map fst (gen_fields tg l fin idx cur fs) = map fst (gen_gfields l' name idx fs) /\
  map fst (gen_fields tg l fin idx cur fs) = map fst (gen_fields tg l' 0 idx cur' fs).
Proof.
  induction fs as [|[f t] fs IH]; intros idx cur cur' l' name; [split; reflexivity|].
  cbn [gen_fields gen_gfields map fst].
  edestruct IH as [E1 E2]. split; do 2 f_equal; [exact E1|exact E2].
Qed.

Lemma gen_suffix tg l fields : forall suf pre, fields = (pre ++ suf)%list ->
  forall k, k = length pre ->
  forall g, (g = gen_fields tg l (struct_al l fields) k (start tg l fields k) suf) ->
  sizes tg g + start tg l fields k = start tg l fields (length fields)
  /\ (forall name fuel, all_aligned l fields -> 0 < umod tg -> (length fields <= fuel)%nat ->
       map_opt (eval_field tg l (pad_env l name fields) fuel) (gen_gfields l name k suf)
       = if forallb (fun j => fend tg l fields j <? umod tg) (seq k (length suf)) then Some g else None).
Proof.
  induction suf as [|[f t] suf IH]; intros pre Hf k Hk g Hg.
  - subst. cbn [gen_fields sizes length seq forallb gen_gfields].
    rewrite app_nil_r. split; [lia|]. intros. reflexivity.
  - assert (Hn : nth_error fields k = Some (f, t)).
    { subst. rewrite nth_error_app2, Nat.sub_diag by lia. reflexivity. }
    assert (Hlen : (k < length fields)%nat) by (subst; rewrite app_length; cbn [length]; lia).
    assert (Ht : ty_at fields k = t) by (unfold ty_at; now rewrite Hn).
    assert (Hnext : match suf with (_, u) :: _ => alN l u | [] => struct_al l fields end = next_al l fields k).
    { unfold next_al. subst. rewrite nth_error_app2 by lia.
      replace (length pre + 1 - length pre)%nat with 1%nat by lia. cbn [nth_error].
      destruct suf as [|[f' u] suf']; reflexivity. }
    cbn [gen_fields] in Hg. rewrite Hnext in Hg.
    assert (He : start tg l fields k + size_of tg t = fend tg l fields k) by (unfold fend; now rewrite Ht).
    rewrite He in Hg. change (align_offset (fend tg l fields k) (next_al l fields k)) with (pad tg l fields k) in Hg.
    change (fend tg l fields k + pad tg l fields k) with (start tg l fields (S k)) in Hg.
    destruct (IH (pre ++ [(f, t)])%list) with (k := S k) (g := gen_fields tg l (struct_al l fields) (S k) (start tg l fields (S k)) suf) as [E1 E2].
    { now rewrite <- app_assoc. }
    { rewrite app_length. cbn [length]. lia. }
    { reflexivity. }
    split.
    + subst g. cbn [sizes]. rewrite <- E1.
      replace (size_of tg (TArray PU8 (pad tg l fields k))) with (pad tg l fields k)
        by (unfold size_of; cbn [layout_of fst psize]; lia).
      rewrite (start_S tg l fields k). lia.
    + intros name fuel Hal Hpos Hfuel. cbn [gen_gfields]. rewrite !map_opt_cons.
      replace (eval_field tg l (pad_env l name fields) fuel (f, GOut t)) with (Some (f, t)) by reflexivity.
      unfold eval_field at 1. cbn [snd fst].
      rewrite ceval_pad by (try assumption; lia). unfold checked.
      cbn [length seq forallb].
      destruct (N.ltb_spec (fend tg l fields k) (umod tg)) as [H|H].
      2:{ reflexivity. }
      cbn [andb]. rewrite E2 by assumption.
      destruct (forallb _ _); [|reflexivity]. subst g. reflexivity.
Qed.

Definition derived_fields tg l fields := gen_fields tg l (struct_al l fields) 0 0 fields.

Definition derived tg l name fields : sty :=
  TStruct l (trait_name l ++ name) (struct_al l fields) (derived_fields tg l fields).

Lemma repr_c_end_ge tg fs : forall cur, cur + sizes tg fs <= repr_c_end cur (map (fun nf => layout_of tg (snd nf)) fs).
Proof.
  induction fs as [|[f t] fs IH]; intros cur; cbn [sizes map repr_c_end snd]; [lia|].
  rewrite layout_of_eq. specialize (IH (cur + padding_needed_for cur (align_of tg t) + size_of tg t)). lia.
Qed.

Lemma size_of_ge_sizes tg l n al fs : sizes tg fs <= size_of tg (TStruct l n al fs).
Proof.
  unfold size_of. cbn [layout_of fst]. unfold repr_c_size.
  pose proof (repr_c_end_ge tg fs 0). lia.
Qed.

Lemma fend_le_start tg l fields k : (k < length fields)%nat -> fend tg l fields k <= start tg l fields (length fields).
Proof.
  intros H. pose proof (start_mono_le tg l fields (S k) (length fields) ltac:(lia)) as E.
  rewrite start_S in E. lia.
Qed.

Lemma target_umod tg : target_ok tg = true -> t_obj tg < umod tg /\ 65536 <= umod tg.
Proof.
  unfold target_ok, umod. rewrite !andb_true_iff. intros [[[_ _] H1] H2].
  apply N.leb_le in H1, H2. split.
  - assert (2 ^ (t_bits tg - 1) < 2 ^ t_bits tg) by (apply N.pow_lt_mono_r; lia). lia.
  - change 65536 with (2 ^ 16). apply N.pow_le_mono_r; lia.
Qed.

Lemma forallb_Forall_eq {A} (f : A -> bool) l : forallb f l = true <-> Forall (fun x => f x = true) l.
Proof. rewrite forallb_forall, Forall_forall. reflexivity. Qed.

Lemma gen_gfields_debug l name fields : forall i,
  forallb field_debug (gen_gfields l name i fields) = forallb (fun f => impl_debug (snd f)) fields.
Proof.
  induction fields as [|[f u] fields IH]; intros i; [reflexivity|].
  cbn [gen_gfields forallb field_debug snd]. now rewrite IH.
Qed.

(** exactly when and what the derive macro produces *)
Theorem derive_output_iff tg l name fields t : target_ok tg = true ->
  (derive_output tg l name fields = Some t <->
   all_aligned l fields
   /\ NoDup (map fst (derived_fields tg l fields))
   /\ t = derived tg l name fields
   /\ size_of tg t < t_obj tg
   /\ Forall (fun f => impl_debug (snd f) = true) fields).
Proof.
  intros Htg. destruct (target_umod tg Htg) as [Hobj Hum].
  unfold derive_output. rewrite emit_eq. unfold compile. cbn [g_fields g_output g_name g_generics g_pads g_align fst snd length].
  rewrite String.eqb_refl, Nat.eqb_refl, !andb_true_r, gen_gfields_debug.
  rewrite <- forallb_Forall_eq.
  replace (map fst (gen_gfields l name 0 fields)) with (map fst (derived_fields tg l fields))
    by (unfold derived_fields; apply (gen_names tg l (struct_al l fields) fields 0 0 0 l name)).
  assert (Hlen : length (pad_env l name fields) = length fields).
  { unfold pad_env. now rewrite map_length, seq_length. }
  rewrite Hlen.
  destruct (gen_suffix tg l fields fields [] eq_refl 0 eq_refl _ eq_refl) as [E1 E2].
  change (start tg l fields 0) with 0 in E1, E2.
  change (gen_fields tg l (struct_al l fields) 0 0 fields) with (derived_fields tg l fields) in E1, E2.
  split.
  - intros H.
    destruct (nodupb _) eqn:Hnd; [|discriminate]. apply nodupb_NoDup in Hnd.
    destruct (forallb (fun f => impl_debug (snd f)) fields) eqn:Hdbg; [|discriminate]. cbn [andb] in H.
    destruct (map_opt _ _) as [fs|] eqn:Hm; [|discriminate].
    destruct (ceval tg l (pad_env l name fields) (S (length fields)) (struct_alignment l fields)) as [al| | |] eqn:Hc; try discriminate.
    assert (Hal : all_aligned l fields).
    { destruct (Forall_dec (fun f : string * sty => exists a, std_align l (snd f) = Some a)
                  ltac:(intros [f u]; cbn [snd]; destruct (std_align l u); [left; eauto|right; intros [a Ha]; discriminate])
                  fields) as [Hal|Hal]; [exact Hal|].
      exfalso. rewrite (ceval_struct_alignment_unaligned tg l name fields) in Hc by exact Hal. discriminate. }
    rewrite (ceval_struct_alignment tg l name fields) in Hc by exact Hal.
    injection Hc as <-.
    rewrite E2 in Hm by (try assumption; lia).
    destruct (forallb _ _); [|discriminate]. injection Hm as <-.
    destruct (N.ltb_spec (size_of tg (TStruct l (trait_name l ++ name) (struct_al l fields) (derived_fields tg l fields))) (t_obj tg)) as [Hs|Hs]; [|discriminate].
    injection H as <-. repeat split; try assumption.
  - intros [Hal [Hnd [-> [Hs Hdbg]]]].
    apply nodupb_NoDup in Hnd. rewrite Hnd, Hdbg. cbn [andb].
    rewrite (ceval_struct_alignment tg l name fields) by exact Hal.
    rewrite E2 by (try assumption; lia).
    assert (Hall : forallb (fun j => fend tg l fields j <? umod tg) (seq 0 (length fields)) = true).
    { apply forallb_forall. intros j Hj. apply in_seq in Hj. apply N.ltb_lt.
      pose proof (fend_le_start tg l fields j ltac:(lia)).
      pose proof (size_of_ge_sizes tg l (trait_name l ++ name) (struct_al l fields) (derived_fields tg l fields)).
      unfold derived in Hs. lia. }
    rewrite Hall. fold (derived tg l name fields).
    change (TStruct l (trait_name l ++ name) (struct_al l fields) (derived_fields tg l fields))
      with (derived tg l name fields).
    apply N.ltb_lt in Hs. rewrite Hs. reflexivity.
Qed.
