(** * The generated code at the level of tokens (C92) *)

From Coq Require Import NArith String Bool List Lia ZArith PeanoNat.
From Coq Require Import ZifyBool ZifyN ZifyNat.
From Verif Require Import Rust Internal Prims Derive GlslGen Tokens SpecTokens SpecTypes RustFacts DeriveFacts.
Import ListNotations.
Local Open Scope string_scope.
Local Open Scope N_scope.

Local Notation "'do' X <- A ; B" := (match A with Some X => B | _ => None end) (at level 200, X pattern, A at level 100, B at level 200).

Lemma to_as_ok ty : forall d r, balanced d ty = true -> to_as d (ty ++ kw "as" :: r)%list = Some (ty, r).
Proof.
  induction ty as [|t ty IH]; intros d r H.
  - cbn [balanced] in H. apply Nat.eqb_eq in H. subst d. reflexivity.
  - cbn [balanced] in H. cbn [app to_as]. destruct (is_p "<" t); [now rewrite IH|].
    destruct (is_p ">" t); [destruct d; [discriminate|now rewrite IH]|].
    destruct (Nat.eqb d 0 && is_kw "as" t)%bool; [discriminate|]. now rewrite IH.
Qed.

Section Reads.
Variable l : lay.
Variable R : list tok -> option sty.

Definition rel (f : ident * list tok) (nt : string * sty) : Prop :=
  fst nt = id_name (fst f) /\ balanced 0 (snd f) = true /\ R (snd f) = Some (snd nt).

Lemma read_output_ok ty t rest : balanced 0 ty = true -> R ty = Some t ->
  read_output l R (layout_version_of_ty l ty ++ rest)%list = Some (t, rest).
Proof.
  intros Hb HR. assert (E : (layout_version_of_ty l ty ++ rest)%list
    = TP "<" :: (ty ++ kw "as" :: (as_trait_path l ++ [TP ">"; TP "::"; kw "Output"] ++ rest))%list).
  { unfold layout_version_of_ty. cbn [app]. f_equal. rewrite <- app_assoc. cbn [app]. rewrite <- app_assoc. reflexivity. }
  rewrite E. unfold read_output. cbn [eat]. rewrite String.eqb_refl.
  rewrite to_as_ok by assumption. cbn iota. rewrite HR. cbn iota. clear. destruct l; reflexivity.
Qed.

Lemma read_align_ok env ty t rest : balanced 0 ty = true -> R ty = Some t ->
  read_simple l R env (layout_alignment_of_ty l ty ++ rest)%list = Some (CAlignOf t, rest).
Proof.
  intros Hb HR. assert (E : (layout_alignment_of_ty l ty ++ rest)%list
    = TP "<" :: (layout_version_of_ty l ty ++ [kw "as"] ++ Tokens.trait_path l ++ [TP ">"; TP "::"; kw "ALIGNMENT"] ++ rest)%list).
  { unfold layout_alignment_of_ty, layout_version_of_ty. cbn [app]. rewrite <- !app_assoc. cbn [app]. rewrite <- !app_assoc. reflexivity. }
  rewrite E. unfold read_simple. rewrite read_output_ok with (t := t) by assumption. destruct l; reflexivity.
Qed.

Lemma read_size_ok env ty t rest : balanced 0 ty = true -> R ty = Some t ->
  read_atom l R env ([TP "::"; kw "core"; TP "::"; kw "mem"; TP "::"; kw "size_of"; TP "::"; TP "<"]
     ++ layout_version_of_ty l ty ++ [TP ">"; TG Paren []] ++ rest)%list = Some (CSizeOf t, rest).
Proof.
  intros Hb HR. pose proof (read_output_ok ty t (TP ">" :: TG Paren [] :: rest) Hb HR) as E.
  change ([TP ">"; TG Paren []] ++ rest)%list with (TP ">" :: TG Paren [] :: rest).
  set (X := (layout_version_of_ty l ty ++ TP ">" :: TG Paren [] :: rest)%list) in *. clearbody X.
  unfold read_atom. cbn -[read_output]. rewrite E. reflexivity.
Qed.

Lemma read_args_ok env fields fs : Forall2 rel fields fs -> forall fuel, (length fields <= fuel)%nat ->
  read_args l R env fuel (flat_map (fun f => layout_alignment_of_ty l (snd f) ++ [TP ","]) fields)%list = Some (map (fun f => CAlignOf (snd f)) fs).
Proof.
  induction 1 as [|[f ty] [n t] fields fs [_ [Hb HR]] _ IH]; intros fuel Hf; cbn [fst snd] in *.
  - now destruct fuel.
  - cbn [length] in Hf. destruct fuel as [|fuel]; [lia|]. cbn [flat_map map snd]. rewrite <- app_assoc.
    set (Y := flat_map _ fields) in *. set (X := (layout_alignment_of_ty l ty ++ [TP ","] ++ Y)%list).
    assert (EX : exists x X', X = x :: X') by (unfold X, layout_alignment_of_ty; cbn [app]; eauto).
    assert (E : read_simple l R env X = Some (CAlignOf t, TP "," :: Y)) by (apply (read_align_ok env ty t ([TP ","] ++ Y)%list); assumption).
    clearbody X. destruct EX as [x [X' ->]]. cbn [read_args]. rewrite E. cbn [eat]. rewrite String.eqb_refl, IH by lia. reflexivity.
Qed.

Lemma read_struct_al env fields fs rest : Forall2 rel fields fs ->
  read_atom l R env (struct_alignment_toks l fields ++ rest)%list = Some (struct_alignment l fs, rest).
Proof.
  intros H. unfold struct_alignment_toks, read_atom.
  set (Y := flat_map _ fields).
  assert (E : read_args l R env (length ([TInt (min_struct_alignment l) "usize"; TP ","] ++ Y)%list) ([TInt (min_struct_alignment l) "usize"; TP ","] ++ Y)%list
    = Some (CLit (min_struct_alignment l) :: map (fun f => CAlignOf (snd f)) fs)).
  { assert (E0 : forall n, read_args l R env (S n) ([TInt (min_struct_alignment l) "usize"; TP ","] ++ Y)%list
      = do es <- read_args l R env n Y; Some (CLit (min_struct_alignment l) :: es)) by reflexivity.
    cbn [app length] in *. rewrite E0. unfold Y. rewrite (read_args_ok env fields fs H); [reflexivity|].
    clear. induction fields as [|f fs IH]; [cbn; lia|]. cbn [flat_map length]. rewrite !app_length. cbn [length] in *. lia. }
  set (A := ([TInt (min_struct_alignment l) "usize"; TP ","] ++ Y)%list) in *. clearbody A.
  cbn -[read_args read_simple struct_alignment]. rewrite E. reflexivity.
Qed.

(** the sum of sizes and padding functions *)
Lemma read_pad_atom env name i rest : read_atom l R env (kw (pad_fn_name l name i) :: TG Paren [] :: rest) = Some (CCall (pad_fn_name l name i), rest).
Proof. reflexivity. Qed.

Lemma offset_ok env fields fs pads target : Forall2 rel fields fs ->
  (forall i p, nth_error pads i = Some p -> exists name, p = pad_fn_name l name i) ->
  forall idx output acc,
  match offset_after_toks l fields pads target idx output, offset_after_loop fs pads target idx acc with
  | Some out, Some e => exists suffix, out = (output ++ suffix)%list
      /\ forall rest fuel, eat "+" rest = None -> (length suffix <= fuel)%nat -> read_plus l R env fuel acc (suffix ++ rest)%list = Some (e, rest)
  | None, None => True
  | _, _ => False
  end.
Proof.
  intros H Hp. induction idx as [|i idx IH]; intros output acc.
  - cbn [offset_after_toks offset_after_loop]. exists []. split; [now rewrite app_nil_r|]. intros rest fuel E _. cbn [app]. destruct fuel; cbn [read_plus]; now rewrite E.
  - cbn [offset_after_toks offset_after_loop].
    assert (N1 : match nth_error fields i, nth_error fs i with Some f, Some g => rel f g | None, None => True | _, _ => False end).
    { clear -H. revert i. induction H as [|f g fields fs H1 _ IH]; intros [|i]; cbn; auto. apply IH. }
    destruct (nth_error fields i) as [[f ty]|], (nth_error fs i) as [[n t]|]; try contradiction; [|exact I].
    destruct N1 as [_ [Hb HR]]. cbn [fst snd] in *.
    set (T1 := ([TP "+"; TP "::"; kw "core"; TP "::"; kw "mem"; TP "::"; kw "size_of"; TP "::"; TP "<"] ++ layout_version_of_ty l ty ++ [TP ">"; TG Paren []])%list).
    assert (E1 : forall rest' fuel acc', read_plus l R env (S fuel) acc' (T1 ++ rest')%list = read_plus l R env fuel (CAdd acc' (CSizeOf t)) rest').
    { intros rest' fuel acc'. unfold T1. rewrite <- !app_assoc. pose proof (read_size_ok env ty t rest' Hb HR) as E. cbn [app] in E |- *. cbn [read_plus eat].
      rewrite String.eqb_refl. set (X := TP "::" :: kw "core" :: _) in *. clearbody X. rewrite E. reflexivity. }
    assert (L1 : (1 <= length T1)%nat) by (unfold T1; cbn [app length]; lia). clearbody T1.
    destruct (Nat.ltb i target).
    + destruct (nth_error pads i) as [p|] eqn:Ep; [|exact I]. destruct (Hp _ _ Ep) as [nm ->].
      specialize (IH ((output ++ T1) ++ [TP "+"; kw (pad_fn_name l nm i); TG Paren []])%list (CAdd (CAdd acc (CSizeOf t)) (CCall (pad_fn_name l nm i)))).
      destruct (offset_after_toks _ _ _ _ _ _) as [out|], (offset_after_loop _ _ _ _ _) as [e|]; try exact IH.
      destruct IH as [suffix [-> IH]]. exists (T1 ++ TP "+" :: kw (pad_fn_name l nm i) :: TG Paren [] :: suffix)%list.
      split; [rewrite <- !app_assoc; reflexivity|]. intros rest fuel E Hf. rewrite app_length in Hf. cbn [length] in Hf.
      destruct fuel as [|[|fuel]]; try lia. rewrite <- app_assoc, E1. cbn [app read_plus]. cbn [eat]. rewrite String.eqb_refl.
      rewrite read_pad_atom. apply IH; [assumption|lia].
    + specialize (IH (output ++ T1)%list (CAdd acc (CSizeOf t))).
      destruct (offset_after_toks _ _ _ _ _ _) as [out|], (offset_after_loop _ _ _ _ _) as [e|]; try exact IH.
      destruct IH as [suffix [-> IH]]. exists (T1 ++ suffix)%list. split; [now rewrite app_assoc|].
      intros rest fuel E Hf. rewrite app_length in Hf. destruct fuel as [|fuel]; [lia|]. rewrite <- app_assoc, E1. apply IH; [assumption|lia].
Qed.
Definition reads (ts : list tok) (i : item) : Prop := ts <> [] /\ forall rest, read_item l R (ts ++ rest)%list = Some (i, rest).

Lemma read_block_ok fuel s1 (e1 e2 : cexpr) al : (2 <= fuel)%nat ->
  (forall rest, eat "+" rest = None -> read_sum l R [] (s1 ++ rest)%list = Some (e1, rest)) ->
  (forall rest, eat "+" rest = None -> read_sum l R [("starting_offset", e1)] (al ++ rest)%list = Some (e2, rest)) ->
  read_block l R [] fuel ([kw "let"; kw "starting_offset"; TP "="] ++ s1 ++ [TP ";"] ++ [kw "let"; kw "alignment"; TP "="] ++ al ++ [TP ";"]
     ++ internal "align_offset" ++ [TG Paren [kw "starting_offset"; TP ","; kw "alignment"]])%list = Some (CAlignOffset e1 e2).
Proof.
  intros Hf H1 H2. destruct fuel as [|[|fuel]]; try lia.
  set (Z := (internal "align_offset" ++ [TG Paren [kw "starting_offset"; TP ","; kw "alignment"]])%list).
  specialize (H2 ([TP ";"] ++ Z)%list eq_refl). set (Y := (al ++ [TP ";"] ++ Z)%list) in *. clearbody Y.
  specialize (H1 ([TP ";"] ++ [kw "let"; kw "alignment"; TP "="] ++ Y)%list eq_refl).
  set (X := (s1 ++ [TP ";"] ++ [kw "let"; kw "alignment"; TP "="] ++ Y)%list) in *. clearbody X.
  change ((do r <- Some X; do (e, r) <- read_sum l R [] r; do r <- eat ";" r; read_block l R [("starting_offset", e)] (S fuel) r) = Some (CAlignOffset e1 e2)).
  cbn iota. rewrite H1. cbn iota.
  change ((do r <- Some Y; do (e, r) <- read_sum l R [("starting_offset", e1)] r; do r <- eat ";" r;
          read_block l R [("alignment", e); ("starting_offset", e1)] fuel r) = Some (CAlignOffset e1 e2)).
  cbn iota. rewrite H2. destruct fuel; reflexivity.
Qed.

Lemma read_sum_atom env a e rest : eat "+" rest = None -> read_atom l R env (a ++ rest)%list = Some (e, rest) -> read_sum l R env (a ++ rest)%list = Some (e, rest).
Proof. intros H E. unfold read_sum. rewrite E. destruct (length rest); cbn [read_plus]; now rewrite H. Qed.

Lemma layout_alignment_atom env ty t rest : balanced 0 ty = true -> R ty = Some t ->
  read_atom l R env (layout_alignment_of_ty l ty ++ rest)%list = Some (CAlignOf t, rest).
Proof.
  intros Hb HR. pose proof (read_align_ok env ty t rest Hb HR) as E. unfold read_atom.
  assert (EX : exists X', (layout_alignment_of_ty l ty ++ rest)%list = TP "<" :: X') by (unfold layout_alignment_of_ty; cbn [app]; eauto).
  destruct EX as [X' EX]. rewrite EX in *. exact E.
Qed.

Lemma pad_fn_ok fields fs name index : Forall2 rel fields fs ->
  let pads := map (pad_fn_name l name) (seq 0 (length fields)) in
  match pad_fn_toks l fields pads index (pad_fn_name l name index), pad_fn_impl l fs pads index with
  | Some ts, Some e => reads ts (IFn (pad_fn_name l name index) e)
  | None, None => True
  | _, _ => False
  end.
Proof.
  intros H pads. unfold pad_fn_toks, pad_fn_impl, offset_after_field.
  assert (Hp : forall i p, nth_error pads i = Some p -> exists nm, p = pad_fn_name l nm i).
  { intros i p E. unfold pads in E. rewrite nth_error_map in E. destruct (nth_error (seq 0 (length fields)) i) as [j|] eqn:Ej; [|discriminate].
    injection E as <-. exists name. f_equal. pose proof (nth_error_nth _ _ 0%nat Ej) as Q.
    assert (i < length (seq 0 (length fields)))%nat by (apply nth_error_Some; congruence). rewrite seq_length in *. rewrite seq_nth in Q by assumption. lia. }
  pose proof (offset_ok [] fields fs pads index H Hp (seq 0 (S index)) [TInt 0 "usize"] (CLit 0)) as K.
  destruct (offset_after_toks _ _ _ _ _ _) as [s1|], (offset_after_loop _ _ _ _ _) as [e1|]; try exact K.
  destruct K as [suffix [-> K]].
  set (al := match nth_error fields (index + 1) with Some nf => layout_alignment_of_ty l (snd nf) | None => struct_alignment_toks l fields end).
  set (e2 := match nth_error fs (index + 1) with Some nf => CAlignOf (snd nf) | None => struct_alignment l fs end).
  assert (A : forall env rest, read_atom l R env (al ++ rest)%list = Some (e2, rest)).
  { intros env rest. unfold al, e2.
    assert (N1 : match nth_error fields (index + 1), nth_error fs (index + 1) with Some f, Some g => rel f g | None, None => True | _, _ => False end).
    { generalize (index + 1)%nat as i. clear -H. induction H as [|f g fields fs H1 _ IH]; intros [|i]; cbn; auto. apply IH. }
    destruct (nth_error fields (index + 1)) as [[f ty]|], (nth_error fs (index + 1)) as [[n t]|]; try contradiction.
    - destruct N1 as [_ [Hb HR]]. now apply layout_alignment_atom.
    - now apply read_struct_al. }
  clearbody al e2.
  split; [discriminate|]. intros rest.
  assert (B : forall n, read_block l R [] (S (S n)) ([kw "let"; kw "starting_offset"; TP "="] ++ ([TInt 0 "usize"] ++ suffix) ++ [TP ";"] ++ [kw "let"; kw "alignment"; TP "="] ++ al ++ [TP ";"]
     ++ internal "align_offset" ++ [TG Paren [kw "starting_offset"; TP ","; kw "alignment"]])%list = Some (CAlignOffset e1 e2)).
  { intros n. apply read_block_ok; [lia| |].
    - intros r Er. unfold read_sum. rewrite <- app_assoc.
      change (read_atom l R [] ([TInt 0 "usize"] ++ suffix ++ r)%list) with (Some (CLit 0, suffix ++ r)%list). cbn iota. apply K; [assumption|]. rewrite app_length. lia.
    - intros r Er. apply read_sum_atom; [assumption|apply A]. }
  set (b := ([kw "let"; kw "starting_offset"; TP "="] ++ ([TInt 0 "usize"] ++ suffix) ++ _)%list) in *.
  assert (L : exists n, length b = S (S n)) by (unfold b; cbn [app length]; eauto). destruct L as [n L].
  change ((do e <- read_block l R [] (length b) b; Some (IFn (pad_fn_name l name index) e, rest)) = Some (IFn (pad_fn_name l name index) (CAlignOffset e1 e2), rest)).
  now rewrite L, B.
Qed.

Lemma struct_fields_ok fields fs pads : (forall i p, nth_error pads i = Some p -> exists nm, p = pad_fn_name l nm i) -> Forall2 rel fields fs -> forall idx,
  match struct_fields_toks l pads idx fields, struct_fields_loop pads idx fs with
  | Some ts, Some gfs => forall fuel, (length ts <= fuel)%nat -> read_fields l R fuel ts = Some gfs
  | None, None => True
  | _, _ => False
  end.
Proof.
  intros Hp. induction 1 as [|[f ty] [n t] fields fs [Hn [Hb HR]] _ IH]; intros idx; cbn [struct_fields_toks struct_fields_loop fst snd] in *.
  - intros fuel _. now destruct fuel.
  - destruct (nth_error pads idx) as [p|] eqn:Ep; [|exact I]. destruct (Hp _ _ Ep) as [nm ->]. clear Ep. specialize (IH (S idx)).
    destruct (struct_fields_toks _ _ _ _) as [r|], (struct_fields_loop _ _ _) as [gfs|]; try exact IH.
    intros fuel Hf. subst n.
    pose proof (read_output_ok ty t ([TP ","; kw (pad_field_name idx); TP ":"; TG Brack [kw "u8"; TP ";"; kw (pad_fn_name l nm idx); TG Paren []]; TP ","] ++ r)%list Hb HR) as E.
    rewrite !app_length in Hf.
    assert (EX : exists X', (layout_version_of_ty l ty ++ [TP ","; kw (pad_field_name idx); TP ":"; TG Brack [kw "u8"; TP ";"; kw (pad_fn_name l nm idx); TG Paren []]; TP ","] ++ r)%list = TP "<" :: X')
      by (unfold layout_version_of_ty; cbn [app]; eauto).
    set (X := (layout_version_of_ty l ty ++ _)%list) in *. clearbody X. destruct EX as [X' ->]. cbn [length] in Hf.
    destruct fuel as [|[|fuel]]; try lia.
    change ((do (t', r0) <- read_output l R (TP "<" :: X'); do r1 <- eat "," r0; do fs <- read_fields l R (S fuel) r1; Some ((id_name f, GOut t') :: fs)) = Some ((id_name f, GOut t) :: (pad_field_name idx, GPad (CCall (pad_fn_name l nm idx))) :: gfs)).
    rewrite E.
    change ((do fs <- (do fs <- read_fields l R fuel r; Some ((pad_field_name idx, GPad (CCall (pad_fn_name l nm idx))) :: fs)); Some ((id_name f, GOut t) :: fs)) = Some ((id_name f, GOut t) :: (pad_field_name idx, GPad (CCall (pad_fn_name l nm idx))) :: gfs)).
    rewrite IH by lia. reflexivity.
Qed.

Lemma inits_length fields : (length fields <= length (field_init_toks l fields))%nat.
Proof. unfold field_init_toks. induction fields as [|f fs IH]; [cbn; lia|]. cbn [flat_map length]. rewrite app_length. cbn [length]. lia. Qed.
Lemma froms_length fields : (length fields <= length (input_init_toks l fields))%nat.
Proof. unfold input_init_toks. induction fields as [|f fs IH]; [cbn; lia|]. cbn [flat_map length]. rewrite !app_length. cbn [length]. lia. Qed.

Lemma inits_ok fields fs : Forall2 rel fields fs -> forall fuel, (length fields <= fuel)%nat ->
  read_inits l fuel (field_init_toks l fields ++ [TP ".."] ++ bytemuck "Zeroable" ++ [TP "::"; kw "zeroed"; TG Paren []])%list = Some (map fst fs).
Proof.
  induction 1 as [|[f ty] [n t] fields fs [Hn _] _ IH]; intros fuel Hf; cbn [fst snd] in *.
  - now destruct fuel.
  - cbn [length] in Hf. destruct fuel as [|fuel]; [lia|]. subst n. specialize (IH fuel ltac:(lia)).
    unfold field_init_toks in *. cbn [flat_map map fst]. rewrite <- app_assoc.
    set (Y := (flat_map _ fields ++ _)%list) in *. clearbody Y.
    assert (E : read_inits l (S fuel) ([TId f; TP ":"; kw "self"; TP "."; TId f; TP "."; as_trait_method l; TG Paren []; TP ","] ++ Y)%list
      = (if String.eqb (id_name f) (id_name f) then do fs <- read_inits l fuel Y; Some (id_name f :: fs) else None)) by (destruct l; reflexivity).
    rewrite E, String.eqb_refl, IH. reflexivity.
Qed.

Lemma froms_ok fields fs : Forall2 rel fields fs -> forall fuel, (length fields <= fuel)%nat ->
  read_froms l fuel (input_init_toks l fields) = Some (map fst fs).
Proof.
  induction 1 as [|[f ty] [n t] fields fs [Hn _] _ IH]; intros fuel Hf; cbn [fst snd] in *.
  - now destruct fuel.
  - cbn [length] in Hf. destruct fuel as [|fuel]; [lia|]. subst n. specialize (IH fuel ltac:(lia)).
    unfold input_init_toks in *. cbn [flat_map map fst]. rewrite <- !app_assoc.
    set (Y := flat_map _ fields) in *. clearbody Y.
    assert (E : read_froms l (S fuel) ([TId f; TP ":"] ++ as_trait_path l ++ [TP "::"; from_trait_method l; TG Paren [kw "input"; TP "."; TId f]; TP ","] ++ Y)%list
      = (if String.eqb (id_name f) (id_name f) then do fs <- read_froms l fuel Y; Some (id_name f :: fs) else None)) by (destruct l; reflexivity).
    rewrite E, String.eqb_refl, IH. reflexivity.
Qed.

Lemma read_items_ok tss is : Forall2 reads tss is -> forall fuel, (length tss <= fuel)%nat -> read_items l R fuel (concat tss) = Some is.
Proof.
  induction 1 as [|ts i tss is [H1 H2] _ IH]; intros fuel Hf; cbn [length concat] in *.
  - now destruct fuel.
  - destruct fuel as [|fuel]; [lia|]. destruct ts as [|t ts]; [contradiction|]. specialize (H2 (concat tss)). cbn [app] in *. cbn [read_items].
    rewrite H2, IH by lia. reflexivity.
Qed.
Lemma reads_length tss is : Forall2 reads tss is -> (length tss <= length (concat tss))%nat.
Proof.
  induction 1 as [|ts i tss is [H1 _] _ IH]; [cbn; lia|]. cbn [concat length]. rewrite app_length. destruct ts; [contradiction|]. cbn [length]. lia.
Qed.
Lemma pads_ok fields fs name : Forall2 rel fields fs ->
  let pads := map (pad_fn_name l name) (seq 0 (length fields)) in
  forall ks, match map_opt (fun p => pad_fn_toks l fields pads (fst p) (snd p)) (combine ks (map (pad_fn_name l name) ks)), map_opt (pad_fn_impl l fs pads) ks with
  | Some tss, Some bodies => Forall2 reads tss (map (fun p => IFn (fst p) (snd p)) (combine (map (pad_fn_name l name) ks) bodies))
  | None, None => True
  | _, _ => False
  end.
Proof.
  intros H pads. induction ks as [|k ks IH]; [constructor|]. cbn [map combine]. rewrite !map_opt_cons. cbn [fst snd].
  pose proof (pad_fn_ok fields fs name k H) as K. cbv zeta in K. fold pads in K.
  destruct (pad_fn_toks _ _ _ _ _) as [ts|], (pad_fn_impl _ _ _ _) as [e|]; try contradiction; [|exact I].
  destruct (map_opt _ (combine ks _)) as [tss|], (map_opt (pad_fn_impl l fs pads) ks) as [bodies|]; try exact IH.
  cbn [combine map]. constructor; assumption.
Qed.

Lemma to_brace_ok h b r : (forall c, ~ In (TG Brace c) h) -> to_brace (h ++ TG Brace b :: r)%list = Some (h, b, r).
Proof.
  induction h as [|t h IH]; intros H; [reflexivity|]. cbn [app to_brace]. rewrite IH by (intros c Hc; apply (H c); now right).
  destruct t as [| | | |[] c]; try reflexivity. exfalso. apply (H c). now left.
Qed.

Lemma no_brace_app a b : (forall c, ~ In (TG Brace c) a) -> (forall c, ~ In (TG Brace c) b) -> forall c, ~ In (TG Brace c) (a ++ b)%list.
Proof. intros Ha Hb c Hc. apply in_app_or in Hc. destruct Hc; [eapply Ha|eapply Hb]; eassumption. Qed.

Definition struct_attrs : list (list tok) :=
  [[kw "derive"; TG Paren [kw "Debug"; TP ","; kw "Clone"; TP ","; kw "Copy"]]; [kw "repr"; TG Paren [kw "C"]];
   [kw "doc"; TG Paren [kw "hidden"]]; [kw "allow"; TG Paren [kw "warnings"]]].

Lemma struct_item vis w n b gfs : vis_ok vis -> where_ok w -> read_fields l R (length b) b = Some gfs ->
  reads ([TP "#"; TG Brack [kw "derive"; TG Paren [kw "Debug"; TP ","; kw "Clone"; TP ","; kw "Copy"]];
          TP "#"; TG Brack [kw "repr"; TG Paren [kw "C"]];
          TP "#"; TG Brack [kw "doc"; TG Paren [kw "hidden"]];
          TP "#"; TG Brack [kw "allow"; TG Paren [kw "warnings"]]]
         ++ vis ++ [kw "struct"; kw n] ++ w ++ [TG Brace b])%list (IStruct struct_attrs n gfs).
Proof.
  intros Hv [Hw1 Hw2] Hb. split; [discriminate|]. intros rest.
  assert (E : (do (w', b', r) <- to_brace (w ++ TG Brace b :: rest); if is_where w' then do fs <- read_fields l R (length b') b'; Some (IStruct struct_attrs n fs, r) else None)
              = Some (IStruct struct_attrs n gfs, rest)).
  { rewrite to_brace_ok by assumption. now rewrite Hw1, Hb. }
  rewrite <- !app_assoc. cbn [app] in *. set (Y := (w ++ TG Brace b :: rest)%list) in *. clearbody Y.
  destruct Hv as [->|[->|[a ->]]]; exact E.
Qed.

Lemma impl_item (u : bool) h b : (forall c, ~ In (TG Brace c) h) ->
  reads ((if u then [kw "unsafe"; kw "impl"] else [kw "impl"]) ++ h ++ [TG Brace b])%list (IImpl u h b).
Proof.
  intros H. split; [now destruct u|]. intros rest. rewrite <- !app_assoc. cbn [app].
  pose proof (to_brace_ok h b rest H) as E. set (Y := (h ++ TG Brace b :: rest)%list) in *. clearbody Y.
  destruct u.
  - transitivity (do (h, b, r) <- to_brace Y; Some (IImpl true h b, r)); [reflexivity|now rewrite E].
  - transitivity (do (h, b, r) <- to_brace Y; Some (IImpl false h b, r)); [reflexivity|now rewrite E].
Qed.

Lemma structs_fns (ps : list (string * cexpr)) is : structs (map (fun p => IFn (fst p) (snd p)) ps ++ is) = structs is.
Proof. induction ps as [|p ps IH]; [reflexivity|exact IH]. Qed.
Lemma fns_fns (ps : list (string * cexpr)) is : fns (map (fun p => IFn (fst p) (snd p)) ps ++ is) = (ps ++ fns is)%list.
Proof. induction ps as [|[f e] ps IH]; [reflexivity|]. cbn. unfold fns in IH. now rewrite IH. Qed.
Lemma find_impl_fns u seg (ps : list (string * cexpr)) is : find_impl u seg (map (fun p => IFn (fst p) (snd p)) ps ++ is) = find_impl u seg is.
Proof. induction ps as [|p ps IH]; [reflexivity|exact IH]. Qed.
Lemma find_inherent_fns (ps : list (string * cexpr)) is : find_inherent (map (fun p => IFn (fst p) (snd p)) ps ++ is) = find_inherent is.
Proof. induction ps as [|p ps IH]; [reflexivity|exact IH]. Qed.

Theorem code_ok input fields fs ts : plain_struct input -> ti_data input = Tokens.TNamed fields -> Forall2 rel fields fs ->
  emit_toks l input = Some ts ->
  exists g, emit l (DeriveInput (id_name (ti_ident input)) [] (DNamed fs)) = Some g /\ read_code l R ts = Some (id_name (ti_ident input), g).
Proof.
  intros [Hg1 [Hg2 [Hv Hw]]] Hd H Hts. destruct input as [vis nm ig tg w data]. cbn [ti_impl_generics ti_ty_generics ti_vis ti_where ti_data ti_ident] in *. subst ig tg data.
  unfold emit_toks, emit_parts in Hts. cbn [ti_impl_generics ti_ty_generics ti_vis ti_where ti_data ti_ident] in Hts.
  unfold emit. cbn [di_data di_ident di_generics].
  assert (HL : length fs = length fields) by (clear -H; induction H; cbn [length]; congruence). rewrite HL.
  set (pads := map (pad_fn_name l (id_name nm)) (seq 0 (length fields))) in *.
  pose proof (pads_ok fields fs (id_name nm) H (seq 0 (length fields))) as K1. cbv zeta in K1. fold pads in K1.
  assert (Ep : length pads = length fields) by (unfold pads; now rewrite map_length, seq_length). rewrite Ep in Hts.
  assert (Hp : forall i p, nth_error pads i = Some p -> exists nm, p = pad_fn_name l nm i).
  { intros i p E. unfold pads in E. rewrite nth_error_map in E. destruct (nth_error (seq 0 (length fields)) i) as [j|] eqn:Ej; [|discriminate].
    injection E as <-. exists (id_name nm). f_equal. pose proof (nth_error_nth _ _ 0%nat Ej) as Q.
    assert (i < length (seq 0 (length fields)))%nat by (apply nth_error_Some; congruence). rewrite seq_length in *. rewrite seq_nth in Q by assumption. lia. }
  pose proof (struct_fields_ok fields fs pads Hp H 0%nat) as K2.
  destruct (map_opt _ (combine (seq 0 (length fields)) pads)) as [tss|]; [|discriminate].
  destruct (map_opt (pad_fn_impl l fs pads) (seq 0 (length fields))) as [bodies|]; [|contradiction].
  destruct (struct_fields_toks l pads 0 fields) as [sf|]; [|discriminate].
  destruct (struct_fields_loop pads 0 fs) as [gfs|]; [|contradiction].
  eexists. split; [reflexivity|]. specialize (K2 (length sf) (le_n _)).
  apply (f_equal (fun o => match o with Some x => x | None => [] end)) in Hts. cbn iota in Hts.
  set (N := trait_name l ++ id_name nm) in *.
  pose proof (struct_item vis w N sf gfs Hv Hw K2) as I1.
  destruct Hw as [Hw1 Hw2].
  set (sh := ([TP "#"; TG Brack [kw "derive"; TG Paren [kw "Debug"; TP ","; kw "Clone"; TP ","; kw "Copy"]]; _; _; _; _; _; _] ++ _)%list) in I1.
  set (b0 := [TP "#"; TG Brack [kw "allow"; TG Paren [kw "warnings"]]; kw "pub"; kw "fn"; kw "as_bytes"; TG Paren [TP "&"; kw "self"]; TP "->"; TP "&"; TG Brack [kw "u8"];
                   TG Brace ([TP "<"; kw N] ++ [] ++ [kw "as"] ++ Tokens.trait_path l ++ [TP ">"; TP "::"; kw "as_bytes"; TG Paren [kw "self"]])%list]).
  set (b3 := ([kw "const"; kw "ALIGNMENT"; TP ":"; kw "usize"; TP "="] ++ struct_alignment_toks l fields ++ [TP ";"])%list).
  set (i1 := (field_init_toks l fields ++ [TP ".."] ++ bytemuck "Zeroable" ++ [TP "::"; kw "zeroed"; TG Paren []])%list).
  set (b4 := [kw "type"; kw "Output"; TP "="; kw N; TP ";";
               kw "fn"; as_trait_method l; TG Paren [TP "&"; kw "self"]; TP "->"; kw "Self"; TP "::"; kw "Output";
               TG Brace [kw "Self"; TP "::"; kw "Output"; TG Brace i1];
               kw "fn"; from_trait_method l; TG Paren [kw "input"; TP ":"; kw "Self"; TP "::"; kw "Output"]; TP "->"; kw "Self";
               TG Brace [kw "Self"; TG Brace (input_init_toks l fields)]]).
  set (h0 := (kw N :: w)%list).
  set (h1 := (bytemuck "Zeroable" ++ kw "for" :: kw N :: w)%list).
  set (h2 := (bytemuck "Pod" ++ kw "for" :: kw N :: w)%list).
  set (h3 := (Tokens.trait_path l ++ kw "for" :: kw N :: w)%list).
  set (h4 := (as_trait_path l ++ kw "for" :: TId nm :: w)%list).
  set (impls := [([kw "impl"] ++ h0 ++ [TG Brace b0])%list; ([kw "unsafe"; kw "impl"] ++ h1 ++ [TG Brace []])%list;
     ([kw "unsafe"; kw "impl"] ++ h2 ++ [TG Brace []])%list; ([kw "unsafe"; kw "impl"] ++ h3 ++ [TG Brace b3])%list; ([kw "impl"] ++ h4 ++ [TG Brace b4])%list]).
  assert (Ets : ts = concat (tss ++ sh :: impls)).
  { rewrite <- Hts, concat_app. f_equal. unfold impls, sh, h0, h1, h2, h3, h4, b0, b3, b4, i1. clear.
    cbn [concat app]. rewrite !app_nil_r. repeat (rewrite <- !app_assoc; cbn [app]). reflexivity. }
  assert (P : forall a b x, (forall c, ~ In (TG Brace c) a) -> (forall c, ~ In (TG Brace c) [x; b]) -> forall c, ~ In (TG Brace c) (a ++ x :: b :: w)%list).
  { intros a b x H1 H2. apply no_brace_app; [assumption|]. change (x :: b :: w)%list with ([x; b] ++ w)%list. now apply no_brace_app. }
  assert (Q : forall x, (forall c, ~ In (TG Brace c) [kw "for"; TId x])) by (intros x c [E|[E|[]]]; discriminate E).
  set (items := (map (fun p => IFn (fst p) (snd p)) (combine pads bodies) ++ [IStruct struct_attrs N gfs; IImpl false h0 b0; IImpl true h1 []; IImpl true h2 [];
                  IImpl true h3 b3; IImpl false h4 b4])%list).
  assert (Hitems : Forall2 reads (tss ++ sh :: impls) items).
  { apply Forall2_app; [exact K1|]. constructor; [exact I1|].
    constructor; [apply (impl_item false h0 b0); unfold h0; intros c [E|Hc]; [discriminate E|now apply (Hw2 c)]|].
    constructor; [apply (impl_item true h1 []), P; [|apply Q]; intros c Hc; cbn in Hc; repeat (destruct Hc as [Hc|Hc]; [discriminate Hc|]); exact Hc|].
    constructor; [apply (impl_item true h2 []), P; [|apply Q]; intros c Hc; cbn in Hc; repeat (destruct Hc as [Hc|Hc]; [discriminate Hc|]); exact Hc|].
    constructor; [apply (impl_item true h3 b3), P; [|apply Q]; intros c Hc; cbn in Hc; repeat (destruct Hc as [Hc|Hc]; [discriminate Hc|]); exact Hc|].
    constructor; [|constructor].
    apply (impl_item false h4 b4), P; [|apply Q]; intros c Hc; cbn in Hc; repeat (destruct Hc as [Hc|Hc]; [discriminate Hc|]); exact Hc. }
  unfold read_code. rewrite Ets. rewrite (read_items_ok _ _ Hitems) by (eapply reads_length; exact Hitems).
  assert (D : declared items = Some (combine pads bodies, N, gfs)).
  { unfold declared, items. rewrite structs_fns, fns_fns. cbn [structs fns flat_map app]. rewrite app_nil_r. reflexivity. }
  rewrite D. unfold items. rewrite !find_impl_fns, find_inherent_fns.
  cbn [find_impl].
  assert (W : forall A (x : A), (if is_where w then Some x else None) = Some x) by (intros A x; now rewrite Hw1).
  assert (Z0 : impl_header ["crevice"; "internal"; "bytemuck"; "Zeroable"] h0 = None) by (unfold h0, N; clear; destruct l; reflexivity).
  assert (Z1 : impl_header ["crevice"; "internal"; "bytemuck"; "Zeroable"] h1 = Some N) by (transitivity (if is_where w then Some N else None); [reflexivity|apply W]).
  assert (O0 : impl_header ["crevice"; "internal"; "bytemuck"; "Pod"] h0 = None) by (unfold h0, N; clear; destruct l; reflexivity).
  assert (O1 : impl_header ["crevice"; "internal"; "bytemuck"; "Pod"] h1 = None) by reflexivity.
  assert (O2 : impl_header ["crevice"; "internal"; "bytemuck"; "Pod"] h2 = Some N) by (transitivity (if is_where w then Some N else None); [reflexivity|apply W]).
  assert (S0 : impl_header (std_trait l) h0 = None) by (unfold h0, N; clear; destruct l; reflexivity).
  assert (S1 : impl_header (std_trait l) h1 = None) by (unfold h1; clear; destruct l; reflexivity).
  assert (S2 : impl_header (std_trait l) h2 = None) by (unfold h2; clear; destruct l; reflexivity).
  assert (S3 : impl_header (std_trait l) h3 = Some N) by (transitivity (if is_where w then Some N else None); [unfold h3; clear; destruct l; reflexivity|apply W]).
  assert (A0 : impl_header (as_std_trait l) h0 = None) by (unfold h0, N; clear; destruct l; reflexivity).
  assert (A1 : impl_header (as_std_trait l) h1 = None) by (unfold h1; clear; destruct l; reflexivity).
  assert (A2 : impl_header (as_std_trait l) h2 = None) by (unfold h2; clear; destruct l; reflexivity).
  assert (A3 : impl_header (as_std_trait l) h3 = None) by (unfold h3; clear; destruct l; reflexivity).
  assert (A4 : impl_header (as_std_trait l) h4 = Some (id_name nm)) by (transitivity (if is_where w then Some (id_name nm) else None); [unfold h4; clear; destruct l; reflexivity|apply W]).
  rewrite Z0, Z1, O0, O1, O2, S0, S1, S2, S3, A0, A1, A2, A3, A4. cbn [Bool.eqb].
  assert (I0 : find_inherent [IStruct struct_attrs N gfs; IImpl false h0 b0; IImpl true h1 []; IImpl true h2 []; IImpl true h3 b3; IImpl false h4 b4] = Some (N, b0)).
  { unfold h0. cbn [find_inherent kw id_name]. now rewrite Hw1. }
  rewrite I0.
  assert (B3 : read_alignment l R b3 = Some (struct_alignment l fs)).
  { unfold b3. pose proof (read_sum_atom [] (struct_alignment_toks l fields) (struct_alignment l fs) [TP ";"] eq_refl (read_struct_al [] fields fs [TP ";"] H)) as E.
    set (Y := (struct_alignment_toks l fields ++ [TP ";"])%list) in *. clearbody Y.
    transitivity (do (e, r) <- read_sum l R [] Y; match eat ";" r with Some [] => Some e | _ => None end); [reflexivity|now rewrite E]. }
  rewrite B3.
  assert (B4 : read_conversions l b4 = Some (N, map fst fs, map fst fs)).
  { pose proof (inits_ok fields fs H (length i1)) as E5. pose proof (froms_ok fields fs H (length (input_init_toks l fields))) as E6.
    assert (L5 : (length fields <= length i1)%nat) by (unfold i1; rewrite app_length; pose proof (inits_length fields); lia).
    pose proof (froms_length fields) as L6.
    fold i1 in E5. specialize (E5 L5). specialize (E6 L6). unfold b4. set (i2 := input_init_toks l fields) in *. clearbody i1 i2. clear -E5 E6.
    transitivity (do is <- read_inits l (length i1) i1; do fs <- read_froms l (length i2) i2; Some (N, is, fs)); [destruct l; reflexivity|].
    now rewrite E5, E6. }
  rewrite B4.
  assert (B0 : read_as_bytes l N b0 = true).
  { unfold b0. clearbody N. clear. transitivity (match (do r <- (if String.eqb N N then Some (kw "as" :: Tokens.trait_path l ++ [TP ">"; TP "::"; kw "as_bytes"; TG Paren [kw "self"]])%list else None);
        do r <- eats ["as"] r; do r <- eat_path (std_trait l) r; eats [">"; "::"; "as_bytes"] r) with Some [TG Paren c] => is_all ["self"] c | _ => false end).
    - unfold read_as_bytes. destruct l; cbn; destruct (N =? N)%string; reflexivity.
    - rewrite String.eqb_refl. destruct l; reflexivity. }
  cbn [forallb]. rewrite String.eqb_refl, B0. cbn [andb]. reflexivity.
Qed.
Lemma definitions_ok input fields fs ts : plain_struct input -> ti_data input = Tokens.TNamed fields -> Forall2 rel fields fs ->
  debug_definitions l input = Some ts ->
  exists g, emit l (DeriveInput (id_name (ti_ident input)) [] (DNamed fs)) = Some g /\ read_definitions l R ts = Some (g_pads g, g_name g, g_fields g).
Proof.
  intros [Hg1 [Hg2 [Hv Hw]]] Hd H Hts. destruct input as [vis nm ig tg w data]. cbn [ti_impl_generics ti_ty_generics ti_vis ti_where ti_data ti_ident] in *. subst ig tg data.
  unfold debug_definitions, emit_parts in Hts. cbn [ti_impl_generics ti_ty_generics ti_vis ti_where ti_data ti_ident] in Hts.
  unfold emit. cbn [di_data di_ident di_generics].
  assert (HL : length fs = length fields) by (clear -H; induction H; cbn [length]; congruence). rewrite HL.
  set (pads := map (pad_fn_name l (id_name nm)) (seq 0 (length fields))) in *.
  pose proof (pads_ok fields fs (id_name nm) H (seq 0 (length fields))) as K1. cbv zeta in K1. fold pads in K1.
  assert (Ep : length pads = length fields) by (unfold pads; now rewrite map_length, seq_length). rewrite Ep in Hts.
  assert (Hp : forall i p, nth_error pads i = Some p -> exists nm, p = pad_fn_name l nm i).
  { intros i p E. unfold pads in E. rewrite nth_error_map in E. destruct (nth_error (seq 0 (length fields)) i) as [j|] eqn:Ej; [|discriminate].
    injection E as <-. exists (id_name nm). f_equal. pose proof (nth_error_nth _ _ 0%nat Ej) as Q.
    assert (i < length (seq 0 (length fields)))%nat by (apply nth_error_Some; congruence). rewrite seq_length in *. rewrite seq_nth in Q by assumption. lia. }
  pose proof (struct_fields_ok fields fs pads Hp H 0%nat) as K2.
  destruct (map_opt _ (combine (seq 0 (length fields)) pads)) as [tss|]; [|discriminate].
  destruct (map_opt (pad_fn_impl l fs pads) (seq 0 (length fields))) as [bodies|]; [|contradiction].
  destruct (struct_fields_toks l pads 0 fields) as [sf|]; [|discriminate].
  destruct (struct_fields_loop pads 0 fs) as [gfs|]; [|contradiction].
  eexists. split; [reflexivity|]. specialize (K2 (length sf) (le_n _)).
  apply (f_equal (fun o => match o with Some x => x | None => [] end)) in Hts. cbn iota in Hts.
  set (N := trait_name l ++ id_name nm) in *.
  pose proof (struct_item vis w N sf gfs Hv Hw K2) as I1.
  set (sh := ([TP "#"; TG Brack [kw "derive"; TG Paren [kw "Debug"; TP ","; kw "Clone"; TP ","; kw "Copy"]]; _; _; _; _; _; _] ++ _)%list) in I1.
  assert (Ets : ts = concat (sh :: tss)) by (rewrite <- Hts; reflexivity).
  assert (Hitems : Forall2 reads (sh :: tss) (IStruct struct_attrs N gfs :: map (fun p => IFn (fst p) (snd p)) (combine pads bodies))) by (constructor; assumption).
  unfold read_definitions. rewrite Ets, (read_items_ok _ _ Hitems) by (eapply reads_length; exact Hitems).
  cbn [g_pads g_name g_fields]. unfold declared.
  pose proof (structs_fns (combine pads bodies) []) as E1. pose proof (fns_fns (combine pads bodies) []) as E2. rewrite app_nil_r in E1, E2.
  set (X := map (fun p => IFn (fst p) (snd p)) (combine pads bodies)) in *.
  assert (D1 : structs (IStruct struct_attrs N gfs :: X) = (struct_attrs, N, gfs) :: structs X) by reflexivity.
  assert (D2 : fns (IStruct struct_attrs N gfs :: X) = fns X) by reflexivity.
  rewrite D1, D2.
  match type of E1 with ?lhs = _ => change lhs with (structs X) in E1 end.
  match type of E2 with ?lhs = _ => change lhs with (fns X) in E2 end.
  rewrite E1, E2. cbn [fns structs flat_map]. rewrite app_nil_r. reflexivity.
Qed.
End Reads.

Lemma offset_total l fields pads target idx : (forall i, In i idx -> (i < length fields)%nat /\ (i < length pads)%nat) ->
  forall output, offset_after_toks l fields pads target idx output <> None.
Proof.
  induction idx as [|i idx IH]; intros H output; [discriminate|]. cbn [offset_after_toks].
  destruct (H i (or_introl eq_refl)) as [H1 H2].
  destruct (nth_error fields i) as [[f ty]|] eqn:E1; [|apply nth_error_None in E1; lia].
  destruct (nth_error pads i) as [p|] eqn:E2; [|apply nth_error_None in E2; lia].
  destruct (Nat.ltb i target); apply IH; intros j Hj; apply H; now right.
Qed.

Lemma pad_total l fields pads ks : length pads = length fields -> (forall k p, In (k, p) ks -> (k < length fields)%nat) ->
  map_opt (fun p : nat * string => pad_fn_toks l fields pads (fst p) (snd p)) ks <> None.
Proof.
  intros HL. induction ks as [|[k p] ks IH]; intros H; [discriminate|]. rewrite map_opt_cons. cbn [fst snd].
  assert (K : pad_fn_toks l fields pads k p <> None).
  { unfold pad_fn_toks. pose proof (H k p (or_introl eq_refl)) as Hk.
    pose proof (offset_total l fields pads k (seq 0 (S k)) ltac:(intros i Hi; apply in_seq in Hi; lia) [TInt 0 "usize"]) as K.
    destruct (offset_after_toks _ _ _ _ _ _); congruence. }
  destruct (pad_fn_toks l fields pads k p); [|congruence].
  destruct (map_opt _ ks); [discriminate|]. exfalso. apply IH; [|reflexivity]. intros k' p' Hin. eapply H. right. exact Hin.
Qed.

Lemma fields_total l pads fields : forall idx, (idx + length fields <= length pads)%nat -> struct_fields_toks l pads idx fields <> None.
Proof.
  induction fields as [|[f ty] fields IH]; intros idx H; [discriminate|]. cbn [struct_fields_toks length] in *.
  destruct (nth_error pads idx) as [p|] eqn:E; [|apply nth_error_None in E; lia].
  specialize (IH (S idx) ltac:(lia)). destruct (struct_fields_toks l pads (S idx) fields); [discriminate|congruence].
Qed.

(** C92.  The macro generates code for exactly the structs with named fields, generic or not. *)
Lemma C92_emits_proof : forall l input, emit_toks l input <> None <-> exists fields, ti_data input = Tokens.TNamed fields.
Proof.
  intros l input. unfold emit_toks, emit_parts. destruct (ti_data input) as [fields| | | |] eqn:E.
  - split; [eauto|intros _]. set (pads := map _ (seq 0 (length fields))).
    assert (Ep : length pads = length fields) by (unfold pads; now rewrite map_length, seq_length).
    pose proof (pad_total l fields pads (combine (seq 0 (length pads)) pads) Ep) as K1.
    pose proof (fields_total l pads fields 0 ltac:(lia)) as K2.
    destruct (map_opt _ _); [|exfalso; apply K1; [|reflexivity]; intros k p Hin; apply in_combine_l, in_seq in Hin; lia].
    destruct (struct_fields_toks _ _ _ _); [discriminate|congruence].
  - split; [congruence|intros [f Q]; discriminate Q].
  - split; [congruence|intros [f Q]; discriminate Q].
  - split; [congruence|intros [f Q]; discriminate Q].
  - split; [congruence|intros [f Q]; discriminate Q].
Qed.

(** C92.  The generated tokens, read as Rust, are the padding functions, the struct, the impls and the conversions of
    Derive.v, from which every other theorem starts; identifiers written with [r#], a visibility and a where clause
    make no difference. *)
Lemma C92_code_proof : forall l R input fields fs ts,
  plain_struct input -> ti_data input = Tokens.TNamed fields ->
  Forall2 (fun f nt => fst nt = id_name (fst f) /\ balanced 0 (snd f) = true /\ R (snd f) = Some (snd nt)) fields fs ->
  emit_toks l input = Some ts ->
  exists g, emit l (DeriveInput (id_name (ti_ident input)) [] (DNamed fs)) = Some g
    /\ read_code l R ts = Some (id_name (ti_ident input), g)
    /\ forall tg, compile tg l g = derive_output tg l (id_name (ti_ident input)) fs.
Proof.
  intros l R input fields fs ts H1 H2 H3 H4. destruct (code_ok l R input fields fs ts H1 H2 H3 H4) as [g [E1 E2]].
  exists g. split; [assumption|]. split; [assumption|]. intros tg. unfold derive_output. now rewrite E1.
Qed.

(** C92.  What [debug_definitions] prints declares the same struct and the same functions. *)
Lemma C92_definitions_proof : forall l R input fields fs ts,
  plain_struct input -> ti_data input = Tokens.TNamed fields ->
  Forall2 (fun f nt => fst nt = id_name (fst f) /\ balanced 0 (snd f) = true /\ R (snd f) = Some (snd nt)) fields fs ->
  debug_definitions l input = Some ts ->
  exists g, emit l (DeriveInput (id_name (ti_ident input)) [] (DNamed fs)) = Some g
    /\ read_definitions l R ts = Some (g_pads g, g_name g, g_fields g).
Proof. intros l R input fields fs ts H1 H2 H3 H4. exact (definitions_ok l R input fields fs ts H1 H2 H3 H4). Qed.

(** ** Example *)

(** [pub(crate) struct r#fn where u8: Copy { r#type: <u8 as Real>::T, w: Same<f64> }] *)
Definition proj : list tok := [TP "<"; kw "u8"; kw "as"; kw "Real"; TP ">"; TP "::"; kw "T"].
Definition same64 : list tok := [kw "Same"; TP "<"; kw "f64"; TP ">"].
Definition raw_input : tok_input :=
  TokInput [kw "pub"; TG Paren [kw "crate"]] (Ident true "fn") [] [] [kw "where"; kw "u8"; TP ":"; kw "Copy"]
    (Tokens.TNamed [(Ident true "type", proj); (Ident false "w", same64)]).
Definition raw_types (ts : list tok) : option sty :=
  match ts with TP _ :: _ => Some (TPrim PF32) | [TId (Ident false "Same"); _; TId (Ident false "f64"); _] => Some (TPrim PF64) | _ => None end.
Definition raw_ts (l : lay) : list tok := match emit_toks l raw_input with Some ts => ts | None => [] end.
Definition raw_defs (l : lay) : list tok := match debug_definitions l raw_input with Some ts => ts | None => [] end.
Definition drop_head (ts : list tok) : list tok := match ts with _ :: r => r | [] => [] end.

Lemma C92_ex_proof :
  plain_struct raw_input
  /\ Forall2 (fun f nt => fst nt = id_name (fst f) /\ balanced 0 (snd f) = true /\ raw_types (snd f) = Some (snd nt))
       [(Ident true "type", proj); (Ident false "w", same64)] [("type", TPrim PF32); ("w", TPrim PF64)]
  /\ (Nat.ltb 100 (length (raw_ts L140)) = true
        /\ option_map fst (read_code L140 raw_types (raw_ts L140)) = Some "fn"
        /\ option_map (fun r => map fst (g_pads (snd r))) (read_code L140 raw_types (raw_ts L140)) = Some ["_fn__Std140Pad0"; "_fn__Std140Pad1"]
        /\ option_map (fun r => map fst (g_fields (snd r))) (read_code L140 raw_types (raw_ts L140)) = Some ["type"; "_pad0"; "w"; "_pad1"])
  /\ read_definitions L430 raw_types (raw_defs L430) = Some
       ([("_fn__Std430Pad0", CAlignOffset (CAdd (CLit 0) (CSizeOf (TPrim PF32))) (CAlignOf (TPrim PF64)));
         ("_fn__Std430Pad1",
          CAlignOffset (CAdd (CAdd (CAdd (CLit 0) (CSizeOf (TPrim PF32))) (CCall "_fn__Std430Pad0")) (CSizeOf (TPrim PF64)))
            (CMaxArr [CLit 0; CAlignOf (TPrim PF32); CAlignOf (TPrim PF64)]))],
        "Std430fn",
        [("type", GOut (TPrim PF32)); ("_pad0", GPad (CCall "_fn__Std430Pad0"));
         ("w", GOut (TPrim PF64)); ("_pad1", GPad (CCall "_fn__Std430Pad1"))])
  (* a type such as [T as U] would not be read as one; other data is rejected by the macro *)
  /\ balanced 0 [kw "T"; kw "as"; kw "U"] = false
  /\ emit_toks L140 (TokInput [] (Ident false "E") [] [] [] Tokens.TEnum) = None
  (* tokens that are not the derive's are not accepted *)
  /\ read_code L430 raw_types (raw_ts L140) = None
  /\ read_code L140 raw_types (drop_head (raw_ts L140)) = None.
Proof.
  split. { split; [reflexivity|]. split; [reflexivity|]. split; [right; right; eexists; reflexivity|].
    split; [reflexivity|]. intros b H. cbn in H. destruct H as [H|[H|[H|[H|[]]]]]; discriminate H. }
  split. { constructor; [split; [reflexivity|]; split; reflexivity|]. constructor; [split; [reflexivity|]; split; reflexivity|]. constructor. }
  split. { split; [vm_compute; reflexivity|]. split; [vm_compute; reflexivity|]. split; vm_compute; reflexivity. }
  split; [vm_compute; reflexivity|]. split; [vm_compute; reflexivity|]. split; [vm_compute; reflexivity|]. split; vm_compute; reflexivity.
Qed.
