(** * C35: the items of a module in which several structs derive layouts *)

From Coq Require Import NArith String Bool List.
From Verif Require Import Rust Internal Prims Derive Host
  RustFacts DeriveFacts Proofs_Types.
Import ListNotations.
Local Open Scope string_scope.
Local Open Scope N_scope.

(** C35.  A module declares the structs [users]; [ds] are the derives on them, with their
    fields.  The generated structs live in the same module, so it compiles only if all type
    names are distinct; they are exactly if no user struct is itself called [Std140X] or
    [Std430X] for a struct [X] deriving that layout. *)
Lemma C35_module_types_proof : forall users ds fields gs,
  NoDup users -> NoDup ds -> (forall l n, In (l, n) ds -> In n users) ->
  map_opt (fun d => emit (fst d) (DeriveInput (snd d) [] (DNamed (fields d)))) ds = Some gs ->
  (NoDup (users ++ map g_name gs)%list <->
   forall l n, In (l, n) ds -> ~ In ((match l with L140 => "Std140" | L430 => "Std430" end) ++ n) users).
Proof.
  intros users ds fields gs Hu Hd _ Hg.
  assert (E : map g_name gs = map (fun d => trait_name (fst d) ++ snd d) ds).
  { clear Hd. revert gs Hg. induction ds as [|d ds IH]; intros gs Hg; [injection Hg as <-; reflexivity|].
    rewrite map_opt_cons, emit_eq in Hg. destruct (map_opt _ ds) as [gs'|]; [|discriminate]. injection Hg as <-.
    cbn [map g_name]. now rewrite (IH gs' eq_refl). }
  assert (N : NoDup (map g_name gs)).
  { rewrite E. apply NoDup_map_inj; [|exact Hd]. intros [l n] [l' n'] H. cbn [fst snd] in H.
    apply generated_name_inj in H. now destruct H as [-> ->]. }
  assert (T : forall l, trait_name l = match l with L140 => "Std140" | L430 => "Std430" end) by (intros []; reflexivity).
  split.
  - intros H l n Hin Hin'. rewrite <- T in Hin'.
    assert (G : In (trait_name l ++ n) (map g_name gs)) by (rewrite E; apply in_map_iff; exists (l, n); auto).
    clear -H Hin' G. induction users as [|u us IH]; [destruct Hin'|]. cbn in H. inversion H; subst.
    destruct Hin' as [->|Hin']; [|auto]. apply H2. apply in_or_app. now right.
  - intros H. assert (D : forall x, In x users -> ~ In x (map g_name gs)).
    { intros x Hx Hx'. rewrite E in Hx'. apply in_map_iff in Hx'. destruct Hx' as [[l n] [<- Hin]].
      apply (H l n Hin). rewrite <- T. exact Hx. }
    clear -Hu N D. induction Hu as [|u us Hn Hu IH]; [exact N|]. cbn. constructor.
    + intros Hin. apply in_app_or in Hin. destruct Hin as [Hin|Hin]; [contradiction|]. apply (D u); [now left|exact Hin].
    + apply IH. intros x Hx. apply D. now right.
Qed.

(** C35.  The padding functions of all derives of a module never clash with each other. *)
Lemma C35_module_functions_proof : forall ds fields gs,
  NoDup ds ->
  map_opt (fun d => emit (fst d) (DeriveInput (snd d) [] (DNamed (fields d)))) ds = Some gs ->
  NoDup (concat (map (fun g => map fst (g_pads g)) gs)).
Proof.
  intros ds fields gs Hd. destruct C35_names_distinct_proof as [_ [_ [P3 P4]]]. revert gs.
  induction Hd as [|[l n] ds Hn Hd IH]; intros gs Hg; [injection Hg as <-; constructor|].
  rewrite map_opt_cons in Hg. cbn [fst snd] in Hg.
  destruct (emit l (DeriveInput n [] (DNamed (fields (l, n))))) as [g|] eqn:Eg; [|discriminate].
  destruct (map_opt _ ds) as [gs'|] eqn:Es; [|discriminate]. injection Hg as <-. cbn [map concat].
  assert (D : forall x, In x (map fst (g_pads g)) -> ~ In x (concat (map (fun g => map fst (g_pads g)) gs'))).
  { intros x Hx Hx'. apply in_concat in Hx'. destruct Hx' as [ns [H1 H2]]. apply in_map_iff in H1.
    destruct H1 as [g' [<- Hin]]. clear IH.
    assert (S : exists d, In d ds /\ emit (fst d) (DeriveInput (snd d) [] (DNamed (fields d))) = Some g').
    { clear -Es Hin. revert gs' Es Hin. induction ds as [|d ds IH]; intros gs' Es Hin; [injection Es as <-; destruct Hin|].
      rewrite map_opt_cons in Es. destruct (emit (fst d) _) as [g0|] eqn:E0; [|discriminate].
      destruct (map_opt _ ds) as [gs0|]; [|discriminate]. injection Es as <-.
      destruct Hin as [->|Hin]; [exists d; split; [now left|exact E0]|].
      destruct (IH gs0 eq_refl Hin) as [d' [A B]]. exists d'. split; [now right|exact B]. }
    destruct S as [[l' n'] [A B]]. cbn [fst snd] in B. destruct (P3 l l' n n' g g' _ _ x Eg B Hx H2) as [-> ->]. contradiction. }
  pose proof (P4 l n g _ Eg) as Ng. specialize (IH gs' eq_refl).
  clear -D Ng IH. induction Ng as [|x xs Hx Ng IHx]; [exact IH|]. cbn. constructor.
  - intros Hin. apply in_app_or in Hin. destruct Hin as [Hin|Hin]; [contradiction|]. apply (D x); [now left|exact Hin].
  - apply IHx. intros y Hy. apply D. now right.
Qed.

(** C35.  A clash: a module with the user's own structs [Foo] and [Std140Foo] cannot derive
    [AsStd140] on [Foo]. *)
Lemma C35_user_names_refuted_proof :
  exists g, emit L140 (DeriveInput "Foo" [] (DNamed [("x", TPrim PF32)])) = Some g
    /\ In (g_name g) ["Foo"; "Std140Foo"].
Proof. eexists. split; [vm_compute; reflexivity|]. right. left. reflexivity. Qed.

(** C35: a module with two structs, one of which derives both layouts. *)
Lemma C35_module_ex_proof :
  exists gs, map_opt (fun d => emit (fst d) (DeriveInput (snd d) [] (DNamed [("x", TPrim PF32); ("y", TPrim PF32)])))
     [(L140, "Foo"); (L430, "Foo"); (L140, "Std140Bar")] = Some gs
    /\ map g_name gs = ["Std140Foo"; "Std430Foo"; "Std140Std140Bar"]
    /\ concat (map (fun g => map fst (g_pads g)) gs)
       = ["_Foo__Std140Pad0"; "_Foo__Std140Pad1"; "_Foo__Std430Pad0"; "_Foo__Std430Pad1"; "_Std140Bar__Std140Pad0"; "_Std140Bar__Std140Pad1"].
Proof. eexists. split; [vm_compute; reflexivity|]. split; reflexivity. Qed.
