(** * From the generated text to the bytes *)

From Coq Require Import NArith String Ascii Bool List Lia ZArith PeanoNat.
From Coq Require Import ZifyBool ZifyN ZifyNat.
From Coq Require Import Strings.Byte.
From Verif Require Import Rust Internal Prims Derive Host Rows Buffer GlslGen SpecGlsl SpecHost SpecTypes SpecText SpecBuf SpecGpu SpecShader
  Arith RustFacts DeriveFacts TypeFacts HostFacts GlslFacts Proofs_Types Proofs_Text Proofs_Gpu Samples.
Import ListNotations.
Local Open Scope string_scope.
Local Open Scope N_scope.

(** ** lexing and parsing a definition followed by something *)

Lemma lex_def_then n fs s : rust_ident_text n = true ->
  Forall (fun f => rust_ident_text (fst f) = true /\ rust_ident_text (snd f) = true) fs ->
  (is_word n = true /\ Forall (fun f => is_word (fst f) = true /\ is_word (snd f) = true) fs)
  \/ lex_from (glsl_text n fs ++ s) "" = None.
Proof.
  intros Rn Rf. rewrite glsl_text_eq. rewrite !sapp_assoc.
  change ("struct " ++ n ++ " {" ++ nl ++ body_text fs ++ "};" ++ s)
    with ("struct" ++ String " " (n ++ String " " (String "{" (String (ascii_of_nat 10) (body_text fs ++ "};" ++ s))))).
  rewrite lex_word_sep by reflexivity. rewrite lex_space by reflexivity.
  destruct (is_word n) eqn:E; [|right; now rewrite lex_nonword].
  rewrite lex_word_sep by first [assumption|reflexivity]. rewrite lex_space by reflexivity.
  rewrite lex_punct by reflexivity. rewrite lex_space by reflexivity.
  destruct (forallb (fun f => is_word (fst f) && is_word (snd f)) fs) eqn:E2.
  - left. split; [reflexivity|]. apply Forall_forall. intros f Hin. rewrite forallb_forall in E2.
    apply andb_prop. now apply E2.
  - right. rewrite lex_body_bad; [reflexivity|assumption|]. intros X. assert (Y : forallb (fun f => is_word (fst f) && is_word (snd f)) fs = true).
    { apply forallb_forall. intros f Hin. rewrite Forall_forall in X. destruct (X f Hin) as [-> ->]. reflexivity. }
    congruence.
Qed.

Lemma parse_def_then n fs ts ds : parse_tokens PTop (def_toks n fs ++ ts)%list = Some ds ->
  exists ds', ds = (n, fs) :: ds' /\ parse_tokens PTop ts = Some ds'.
Proof.
  unfold def_toks. cbn [app parse_tokens pstep String.eqb Ascii.eqb Bool.eqb]. destruct (is_identifier n); [|discriminate].
  cbn [parse_tokens pstep Ascii.eqb Bool.eqb]. rewrite <- app_assoc.
  destruct (parse_tokens (PMembers n []) (body_toks fs ++ [TPunct "}"; TPunct ";"] ++ ts)) as [l|] eqn:E; [|discriminate].
  intros H. injection H as <-. apply parse_body_inv in E. cbn [app] in E.
  destruct fs as [|f fs]; [discriminate|]. cbn [parse_tokens pstep Ascii.eqb Bool.eqb app] in E.
  destruct (parse_tokens PTop ts) as [ds'|]; [|discriminate]. injection E as <-. eauto.
Qed.

(** ** names of field types *)

Lemma word_ident_text w : is_word w = true -> rust_ident_text w = true.
Proof.
  intros H. unfold rust_ident_text. destruct w as [|c w]; [discriminate|]. cbn [String.eqb negb andb].
  apply is_word_chars in H. revert H. generalize (String c w). clear. intros s. induction s as [|c s IH]; [reflexivity|].
  cbn [all_chars]. intros H. apply andb_prop in H. destruct H as [H1 H2]. rewrite IH by assumption. rewrite andb_true_r.
  destruct c as [[] [] [] [] [] [] [] []]; try discriminate H1; reflexivity.
Qed.

Lemma builtin_ident_text n g : assoc n builtin_types = Some g -> rust_ident_text n = true.
Proof.
  intros H. apply assoc_in in H. apply word_ident_text. pose proof builtin_words as B. rewrite forallb_forall in B.
  specialize (B _ H). cbn [fst] in B. now apply andb_prop in B.
Qed.

Lemma name_of_used : forall h u n, struct_used h = Some u -> glsl_name h = Some n -> n = struct_ident u.
Proof.
  fix IH 1. intros h u n Hu Hn. destruct h as [p| |r std fs|r m|h'|nm fs|l h']; try discriminate.
  - exact (IH m u n Hu Hn).
  - injection Hu as <-. now apply glsl_name_struct_inv in Hn.
Qed.

Lemma name_text h n g : glsl_name h = Some n -> gty_of h = Some g ->
  (forall u, struct_used h = Some u -> rust_ident_text (struct_ident u) = true) -> rust_ident_text n = true.
Proof.
  intros Hn Hg Hu. destruct (struct_used h) as [u|] eqn:E.
  - rewrite (name_of_used h u n E Hn). now apply Hu.
  - destruct C30_builtin_names_proof as [_ [_ B]]. eapply builtin_ident_text. eapply B; eassumption.
Qed.

(** ** what an accepted program declares *)

Definition declares (h : hty) (d : sdecl) : Prop :=
  exists tys, map_opt (fun nf => glsl_name (snd nf)) (SpecTypes.struct_members h) = Some tys
    /\ length tys = length (SpecTypes.struct_members h)
    /\ d = (struct_ident h, combine tys (map fst (SpecTypes.struct_members h))).

Lemma program_inv : forall hs texts gs, forallb is_struct hs = true ->
  (forall h, In h hs -> rust_ident_text (struct_ident h) = true
     /\ forall f, In f (map fst (SpecTypes.struct_members h)) -> rust_ident_text f = true) ->
  (forall h f hf u, In h hs -> In (f, hf) (SpecTypes.struct_members h) -> struct_used hf = Some u -> rust_ident_text (struct_ident u) = true) ->
  map_opt struct_glsl hs = Some texts -> map_opt gty_of hs = Some gs ->
  forall ts ds, lex_from (program texts) "" = Some ts -> parse_tokens PTop ts = Some ds -> Forall2 declares hs ds.
Proof.
  induction hs as [|h hs IH]; intros texts gs Hst Hid Hcl Ht Hg ts ds Hl Hp.
  { injection Ht as <-. cbn in Hl. injection Hl as <-. injection Hp as <-. constructor. }
  cbn [map_opt] in Ht, Hg. destruct (struct_glsl h) as [t|] eqn:Et; [|discriminate]. destruct (map_opt struct_glsl hs) as [texts'|] eqn:Et'; [|discriminate].
  injection Ht as <-. destruct (gty_of h) as [g|] eqn:Eg; [|discriminate]. destruct (map_opt gty_of hs) as [gs'|] eqn:Eg'; [|discriminate].
  cbn [forallb] in Hst. apply andb_prop in Hst. destruct Hst as [Hs1 Hs2].
  destruct h as [ | | | | |name fs| ]; try discriminate.
  destruct (struct_glsl_inv _ _ _ Et) as [tys [Etys [L ->]]].
  destruct (Hid _ (or_introl eq_refl)) as [Hn Hf]. cbn [struct_ident SpecTypes.struct_members] in *.
  set (ms := combine tys (map fst fs)) in *.
  assert (RF : Forall (fun f => rust_ident_text (fst f) = true /\ rust_ident_text (snd f) = true) ms).
  { apply Forall_forall. intros [a b] Hin. cbn [fst snd]. split; [|apply Hf; eapply in_combine_r; exact Hin].
    apply in_combine_l in Hin.
    assert (K : forall f hf n, In (f, hf) fs -> glsl_name hf = Some n -> rust_ident_text n = true).
    { intros f hf n Hin' Hn'. assert (exists gf, gty_of hf = Some gf) as [gf Hgf].
      { cbn [gty_of] in Eg. destruct fs as [|f0 fs0]; [destruct Hin'|].
        destruct (map_opt (fun nf : string * hty => match gty_of (snd nf) with Some g => Some (fst nf, g) | None => None end) (f0 :: fs0)) as [gg|] eqn:E; [|discriminate].
        clear - E Hin'. revert gg E. induction (f0 :: fs0) as [|[f1 h1] r IHr]; intros gg E; [destruct Hin'|].
        cbn [map_opt fst snd] in E. destruct (gty_of h1) as [g1|] eqn:E1; [|discriminate].
        destruct (map_opt _ r) as [gr|] eqn:E2; [|discriminate]. destruct Hin' as [H|H]; [injection H as <- <-; eauto|]. eapply IHr; [exact H|reflexivity]. }
      apply (name_text hf n gf Hn' Hgf). intros u Hu. eapply Hcl; [left; reflexivity|exact Hin'|exact Hu]. }
    clear - Hin Etys K. revert tys Etys Hin. induction fs as [|[f hf] fs IHfs]; intros tys Etys Hin; cbn [map_opt snd] in Etys.
    - injection Etys as <-. destruct Hin.
    - destruct (glsl_name hf) as [n|] eqn:En; [|discriminate]. destruct (map_opt _ fs) as [tys'|] eqn:E2; [|discriminate]. injection Etys as <-.
      destruct Hin as [<-|Hin]; [eapply K; [left; reflexivity|exact En]|]. eapply IHfs; [|reflexivity|exact Hin].
      intros f' hf' n' Hin'. apply (K f'). now right. }
  cbn [program] in Hl. destruct (lex_def_then name ms (newline ++ program texts') Hn RF) as [[W1 W2]|W]; [|congruence].
  rewrite lex_def in Hl by assumption. rewrite lex_space_front in Hl.
  destruct (lex_from (program texts') "") as [ts'|] eqn:El; [|discriminate]. cbn [tcons] in Hl. injection Hl as <-.
  apply parse_def_then in Hp. destruct Hp as [ds' [-> Hp]]. constructor.
  - exists tys. auto.
  - eapply (IH texts' gs'); try eassumption; try reflexivity.
    + intros h Hin. apply Hid. now right.
    + intros h f hf u Hin. apply (Hcl h). now right.
Qed.

Lemma assoc_none_notin {A} n (e : list (string * A)) g : assoc n e = Some g -> In n (map fst e).
Proof. intros H. apply assoc_in in H. apply in_map_iff. exists (n, g). auto. Qed.

(** what elaboration checked *)
Lemma elaborate_inv : forall hs ds pre e e', Forall2 declares hs ds -> map fst e = map struct_ident pre ->
  elaborate e ds = Some e' ->
  (forall h, In h hs -> ~ In (struct_ident h) (map struct_ident pre))
  /\ NoDup (map struct_ident hs)
  /\ (forall h, In h hs -> NoDup (map fst (SpecTypes.struct_members h)))
  /\ (forall k h f hf n, nth_error hs k = Some h -> In (f, hf) (SpecTypes.struct_members h) -> glsl_name hf = Some n ->
        assoc n builtin_types = None -> In n (map struct_ident (pre ++ firstn k hs))).
Proof.
  induction hs as [|h hs IH]; intros ds pre e e' HF He Hel.
  { split; [intros ? []|]. split; [constructor|]. split; [intros ? []|]. intros [|k]; discriminate. }
  inversion HF as [|? d ? ds' Hd HF']; subst. destruct Hd as [tys [Etys [L ->]]].
  cbn [elaborate] in Hel. destruct (declare e _) as [e1|] eqn:Ed; [|discriminate].
  unfold declare in Ed. rewrite map_snd_combine' in Ed by (now rewrite map_length).
  destruct (nodupb (map fst (SpecTypes.struct_members h))) eqn:En; [|discriminate]. cbn [andb] in Ed.
  destruct (existsb (String.eqb (struct_ident h)) (map fst e)) eqn:Ex; [discriminate|]. cbn [negb] in Ed.
  destruct (map_opt _ (combine tys _)) as [fs|] eqn:Em; [|discriminate]. injection Ed as <-.
  assert (Hnew : ~ In (struct_ident h) (map struct_ident pre)).
  { rewrite <- He. intros X. assert (existsb (String.eqb (struct_ident h)) (map fst e) = true); [|congruence].
    apply existsb_exists. exists (struct_ident h). split; [assumption|apply String.eqb_refl]. }
  destruct (IH ds' (pre ++ [h])%list (e ++ [(struct_ident h, GStruct (struct_ident h) fs)])%list e' HF') as [A1 [A2 [A3 A4]]]; [|exact Hel|].
  { rewrite !map_app, He. reflexivity. }
  split; [|split; [|split]].
  - intros h' [<-|Hin]; [assumption|]. intros X. apply (A1 h' Hin). rewrite map_app. apply in_or_app. now left.
  - cbn [map]. constructor; [|assumption]. intros X. apply in_map_iff in X. destruct X as [h' [E Hin]].
    apply (A1 h' Hin). rewrite map_app, E. apply in_or_app. right. now left.
  - intros h' [<-|Hin]; [now apply nodupb_NoDup|now apply A3].
  - intros [|k] h' f hf n Hk Hin Hn Hb.
    + injection Hk as <-. cbn [firstn]. rewrite app_nil_r, <- He.
      assert (D : exists g, denotes e n = Some g).
      { clear - Em Etys Hin Hn. revert tys fs Etys Em. induction (SpecTypes.struct_members h) as [|[f1 h1] r IHr]; intros tys fs Etys Em; [destruct Hin|].
        cbn [map_opt snd] in Etys. destruct (glsl_name h1) as [n1|] eqn:E1; [|discriminate]. destruct (map_opt (fun nf => glsl_name (snd nf)) r) as [tr|] eqn:E2; [|discriminate].
        injection Etys as <-. cbn [map combine map_opt fst snd] in Em. destruct (denotes e n1) as [g1|] eqn:E3; [|discriminate].
        destruct (map_opt _ (combine tr (map fst r))) as [fr|] eqn:E4; [|discriminate].
        destruct Hin as [H|H]; [injection H as <- <-; assert (n1 = n) by congruence; subst; eauto|]. eapply IHr; [exact H|reflexivity|exact E4]. }
      destruct D as [g D]. unfold denotes in D. rewrite Hb in D. now apply assoc_none_notin in D.
    + cbn [nth_error firstn] in *. specialize (A4 k h' f hf n Hk Hin Hn Hb).
      rewrite <- app_assoc in A4. exact A4.
Qed.

(** ** C74 *)

(** C74.  If it compiles, it is right.  Let [hs] be structs deriving [GlslStruct], in any
    order, containing every struct their fields use.  Whenever a GLSL compiler accepts the
    concatenation of their [glsl_definition]s, the [NAME] of each struct denotes exactly the
    GLSL type whose layouts crevice uses for it. *)
Lemma C74_if_it_compiles_proof : forall hs texts gs ds e,
  forallb is_struct hs = true -> uses_closed hs ->
  (forall h, In h hs -> rust_ident_text (struct_ident h) = true
     /\ forall f, In f (map fst (SpecTypes.struct_members h)) -> rust_ident_text f = true) ->
  map_opt struct_glsl hs = Some texts -> map_opt gty_of hs = Some gs ->
  parse (program texts) = Some ds -> elaborate [] ds = Some e ->
  map_opt (fun h => match glsl_name h with Some n => denotes e n | None => None end) hs = Some gs.
Proof.
  intros hs texts gs ds e Hst Hcl Hid Ht Hg Hp He.
  pose proof Hp as Hp'. apply parse_good_decl in Hp'.
  unfold parse, lex in Hp. destruct (lex_from (program texts) "") as [ts|] eqn:El; [|discriminate].
  assert (HF : Forall2 declares hs ds).
  { eapply program_inv; try eassumption. intros h f hf u Hin Hm Hu. apply Hid. eapply Hcl; eassumption. }
  destruct (elaborate_inv hs ds [] [] e HF eq_refl He) as [_ [B2 [B3 B4]]].
  assert (Hok : forall h, In h hs -> ok_struct h).
  { intros h Hin. split; [|split; [now apply B3|]].
    - clear - HF Hp' Hin. induction HF as [|h0 d hs ds [tys [_ [_ ->]]] _ IH]; [destruct Hin|]. inversion Hp' as [|? ? [G _] G']; subst.
      destruct Hin as [<-|Hin]; [exact G|auto].
    - clear - HF Hp' Hin. induction HF as [|h0 d hs ds [tys [_ [L ->]]] _ IH]; [destruct Hin|]. inversion Hp' as [|? ? [_ [_ G]] G']; subst.
      destruct Hin as [<-|Hin]; [|auto]. cbn [snd] in G. apply good_fields_combine in G; [|now rewrite map_length].
      destruct G as [_ G]. intros f Hf. rewrite Forall_forall in G. auto. }
  assert (Hord : in_order [] hs).
  { assert (G : forall k, in_order (firstn k hs) (skipn k hs)).
    { intros k. remember (length hs - k)%nat as d eqn:Ed. revert k Ed. induction d as [|d IHd]; intros k Ed.
      - rewrite (skipn_all2 hs) by lia. exact I.
      - destruct (skipn k hs) as [|h r] eqn:Es; [exact I|].
        assert (Hk : nth_error hs k = Some h).
        { rewrite <- (firstn_skipn k hs), Es. rewrite nth_error_app2; rewrite firstn_length_le by lia; [now rewrite Nat.sub_diag|lia]. }
        cbn [in_order]. split.
        + intros f hf u Hin Hu. pose proof (nth_error_In _ _ Hk) as Hh.
          pose proof (Hcl h f hf u Hh Hin Hu) as Huin.
          assert (exists n, glsl_name hf = Some n) as [n Hn].
          { clear - HF Hh Hin. induction HF as [|h0 d hs ds [tys [E _]] _ IH]; [destruct Hh|]. destruct Hh as [<-|Hh]; [|auto].
            revert tys E. induction (SpecTypes.struct_members h0) as [|[f1 h1] r IHr]; intros tys E; [destruct Hin|].
            cbn [map_opt snd] in E. destruct (glsl_name h1) as [n|] eqn:E1; [|discriminate].
            destruct (map_opt _ r) as [tr|]; [|discriminate]. destruct Hin as [H|H]; [injection H as <- <-; eauto|]. eapply IHr; [exact H|reflexivity]. }
          pose proof (name_of_used _ _ _ Hu Hn) as ->.
          specialize (B4 k h f hf _ Hk Hin Hn (identifier_not_builtin _ (proj1 (Hok u Huin)))).
          cbn [app] in B4. apply in_map_iff in B4. destruct B4 as [p [Ep Hp1]].
          assert (Hp2 : In p hs) by (rewrite <- (firstn_skipn k hs); apply in_or_app; now left).
          replace u with p; [assumption|]. clear - B2 Ep Hp2 Huin.
          induction hs as [|a hs IH]; [destruct Hp2|]. cbn [map] in B2. inversion B2 as [|? ? N1 N2]; subst.
          destruct Hp2 as [->|Hp2], Huin as [->|Huin]; [reflexivity| | |auto].
          * exfalso. apply N1. rewrite Ep. now apply in_map.
          * exfalso. apply N1. rewrite <- Ep. now apply in_map.
        + replace (firstn k hs ++ [h])%list with (firstn (S k) hs).
          2:{ rewrite <- (firstn_skipn k hs) at 1. rewrite Es. rewrite firstn_app, firstn_firstn.
              rewrite firstn_length_le by (apply Nat.lt_le_incl; apply nth_error_Some; congruence).
              replace (S k - k)%nat with 1%nat by lia. replace (Nat.min (S k) k) with k by lia. reflexivity. }
          replace r with (skipn (S k) hs).
          2:{ clear - Es. revert hs Es. induction k as [|k IHk]; intros [|a hs] Es; cbn [skipn] in *; try discriminate; [now injection Es|]. now apply IHk. }
          apply IHd. lia. }
    exact (G 0%nat). }
  destruct (C30_program_denotes_types_proof hs texts gs Hst Hord B2 Hok Ht Hg) as [ds' [e' [P1 [_ [P2 P3]]]]].
  unfold parse, lex in P1. rewrite El in P1. assert (ds' = ds) as -> by congruence. assert (e' = e) as -> by congruence. exact P3.
Qed.

(** C74.  So, end to end: in a program that a GLSL compiler accepts, a variable declared with
    the [NAME] of a struct has the size crevice says, reads from the bytes of
    [v.as_stdN()] the value [v] stands for, and whatever it holds is what the host reads
    with [from_stdN]. *)
Lemma C74_end_to_end_proof : forall tg l hs texts gs ds e h t n g,
  target_ok tg = true -> forallb is_struct hs = true -> uses_closed hs ->
  (forall h, In h hs -> rust_ident_text (struct_ident h) = true
     /\ forall f, In f (map fst (SpecTypes.struct_members h)) -> rust_ident_text f = true) ->
  map_opt struct_glsl hs = Some texts -> map_opt gty_of hs = Some gs ->
  parse (program texts) = Some ds -> elaborate [] ds = Some e ->
  In h hs -> out_ty tg l h = Some t -> glsl_name h = Some n -> denotes e n = Some g ->
  size_of tg t = gsize l g /\ std_align l t = Some (base_align l g)
  /\ (forall v bs buf off, hval_ok tg h v = true -> as_std_bytes tg l h v = Some bs -> read_at buf off (len bs) = Some bs ->
        exists x, gval_of tg h v = Some x /\ gread tg l g buf off = Some x)
  /\ (forall buf off v, host_reads tg l h buf off v -> exists x, gval_of tg h v = Some x /\ gread tg l g buf off = Some x).
Proof.
  intros tg l hs texts gs ds e h t n g Htg Hst Hcl Hid Ht Hg Hp He Hin Ho Hn Hd.
  pose proof (C74_if_it_compiles_proof hs texts gs ds e Hst Hcl Hid Ht Hg Hp He) as HM.
  assert (Hgt : gty_of h = Some g).
  { clear - HM Hg Hin Hn Hd. revert gs HM Hg. induction hs as [|h0 hs IH]; intros gs HM Hg; [destruct Hin|].
    cbn [map_opt] in HM, Hg. destruct (gty_of h0) as [g0|] eqn:E0; [|discriminate]. destruct (map_opt gty_of hs) as [gr|] eqn:Er; [|discriminate].
    match type of HM with context [map_opt ?F hs] => destruct (match glsl_name h0 with Some n => denotes e n | None => None end) as [g1|] eqn:E1; [|discriminate]; destruct (map_opt F hs) as [gr'|] eqn:E2; [|discriminate] end.
    assert (g1 = g0) by congruence. assert (gr' = gr) by congruence. subst g1 gr'.
    destruct Hin as [->|Hin]; [|exact (IH Hin gr eq_refl eq_refl)].
    rewrite Hn in E1. congruence. }
  destruct (size_align_glsl tg Htg h l t g Ho Hgt) as [Ha [Hs _]].
  split; [assumption|]. split.
  { destruct h as [ | | | | |name fs| ]; try (exfalso; clear - Hst Hin; rewrite forallb_forall in Hst; now specialize (Hst _ Hin)).
    exact (proj1 (C17_glsl_size_and_alignment_proof tg l name fs t g Htg Ho Hgt)). }
  split.
  - intros v bs buf off Hv Hb Hr. exact (C23_gpu_reads_host_value_proof tg l h t g v bs buf off Htg Ho Hgt Hv Hb Hr).
  - intros buf off v Hr. destruct (host_reads_facts tg l h t g buf off v Htg Ho Hgt Hr) as [_ [_ H]]. exact H.
Qed.

(** C74: two structs, one using the other, in the order that compiles - the text is accepted,
    the sizes and the value read from the bytes are computed - and in the order that does not;
    and a field whose Rust name is a GLSL keyword makes the text unacceptable. *)
Lemma C74_ex_proof :
  uses_closed [point_light; shadowed]
  /\ (forall h, In h [point_light; shadowed] -> rust_ident_text (struct_ident h) = true
        /\ forall f, In f (map fst (SpecTypes.struct_members h)) -> rust_ident_text f = true)
  /\ (exists texts gs ds e t g, map_opt struct_glsl [point_light; shadowed] = Some texts
        /\ map_opt gty_of [point_light; shadowed] = Some gs
        /\ parse (program texts) = Some ds /\ elaborate [] ds = Some e
        /\ out_ty x86_64 L140 shadowed = Some t /\ glsl_name shadowed = Some "Shadowed" /\ denotes e "Shadowed" = Some g
        /\ gsize L140 g = size_of x86_64 t)
  /\ (exists texts ds, map_opt struct_glsl [shadowed; point_light] = Some texts
        /\ parse (program texts) = Some ds /\ elaborate [] ds = None)
  /\ (exists text, struct_glsl (HStruct "Bad" [("sampler2D", HPrim PF32)]) = Some text
        /\ rust_ident_text "sampler2D" = true /\ parse (program [text]) = None).
Proof.
  split; [|split; [|split; [|split]]].
  - intros h f hf u [<-|[<-|[]]]; cbn [SpecTypes.struct_members point_light shadowed];
      intros [E|[E|[E|[]]]] Hu; injection E as <- <-; cbn in Hu; try discriminate. injection Hu as <-. now left.
  - intros h [<-|[<-|[]]]; (split; [reflexivity|]); cbn; intros f [<-|[<-|[<-|[]]]]; reflexivity.
  - do 6 eexists. repeat (split; [vm_compute; reflexivity|]). vm_compute; reflexivity.
  - do 2 eexists. repeat (split; [vm_compute; reflexivity|]). vm_compute; reflexivity.
  - eexists. repeat (split; [vm_compute; reflexivity|]). vm_compute; reflexivity.
Qed.
