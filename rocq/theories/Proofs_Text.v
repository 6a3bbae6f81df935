(** * Generated GLSL text: C29, C30, C42 *)

From Coq Require Import PeanoNat NArith String Ascii Bool List Lia.
From Verif Require Import Rust Internal Prims Derive Host Rows GlslGen SpecGlsl SpecHost SpecTypes SpecText SpecFields
  RustFacts TypeFacts HostFacts Samples.
Import ListNotations.
Local Open Scope string_scope.

(** ** Strings *)

Lemma sapp_assoc (a b c : string) : (a ++ b) ++ c = a ++ (b ++ c).
Proof. induction a as [|x a IH]; cbn; [reflexivity|now rewrite IH]. Qed.
Lemma sapp_nil_r (a : string) : a ++ "" = a.
Proof. induction a as [|x a IH]; cbn; [reflexivity|now rewrite IH]. Qed.

Definition body_text (fs : list (string * string)) : string :=
  fold_right (fun f s => tab ++ fst f ++ " " ++ snd f ++ ";" ++ nl ++ s) "" fs.

Lemma definition_loop_eq fs : forall out, definition_loop fs out = out ++ body_text fs.
Proof.
  induction fs as [|[ty n] fs IH]; intros out; cbn [definition_loop body_text fold_right].
  - now rewrite sapp_nil_r.
  - rewrite IH. cbn [fst snd]. rewrite !sapp_assoc. reflexivity.
Qed.

Lemma glsl_text_eq n fs : glsl_text n fs = "struct " ++ n ++ " {" ++ nl ++ body_text fs ++ "};".
Proof. unfold glsl_text. rewrite definition_loop_eq. rewrite !sapp_assoc. reflexivity. Qed.

(** ** Lexing *)

Lemma lex_word w : forall s cur, all_chars word_char w = true -> lex_from (w ++ s) cur = lex_from s (cur ++ w).
Proof.
  induction w as [|c w IH]; intros s cur H; cbn [append] in *.
  - now rewrite sapp_nil_r.
  - cbn [all_chars] in H. apply andb_prop in H. destruct H as [H1 H2]. cbn [lex_from]. rewrite H1, IH by assumption.
    now rewrite sapp_assoc.
Qed.

Definition tcons (ts : list token) (o : option (list token)) : option (list token) :=
  match o with Some us => Some (ts ++ us)%list | None => None end.

Lemma is_word_chars w : is_word w = true -> all_chars word_char w = true.
Proof.
  destruct w as [|c w]; [discriminate|]. cbn [is_word all_chars]. intros H. apply andb_prop in H. destruct H as [H1 H2].
  unfold word_char at 1. now rewrite H1, H2.
Qed.

Lemma flush_word w : is_word w = true -> flush w = Some [TWord w].
Proof. intros H. destruct w as [|c w]; [discriminate|]. unfold flush. now rewrite H. Qed.

Lemma lex_space c s : is_space c = true -> word_char c = false -> lex_from (String c s) "" = lex_from s "".
Proof.
  intros H1 H2. cbn [lex_from]. rewrite H1, H2. cbn [flush]. destruct (lex_from s ""); reflexivity.
Qed.

Lemma lex_punct c s : is_space c = false -> is_punct c = true -> word_char c = false ->
  lex_from (String c s) "" = tcons [TPunct c] (lex_from s "").
Proof.
  intros H1 H2 H3. cbn [lex_from]. rewrite H1, H2, H3. cbn [flush]. destruct (lex_from s ""); reflexivity.
Qed.

(** a word followed by a separator *)
Lemma lex_word_sep w c s : is_word w = true -> word_char c = false ->
  lex_from (w ++ String c s) "" = tcons [TWord w] (lex_from (String c s) "").
Proof.
  intros Hw Hc. rewrite lex_word by now apply is_word_chars. cbn [append lex_from]. rewrite Hc, (flush_word w Hw).
  cbn [flush]. destruct (lex_from s "") as [us|]; [|reflexivity]. destruct (is_space c); [reflexivity|].
  destruct (is_punct c); reflexivity.
Qed.

(** a text that is not a word makes lexing fail *)
Lemma lex_bad w : forall s cur, all_chars (fun c => negb (is_space c) && negb (is_punct c)) w = true ->
  all_chars word_char w = false -> lex_from (w ++ s) cur = None.
Proof.
  induction w as [|c w IH]; intros s cur H1 H2; [discriminate|]. cbn [all_chars append lex_from] in *.
  apply andb_prop in H1. destruct H1 as [Hc H1]. apply andb_prop in Hc. destruct Hc as [Hs Hp].
  apply negb_true_iff in Hs, Hp. destruct (word_char c); cbn [andb] in H2.
  - now apply IH.
  - rewrite Hs, Hp. destruct (flush cur); [|reflexivity]. destruct (lex_from (w ++ s) ""); reflexivity.
Qed.

Lemma lex_nonword w c s : rust_ident_text w = true -> is_word w = false -> word_char c = false ->
  lex_from (w ++ String c s) "" = None.
Proof.
  unfold rust_ident_text. intros H1 H2 Hc. apply andb_prop in H1. destruct H1 as [Hne Hs].
  destruct (all_chars word_char w) eqn:E; [|now apply lex_bad].
  rewrite lex_word by assumption. cbn [append lex_from]. rewrite Hc.
  destruct w as [|x w]; [discriminate|]. unfold flush at 1. rewrite H2. reflexivity.
Qed.

Definition body_toks (fs : list (string * string)) : list token :=
  flat_map (fun f => [TWord (fst f); TWord (snd f); TPunct ";"]) fs.
Definition def_toks (n : string) (fs : list (string * string)) : list token :=
  (TWord "struct" :: TWord n :: TPunct "{" :: body_toks fs ++ [TPunct "}"; TPunct ";"])%list.

Lemma tcons_app a b o : tcons a (tcons b o) = tcons (a ++ b) o.
Proof. destruct o; [|reflexivity]. cbn [tcons]. now rewrite app_assoc. Qed.
Lemma tcons_nil o : tcons [] o = o.
Proof. destruct o; reflexivity. Qed.

Lemma lex_body fs : forall s, Forall (fun f => is_word (fst f) = true /\ is_word (snd f) = true) fs ->
  lex_from (body_text fs ++ s) "" = tcons (body_toks fs) (lex_from s "").
Proof.
  induction fs as [|[ty n] fs IH]; intros s H; [now rewrite tcons_nil|].
  inversion H as [|? ? [W1 W2] Hr]; subst. cbn [fst snd] in W1, W2. cbn [body_text fold_right fst snd body_toks flat_map].
  fold (body_text fs). fold (body_toks fs).
  rewrite !sapp_assoc. unfold tab. cbn [append]. rewrite lex_space by reflexivity.
  rewrite lex_word_sep by first [assumption|reflexivity]. rewrite lex_space by reflexivity.
  rewrite lex_word_sep by first [assumption|reflexivity]. rewrite lex_punct by reflexivity.
  unfold nl. cbn [append]. rewrite lex_space by reflexivity. rewrite IH by assumption.
  rewrite !tcons_app. reflexivity.
Qed.

Lemma lex_body_bad fs : forall s, Forall (fun f => rust_ident_text (fst f) = true /\ rust_ident_text (snd f) = true) fs ->
  ~ Forall (fun f => is_word (fst f) = true /\ is_word (snd f) = true) fs ->
  lex_from (body_text fs ++ s) "" = None.
Proof.
  induction fs as [|[ty n] fs IH]; intros s H Hn; [exfalso; apply Hn; constructor|].
  inversion H as [|? ? [W1 W2] Hr]; subst. cbn [fst snd] in W1, W2. cbn [body_text fold_right fst snd].
  fold (body_text fs).
  rewrite !sapp_assoc. unfold tab. cbn [append]. rewrite lex_space by reflexivity.
  destruct (is_word ty) eqn:E1; [|now apply lex_nonword].
  rewrite lex_word_sep by first [assumption|reflexivity]. rewrite lex_space by reflexivity.
  destruct (is_word n) eqn:E2; [|now rewrite lex_nonword].
  rewrite lex_word_sep by first [assumption|reflexivity]. rewrite lex_punct by reflexivity.
  unfold nl. cbn [append]. rewrite lex_space by reflexivity. rewrite IH; [reflexivity|assumption|].
  intros X. apply Hn. constructor; [cbn [fst snd]; auto|assumption].
Qed.

Lemma lex_def n fs s : is_word n = true -> Forall (fun f => is_word (fst f) = true /\ is_word (snd f) = true) fs ->
  lex_from (glsl_text n fs ++ s) "" = tcons (def_toks n fs) (lex_from s "").
Proof.
  intros Hn Hf. rewrite glsl_text_eq. rewrite !sapp_assoc.
  change ("struct " ++ n ++ " {" ++ nl ++ body_text fs ++ "};" ++ s)
    with ("struct" ++ String " " (n ++ String " " (String "{" (String (ascii_of_nat 10) (body_text fs ++ "};" ++ s))))).
  rewrite lex_word_sep by reflexivity. rewrite lex_space by reflexivity.
  rewrite lex_word_sep by first [assumption|reflexivity]. rewrite lex_space by reflexivity.
  rewrite lex_punct by reflexivity. rewrite lex_space by reflexivity. rewrite lex_body by assumption.
  cbn [append]. rewrite lex_punct by reflexivity. rewrite lex_punct by reflexivity.
  rewrite !tcons_app. unfold def_toks. cbn [app]. rewrite <- !app_assoc. reflexivity.
Qed.

(** ** Parsing *)

Definition dcons (d : list sdecl) (o : option (list sdecl)) : option (list sdecl) :=
  match o with Some ds => Some (d ++ ds)%list | None => None end.

Definition good_field (f : string * string) : Prop := is_type_word (fst f) = true /\ is_identifier (snd f) = true.

Lemma parse_body n fs : forall ms ts, Forall good_field fs ->
  parse_tokens (PMembers n ms) (body_toks fs ++ ts)%list = parse_tokens (PMembers n (ms ++ fs)) ts.
Proof.
  induction fs as [|[ty m] fs IH]; intros ms ts H; [now rewrite app_nil_r|].
  inversion H as [|? ? [W1 W2] Hr]; subst. cbn [fst snd] in W1, W2.
  cbn [body_toks flat_map app fst snd parse_tokens pstep]. rewrite W1. cbn [parse_tokens pstep]. rewrite W2.
  change (pstep (PMember n (ms ++ [(ty, m)]) ty) (TPunct ";")) with (Some (PMembers n (ms ++ [(ty, m)]), @nil sdecl)).
  fold (body_toks fs). cbv beta iota.
  change ((ty, m) :: fs)%list with ([(ty, m)] ++ fs)%list. rewrite app_assoc.
  rewrite <- (IH (ms ++ [(ty, m)])%list ts Hr).
  destruct (parse_tokens (PMembers n (ms ++ [(ty, m)])) (body_toks fs ++ ts)); reflexivity.
Qed.

Lemma parse_def n fs ts : is_identifier n = true -> fs <> []%list -> Forall good_field fs ->
  parse_tokens PTop (def_toks n fs ++ ts)%list = dcons [(n, fs)] (parse_tokens PTop ts).
Proof.
  intros Hn Hne Hf. unfold def_toks. cbn [app parse_tokens pstep String.eqb Ascii.eqb Bool.eqb]. rewrite Hn.
  cbn [parse_tokens pstep Ascii.eqb Bool.eqb]. rewrite <- app_assoc. rewrite (parse_body n fs [] _ Hf). cbn [app].
  destruct fs as [|f fs]; [congruence|]. cbn [parse_tokens pstep Ascii.eqb Bool.eqb app].
  unfold dcons. destruct (parse_tokens PTop ts); reflexivity.
Qed.

(** the parser only lets valid declarations through *)
Definition good_decl (d : sdecl) : Prop :=
  is_identifier (fst d) = true /\ snd d <> []%list /\ Forall good_field (snd d).
Definition good_state (st : pstate) : Prop :=
  match st with
  | PTop | PStruct => True
  | PName n => is_identifier n = true
  | PMembers n ms => is_identifier n = true /\ Forall good_field ms
  | PType n ms ty => is_identifier n = true /\ Forall good_field ms /\ is_type_word ty = true
  | PMember n ms ty => is_identifier n = true /\ Forall good_field ms /\ is_type_word ty = true
  | PClose n ms => is_identifier n = true /\ ms <> []%list /\ Forall good_field ms
  end.

Lemma pstep_good st t st' out : good_state st -> pstep st t = Some (st', out) -> good_state st' /\ Forall good_decl out.
Proof.
  intros G H. destruct st as [| |n|n ms|n ms ty|n ms ty|n ms], t as [w|c]; cbn [pstep good_state] in *; try discriminate.
  - destruct (String.eqb w "struct"); [|discriminate]. injection H as <- <-. split; [exact I|constructor].
  - destruct (is_identifier w) eqn:E; [|discriminate]. injection H as <- <-. split; [exact E|constructor].
  - destruct (Ascii.eqb c "{"); [|discriminate]. injection H as <- <-. split; [|constructor]. split; [exact G|constructor].
  - destruct (is_type_word w) eqn:E; [|discriminate]. injection H as <- <-. split; [|constructor].
    destruct G as [G1 G2]. cbn. auto.
  - destruct ms as [|m ms]; [discriminate|]. destruct (Ascii.eqb c "}"); [|discriminate]. injection H as <- <-.
    split; [|constructor]. destruct G as [G1 G2]. split; [assumption|]. split; [discriminate|assumption].
  - destruct (is_identifier w) eqn:E; [|discriminate]. injection H as <- <-. split; [|constructor].
    destruct G as [G1 [G2 G3]]. split; [assumption|]. split; [|assumption].
    apply Forall_app. split; [assumption|]. constructor; [|constructor]. split; assumption.
  - destruct G as [G1 [G2 G3]]. destruct (Ascii.eqb c ";").
    + injection H as <- <-. split; [|constructor]. split; assumption.
    + destruct (Ascii.eqb c ","); [|discriminate]. injection H as <- <-. split; [|constructor]. cbn. auto.
  - destruct (Ascii.eqb c ";"); [|discriminate]. injection H as <- <-. split; [exact I|]. constructor; [exact G|constructor].
Qed.

Lemma parse_good ts : forall st ds, good_state st -> parse_tokens st ts = Some ds -> Forall good_decl ds.
Proof.
  induction ts as [|t ts IH]; intros st ds G H; cbn [parse_tokens] in H.
  - destruct st; try discriminate. injection H as <-. constructor.
  - destruct (pstep st t) as [[st' out]|] eqn:E; [|discriminate]. destruct (pstep_good _ _ _ _ G E) as [G' Go].
    destruct (parse_tokens st' ts) as [ds'|] eqn:E'; [|discriminate]. injection H as <-.
    apply Forall_app. split; [assumption|]. eapply IH; eassumption.
Qed.

(** ** C29 *)

Lemma is_identifier_word s : is_identifier s = true -> is_word s = true.
Proof. unfold is_identifier. intros H. apply andb_prop in H. destruct H as [H _]. apply andb_prop in H. tauto. Qed.

Lemma builtin_words : forallb (fun b => is_word (fst b) && is_keyword (fst b)) builtin_types = true.
Proof. vm_compute. reflexivity. Qed.

Lemma is_type_word_word s : is_type_word s = true -> is_word s = true.
Proof.
  unfold is_type_word. intros H. apply orb_prop in H. destruct H as [H|H]; [now apply is_identifier_word|].
  apply existsb_exists in H. destruct H as [x [Hin E]]. apply String.eqb_eq in E. subst x.
  apply in_map_iff in Hin. destruct Hin as [b [<- Hin]]. pose proof builtin_words as B. rewrite forallb_forall in B.
  specialize (B b Hin). apply andb_prop in B. tauto.
Qed.

Lemma good_fields_words fs : Forall good_field fs -> Forall (fun f => is_word (fst f) = true /\ is_word (snd f) = true) fs.
Proof.
  apply Forall_impl. intros f [H1 H2]. split; [now apply is_type_word_word|now apply is_identifier_word].
Qed.

Lemma parse_text_good n fs : is_identifier n = true -> fs <> []%list -> Forall good_field fs ->
  parse (glsl_text n fs) = Some [(n, fs)].
Proof.
  intros Hn Hne Hf. unfold parse, lex. rewrite <- (sapp_nil_r (glsl_text n fs)).
  rewrite lex_def; [|now apply is_identifier_word|now apply good_fields_words]. cbn [lex_from flush tcons].
  rewrite parse_def by assumption. reflexivity.
Qed.

Lemma parse_good_decl s ds : parse s = Some ds -> Forall good_decl ds.
Proof.
  unfold parse. intros H. destruct (lex s) as [ts|]; [|discriminate]. eapply parse_good; [|eassumption]. exact I.
Qed.

Lemma lex_def_bad n fs : rust_ident_text n = true ->
  Forall (fun f => rust_ident_text (fst f) = true /\ rust_ident_text (snd f) = true) fs ->
  (is_word n = true /\ Forall (fun f => is_word (fst f) = true /\ is_word (snd f) = true) fs)
  \/ lex (glsl_text n fs) = None.
Proof.
  intros Rn Rf. unfold lex. rewrite glsl_text_eq.
  change ("struct " ++ n ++ " {" ++ nl ++ body_text fs ++ "};")
    with ("struct" ++ String " " (n ++ String " " (String "{" (String (ascii_of_nat 10) (body_text fs ++ "};"))))).
  rewrite lex_word_sep by reflexivity. rewrite lex_space by reflexivity.
  destruct (is_word n) eqn:E; [|right; now rewrite lex_nonword].
  rewrite lex_word_sep by first [assumption|reflexivity]. rewrite lex_space by reflexivity.
  rewrite lex_punct by reflexivity. rewrite lex_space by reflexivity.
  destruct (forallb (fun f => is_word (fst f) && is_word (snd f)) fs) eqn:E2.
  - left. split; [reflexivity|]. apply Forall_forall. intros f Hin. rewrite forallb_forall in E2.
    apply andb_prop. now apply E2.
  - right. rewrite lex_body_bad; [reflexivity|assumption|]. intros X. assert (Y : forallb (fun f => is_word (fst f) && is_word (snd f)) fs = true).
    { apply forallb_forall. intros f Hin. rewrite Forall_forall in X. destruct (X f Hin) as [-> ->]. reflexivity. }
    congruence.
Qed.

(** whatever is parsed out of the tokens of a definition is that definition *)
Lemma parse_body_inv n fs : forall ms ts ds,
  parse_tokens (PMembers n ms) (body_toks fs ++ ts)%list = Some ds ->
  parse_tokens (PMembers n (ms ++ fs)) ts = Some ds.
Proof.
  induction fs as [|[ty m] fs IH]; intros ms ts ds H; [now rewrite app_nil_r|].
  cbn [body_toks flat_map app fst snd parse_tokens pstep] in H. fold (body_toks fs) in H.
  destruct (is_type_word ty); [|discriminate]. cbn [parse_tokens pstep] in H.
  destruct (is_identifier m); [|discriminate].
  change (pstep (PMember n (ms ++ [(ty, m)]) ty) (TPunct ";")) with (Some (PMembers n (ms ++ [(ty, m)]), @nil sdecl)) in H.
  cbv beta iota in H. change ((ty, m) :: fs)%list with ([(ty, m)] ++ fs)%list. rewrite app_assoc. apply IH.
  destruct (parse_tokens (PMembers n (ms ++ [(ty, m)])) (body_toks fs ++ ts)) as [l|]; [|discriminate]. exact H.
Qed.

Lemma parse_def_inv n fs ds : parse_tokens PTop (def_toks n fs) = Some ds -> ds = [(n, fs)].
Proof.
  unfold def_toks. cbn [app parse_tokens pstep String.eqb Ascii.eqb Bool.eqb]. destruct (is_identifier n); [|discriminate].
  cbn [parse_tokens pstep Ascii.eqb Bool.eqb].
  destruct (parse_tokens (PMembers n []) (body_toks fs ++ [TPunct "}"; TPunct ";"])) as [l|] eqn:E; [|discriminate].
  intros H. injection H as <-. apply parse_body_inv in E. cbn [app] in E.
  destruct fs as [|f fs]; [discriminate|]. cbn [parse_tokens pstep Ascii.eqb Bool.eqb app] in E. now injection E as <-.
Qed.

Lemma map_opt_combine (inst : list string) fields : forall tys,
  map_opt (fun f : ident * glsl_fty => fty_name inst (snd f)) fields = Some tys ->
  map_opt (fun f : glsl_fty * string => match fty_name inst (fst f) with Some ty => Some (ty, snd f) | None => None end)
    (map (fun field : ident * glsl_fty => (snd field, ident_to_string (fst field))) fields)
  = Some (combine tys (map (fun f => ident_to_string (fst f)) fields)) /\ length tys = length fields.
Proof.
  induction fields as [|[i t] fields IH]; intros tys H; cbn [map_opt map fst snd] in *.
  - injection H as <-. split; reflexivity.
  - destruct (fty_name inst t) as [ty|]; [|discriminate]. destruct (map_opt _ fields) as [tys'|] eqn:E; [|discriminate].
    injection H as <-. destruct (IH tys' eq_refl) as [-> L]. split; [reflexivity|cbn; now rewrite L].
Qed.

Lemma definition_eq name ngen fields inst tys g :
  glsl_emit (GlslInput name ngen (LNamed fields)) = Some g ->
  map_opt (fun f => fty_name inst (snd f)) fields = Some tys ->
  glsl_definition inst g
  = Some (glsl_text (ident_to_string name) (combine tys (map (fun f => ident_to_string (fst f)) fields)))
  /\ length tys = length fields.
Proof.
  intros H1 H2. cbn in H1. injection H1 as <-. unfold glsl_definition, glsl_fields. cbn [gl_fields gl_name].
  destruct (map_opt_combine inst fields tys H2) as [-> L]. auto.
Qed.

Lemma good_fields_combine tys : forall ns, length tys = length ns ->
  (Forall good_field (combine tys ns) <->
   Forall (fun ty => is_type_word ty = true) tys /\ Forall (fun n => is_identifier n = true) ns).
Proof.
  induction tys as [|ty tys IH]; intros [|n ns] L; try discriminate.
  - split; [split; constructor|constructor].
  - cbn [combine]. cbn in L. assert (L' : length tys = length ns) by lia. specialize (IH ns L'). split.
    + intros H. inversion H as [|? ? [H1 H2] H3]; subst. apply IH in H3. destruct H3. split; constructor; assumption.
    + intros [H1 H2]. inversion H1; inversion H2; subst. constructor; [split; assumption|]. apply IH. split; assumption.
Qed.

Lemma field_types_eq inst fields tys : field_types inst fields tys -> map_opt (fun f => fty_name inst (snd f)) fields = Some tys.
Proof.
  intros H. apply map_opt_Forall2. induction H as [|f ty fields tys E _ IH]; constructor; [|assumption].
  unfold fty_name. destruct (snd f); [now subst|contradiction|exact E].
Qed.

(** C29.  [glsl_definition] reads back as exactly one structure declaration, with the
    struct's name and its fields in order with their type names, if and only if all the
    names are valid and there is at least one field.  (Fields whose type does not
    implement [Glsl] make the derive a compile error.) *)
Lemma C29_definition_denotes_struct_proof : forall name ngen fields inst tys g,
  glsl_emit (GlslInput name ngen (LNamed fields)) = Some g ->
  field_types inst fields tys ->
  exists text, glsl_definition inst g = Some text
  /\ (parse text = Some [(ident_to_string name, combine tys (map (fun f => ident_to_string (fst f)) fields))] <->
      is_identifier (ident_to_string name) = true /\ fields <> []
      /\ Forall (fun ty => is_type_word ty = true) tys
      /\ Forall (fun f => is_identifier (ident_to_string (fst f)) = true) fields).
Proof.
  intros name ngen fields inst tys g H1 H2. pose proof (field_types_eq _ _ _ H2) as H2'. destruct (definition_eq _ _ _ _ _ _ H1 H2') as [E L].
  eexists. split; [exact E|].
  assert (L' : length tys = length (map (fun f : ident * glsl_fty => ident_to_string (fst f)) fields)) by now rewrite map_length.
  pose proof (good_fields_combine tys _ L') as G. split.
  - intros P. apply parse_good_decl in P. inversion P as [|? ? [G1 [G2 G3]] _]; subst. cbn [fst snd] in *.
    apply G in G3. destruct G3 as [G3 G4]. split; [assumption|]. split.
    { intros ->. apply G2. destruct tys; reflexivity. }
    split; [assumption|]. now apply Forall_map in G4.
  - intros [A1 [A2 [A3 A4]]]. apply parse_text_good; [assumption| |].
    + destruct fields as [|f fields]; [congruence|]. destruct tys; [discriminate|]. discriminate.
    + apply G. split; [assumption|]. now apply Forall_map.
Qed.

(** C29.  The definition is never read as something else: for any Rust identifiers (raw
    or not ASCII ones included) and type names made of such, if the text is accepted at
    all then it declares exactly that struct. *)
Lemma C29_never_misread_proof : forall name ngen fields inst tys g text ds,
  glsl_emit (GlslInput name ngen (LNamed fields)) = Some g ->
  field_types inst fields tys ->
  rust_ident_text (ident_to_string name) = true ->
  Forall (fun ty => rust_ident_text ty = true) tys ->
  Forall (fun f => rust_ident_text (ident_to_string (fst f)) = true) fields ->
  glsl_definition inst g = Some text -> parse text = Some ds ->
  ds = [(ident_to_string name, combine tys (map (fun f => ident_to_string (fst f)) fields))].
Proof.
  intros name ngen fields inst tys g text ds H1 H2 Rn Rt Rf Ht Hp.
  pose proof (field_types_eq _ _ _ H2) as H2'. destruct (definition_eq _ _ _ _ _ _ H1 H2') as [E L]. rewrite E in Ht. injection Ht as <-.
  set (fs := combine tys (map (fun f => ident_to_string (fst f)) fields)) in *.
  assert (RF : Forall (fun f => rust_ident_text (fst f) = true /\ rust_ident_text (snd f) = true) fs).
  { apply Forall_forall. intros [a b] Hin. pose proof (in_combine_l _ _ _ _ Hin) as I1. pose proof (in_combine_r _ _ _ _ Hin) as I2.
    cbn [fst snd]. rewrite Forall_forall in Rt. split; [now apply Rt|]. apply in_map_iff in I2. destruct I2 as [f [<- I2]].
    rewrite Forall_forall in Rf. now apply Rf. }
  unfold parse in Hp. destruct (lex_def_bad _ fs Rn RF) as [[W1 W2]|W]; [|now rewrite W in Hp].
  unfold lex in Hp. rewrite <- (sapp_nil_r (glsl_text _ _)) in Hp. rewrite lex_def in Hp by assumption.
  cbn [lex_from flush tcons] in Hp. rewrite app_nil_r in Hp. now apply parse_def_inv in Hp.
Qed.

(** ** C42 *)

(** C42.  The name emitted for an ASCII identifier is a valid GLSL identifier exactly
    when it is not written as a raw identifier, is not a GLSL keyword and does not start
    with [gl_]. *)
Lemma C42_valid_names_proof : forall i, is_word (id_name i) = true ->
  (is_identifier (ident_to_string i) = true <->
   id_raw i = false /\ is_keyword (id_name i) = false /\ String.prefix "gl_" (id_name i) = false).
Proof.
  intros [[|] n] H; cbn [id_name id_raw ident_to_string] in *.
  - split; [|intros [X _]; discriminate]. unfold is_identifier. cbn [append is_word all_chars]. discriminate.
  - unfold is_identifier. rewrite H. cbn [andb]. destruct (is_keyword n), (String.prefix "gl_" n); cbn; intuition congruence.
Qed.

(** C42.  "Every name is a valid GLSL identifier" is false: structs rustc accepts whose
    generated definition is not a GLSL declaration: a raw identifier, an identifier that
    GLSL reserves, and a struct without fields. *)
Lemma C42_always_valid_refuted_proof :
  (exists g text, glsl_emit (GlslInput (Ident false "S") 0 (LNamed [(Ident true "type", FNamed "float")])) = Some g
     /\ glsl_definition [] g = Some text /\ parse text = None)
  /\ (exists g text, glsl_emit (GlslInput (Ident false "S") 0 (LNamed [(Ident false "sample", FNamed "float")])) = Some g
     /\ glsl_definition [] g = Some text /\ parse text = None)
  /\ (exists g text, glsl_emit (GlslInput (Ident false "S") 0 (LNamed [])) = Some g
     /\ glsl_definition [] g = Some text /\ parse text = None).
Proof. repeat split; do 2 eexists; repeat split; vm_compute; reflexivity. Qed.

(** C29.  A raw identifier makes every definition it occurs in invalid. *)
Lemma C42_raw_identifier_refuted_proof : forall name ngen fields inst tys g text f,
  glsl_emit (GlslInput name ngen (LNamed fields)) = Some g ->
  field_types inst fields tys ->
  rust_ident_text (ident_to_string name) = true ->
  Forall (fun ty => rust_ident_text ty = true) tys ->
  Forall (fun f => rust_ident_text (ident_to_string (fst f)) = true) fields ->
  glsl_definition inst g = Some text -> In f fields -> id_raw (fst f) = true -> parse text = None.
Proof.
  intros name ngen fields inst tys g text f H1 H2 Rn Rt Rf Ht Hin Hraw.
  destruct (parse text) as [ds|] eqn:E; [exfalso|reflexivity].
  pose proof (C29_never_misread_proof _ _ _ _ _ _ _ _ H1 H2 Rn Rt Rf Ht E) as ->.
  destruct (C29_definition_denotes_struct_proof _ _ _ _ _ _ H1 H2) as [text' [E1 E2]].
  rewrite Ht in E1. injection E1 as <-. apply E2 in E. destruct E as [_ [_ [_ E]]]. rewrite Forall_forall in E.
  specialize (E f Hin). destruct f as [[raw n] t]. cbn [fst id_raw] in *. subst raw.
  unfold is_identifier in E. cbn [ident_to_string id_raw append is_word all_chars] in E. discriminate.
Qed.

(** ** C30 *)

Lemma identifier_not_builtin n : is_identifier n = true -> assoc n builtin_types = None.
Proof.
  intros H. destruct (assoc n builtin_types) as [g|] eqn:E; [exfalso|reflexivity].
  apply assoc_in in E. pose proof builtin_words as B. rewrite forallb_forall in B. specialize (B _ E). cbn [fst] in B.
  unfold is_identifier in H. apply andb_prop in B. destruct B as [_ B]. rewrite B in H.
  rewrite andb_false_r in H. discriminate.
Qed.

Lemma std_name_denotes l std g : assoc std std_names = Some g ->
  exists n, std_glsl_name l std = Some n /\ assoc n builtin_types = Some g /\ std_glsl_name L140 std = Some n.
Proof.
  intros H. apply assoc_in in H. cbn [std_names In] in H.
  repeat (destruct H as [H|H]; [injection H as <- <-; destruct l; eexists; (split; [|split]); vm_compute; reflexivity|]).
  contradiction.
Qed.

Lemma out_glsl_denotes l : forall h n g, out_glsl l h = Some n -> gty_of h = Some g -> assoc n builtin_types = Some g.
Proof.
  revert l. fix IH 2. intros l h n g Hn Hg. destruct h as [p| |r std fs|r m|h'|nm fs|l' h']; cbn [out_glsl] in Hn; try discriminate.
  - cbn [gty_of] in Hg. destruct p; try discriminate; cbn in *; injection Hn as <-; injection Hg as <-; reflexivity.
  - cbn [gty_of] in Hg. destruct (assoc std std_names) as [g'|] eqn:E; [|discriminate].
    destruct (map_opt _ fs); [|discriminate]. destruct (_ && _); [|discriminate]. injection Hg as <-.
    destruct (std_name_denotes l std g' E) as [n' [E1 [E2 _]]]. congruence.
  - exact (IH l m n g Hn Hg).
  - exact (IH l' h' n g Hn Hg).
Qed.

Lemma glsl_fields_plain fs : forall tys,
  map_opt (fun nf : string * hty => glsl_name (snd nf)) fs = Some tys <->
  map_opt (fun f : ident * glsl_fty => fty_name [] (snd f))
    (map (fun nf : string * hty => (Ident false (fst nf), match glsl_name (snd nf) with Some n => FNamed n | None => FNoGlsl end)) fs)
  = Some tys.
Proof.
  induction fs as [|[f h] fs IH]; intros tys; cbn [map map_opt fst snd]; [tauto|].
  destruct (glsl_name h) as [n|]; cbn [fty_name]; [|split; discriminate].
  destruct (map_opt (fun nf : string * hty => glsl_name (snd nf)) fs) as [tys'|].
  - rewrite (proj1 (IH tys') eq_refl). tauto.
  - destruct (map_opt (fun f0 : ident * glsl_fty => fty_name [] (snd f0)) _) as [tys'|] eqn:E; [|tauto].
    exfalso. specialize (proj2 (IH tys') eq_refl). discriminate.
Qed.

Lemma struct_glsl_inv name fs text : struct_glsl (HStruct name fs) = Some text ->
  exists tys, map_opt (fun nf => glsl_name (snd nf)) fs = Some tys /\ length tys = length fs
    /\ text = glsl_text name (combine tys (map fst fs)).
Proof.
  unfold struct_glsl. intros H. destruct (glsl_emit _) as [g|] eqn:E; [|discriminate].
  cbn in E. injection E as <-. unfold glsl_definition, glsl_fields in H. cbn [gl_fields gl_name] in H.
  destruct (map_opt _ _) as [fs'|] eqn:E; [|discriminate]. injection H as <-.
  destruct (map_opt (fun nf => glsl_name (snd nf)) fs) as [tys|] eqn:E1.
  - exists tys. split; [reflexivity|]. pose proof E1 as E2. apply glsl_fields_plain in E2.
    destruct (map_opt_combine [] _ tys E2) as [E3 L]. rewrite E3 in E. injection E as <-.
    rewrite map_length in L. split; [assumption|]. rewrite map_map. reflexivity.
  - exfalso. rewrite map_map in E. cbn [fst snd] in E. clear - E E1. revert fs' E. induction fs as [|[f h] fs IH]; intros fs' E; [discriminate|].
    cbn [map map_opt fst snd] in *. destruct (glsl_name h) as [n|]; [|discriminate]. cbn [fty_name] in E.
    destruct (map_opt (fun nf => glsl_name (snd nf)) fs) as [tys|]; [discriminate|].
    destruct (map_opt _ (map _ fs)) as [x|] eqn:E2; [|discriminate]. now apply (IH eq_refl x).
Qed.

Lemma glsl_name_struct name fs tys : map_opt (fun nf => glsl_name (snd nf)) fs = Some tys ->
  glsl_name (HStruct name fs) = Some name.
Proof.
  intros H. cbn [glsl_name]. cbn [glsl_emit gi_data gi_ident ident_to_string id_raw id_name].
  unfold glsl_fields. cbn [gl_fields gl_name]. apply glsl_fields_plain in H.
  destruct (map_opt_combine [] _ tys H) as [E _]. rewrite E. reflexivity.
Qed.

Lemma glsl_name_struct_inv name fs n : glsl_name (HStruct name fs) = Some n -> n = name.
Proof.
  cbn [glsl_name]. cbn [glsl_emit gi_data gi_ident ident_to_string id_raw id_name]. cbn [gl_name].
  destruct (glsl_fields _ _); congruence.
Qed.

(** the type word of a field denotes the field's type *)
Lemma field_denotes e : forall h n g,
  glsl_name h = Some n -> gty_of h = Some g ->
  (forall u, struct_used h = Some u -> is_identifier (struct_ident u) = true /\ exists g', gty_of u = Some g' /\ assoc (struct_ident u) e = Some g') ->
  denotes e n = Some g.
Proof.
  fix IH 1. intros h n g Hn Hg Hu. destruct h as [p| |r std fs|r m|h'|nm fs|l h']; try discriminate.
  - cbn [glsl_name gty_of] in *. destruct p; try discriminate; cbn in *; injection Hn as <-; injection Hg as <-; reflexivity.
  - cbn [glsl_name gty_of] in *. destruct (assoc std std_names) as [g'|] eqn:E; [|discriminate].
    destruct (map_opt _ fs); [|discriminate]. destruct (_ && _); [|discriminate]. injection Hg as <-.
    destruct (std_name_denotes L140 std g' E) as [n' [E1 [E2 _]]]. unfold denotes. rewrite E1 in Hn. injection Hn as <-. now rewrite E2.
  - exact (IH m n g Hn Hg Hu).
  - apply glsl_name_struct_inv in Hn. subst n. destruct (Hu _ eq_refl) as [H1 [g' [H2 H3]]]. cbn [struct_ident] in *.
    unfold denotes. rewrite identifier_not_builtin by assumption. congruence.
  - cbn [glsl_name gty_of] in *. unfold denotes. now rewrite (out_glsl_denotes l h' n g Hn Hg).
Qed.

Lemma glsl_name_type_word : forall h n g, glsl_name h = Some n -> gty_of h = Some g ->
  (forall u, struct_used h = Some u -> is_identifier (struct_ident u) = true) -> is_type_word n = true.
Proof.
  fix IH 1. intros h n g Hn Hg Hu. destruct h as [p| |r std fs|r m|h'|nm fs|l h']; try discriminate.
  - cbn [glsl_name] in *. destruct p; try discriminate; cbn in *; injection Hn as <-; reflexivity.
  - cbn [glsl_name gty_of] in *. destruct (assoc std std_names) as [g'|] eqn:E; [|discriminate].
    destruct (std_name_denotes L140 std g' E) as [n' [E1 [E2 _]]]. rewrite E1 in Hn. injection Hn as <-.
    apply assoc_in in E2. unfold is_type_word. apply orb_true_iff. right. apply existsb_exists. exists n'. split; [|apply String.eqb_refl].
    apply in_map_iff. exists (n', g'). auto.
  - exact (IH m n g Hn Hg Hu).
  - apply glsl_name_struct_inv in Hn. subst n. specialize (Hu _ eq_refl). cbn [struct_ident] in Hu. unfold is_type_word. now rewrite Hu.
  - cbn [glsl_name gty_of] in *. pose proof (out_glsl_denotes l h' n g Hn Hg) as E.
    apply assoc_in in E. unfold is_type_word. apply orb_true_iff. right. apply existsb_exists. exists n. split; [|apply String.eqb_refl].
    apply in_map_iff. exists (n, g). auto.
Qed.

Definition ok_struct (h : hty) : Prop :=
  is_identifier (struct_ident h) = true /\ NoDup (map fst (struct_members h))
  /\ forall f, In f (map fst (struct_members h)) -> is_identifier f = true.

Lemma lex_space_front s : lex_from (newline ++ s) "" = lex_from s "".
Proof. apply lex_space; reflexivity. Qed.

Lemma map_snd_combine' {A B} (xs : list A) : forall (ys : list B), length xs = length ys -> map snd (combine xs ys) = ys.
Proof. induction xs as [|x xs IH]; intros [|y ys] L; try discriminate; [reflexivity|]. cbn in *. rewrite IH by lia. reflexivity. Qed.

(** one struct *)
Lemma struct_step e name fs text g :
  struct_glsl (HStruct name fs) = Some text -> gty_of (HStruct name fs) = Some g ->
  ok_struct (HStruct name fs) -> ~ In name (map fst e) ->
  (forall f hf u, In (f, hf) fs -> struct_used hf = Some u ->
     is_identifier (struct_ident u) = true /\ exists g', gty_of u = Some g' /\ assoc (struct_ident u) e = Some g') ->
  exists ms, text = glsl_text name ms /\ good_decl (name, ms)
    /\ declare e (name, ms) = Some (e ++ [(name, g)])%list /\ glsl_name (HStruct name fs) = Some name.
Proof.
  intros Ht Hg [Ok1 [Ok2 Ok3]] Hnew Hu. cbn [struct_ident struct_members] in *.
  destruct (struct_glsl_inv _ _ _ Ht) as [tys [Etys [L ->]]].
  assert (Egs : exists gs, map_opt (fun nf : string * hty => match gty_of (snd nf) with Some g => Some (fst nf, g) | None => None end) fs = Some gs
            /\ g = GStruct name gs /\ fs <> []).
  { cbn [gty_of] in Hg. destruct fs as [|f fs]; [discriminate|].
    destruct (map_opt (fun nf : string * hty => match gty_of (snd nf) with Some g => Some (fst nf, g) | None => None end) (f :: fs)) as [gs|]; [|discriminate].
    injection Hg as <-. exists gs. split; [reflexivity|]. split; [reflexivity|discriminate]. }
  destruct Egs as [gs [Egs [-> Hne]]].
  exists (combine tys (map fst fs)). split; [reflexivity|].
  assert (L' : length tys = length (map fst fs)) by now rewrite map_length.
  split; [|split].
  - split; [assumption|]. cbn [snd]. split.
    + destruct fs; [congruence|]. destruct tys; [discriminate|]. discriminate.
    + apply good_fields_combine; [assumption|]. split; [|now apply Forall_forall].
      clear - Etys Egs Hu. revert tys gs Etys Egs Hu. induction fs as [|[f h] fs IH]; intros tys gs Etys Egs Hu; cbn [map_opt fst snd] in *.
      * injection Etys as <-. constructor.
      * destruct (glsl_name h) as [n|] eqn:En; [|discriminate]. destruct (map_opt (fun nf => glsl_name (snd nf)) fs) as [tys'|]; [|discriminate].
        injection Etys as <-. destruct (gty_of h) as [g|] eqn:Eg; [|discriminate].
        destruct (map_opt _ fs) as [gs'|]; [|discriminate]. constructor.
        { apply (glsl_name_type_word h n g En Eg). intros u Hsu. destruct (Hu f h u (or_introl eq_refl) Hsu). assumption. }
        apply (IH tys' gs' eq_refl eq_refl). intros f' hf u Hin. apply (Hu f'). now right.
  - unfold declare. rewrite map_snd_combine' by assumption. rewrite (proj2 (nodupb_NoDup _)) by assumption. cbn [andb].
    destruct (existsb (String.eqb name) (map fst e)) eqn:Ex.
    { exfalso. apply Hnew. apply existsb_exists in Ex. destruct Ex as [y [Hy E]]. apply String.eqb_eq in E. now subst. }
    cbn [negb].
    assert (Em : map_opt (fun m : string * string => match denotes e (fst m) with Some g => Some (snd m, g) | None => None end)
                   (combine tys (map fst fs)) = Some gs).
    { clear - Etys Egs Hu. revert tys gs Etys Egs Hu. induction fs as [|[f h] fs IH]; intros tys gs Etys Egs Hu; cbn [map_opt fst snd] in *.
      - injection Etys as <-. injection Egs as <-. reflexivity.
      - destruct (glsl_name h) as [n|] eqn:En; [|discriminate]. destruct (map_opt (fun nf => glsl_name (snd nf)) fs) as [tys'|]; [|discriminate].
        injection Etys as <-. destruct (gty_of h) as [g|] eqn:Eg; [|discriminate].
        destruct (map_opt _ fs) as [gs'|]; [|discriminate]. injection Egs as <-.
        cbn [map combine map_opt fst snd]. rewrite (field_denotes e h n g En Eg (fun u => Hu f h u (or_introl eq_refl))).
        rewrite (IH tys' gs' eq_refl eq_refl) by (intros f' hf u Hin; apply (Hu f'); now right). reflexivity. }
    rewrite Em. reflexivity.
  - now apply (glsl_name_struct _ _ tys).
Qed.

(** C30.  Let [hs] be structs that derive [GlslStruct] (listed so that each comes after the
    structs its fields use, with valid and distinct names).  The concatenation of their
    [glsl_definition]s is a GLSL program, and in it the [NAME] of each of them denotes
    the GLSL type whose layouts crevice uses for it ([gty_of]; see C15-C17, C23). *)
Lemma C30_program_denotes_types_proof : forall hs texts gs,
  forallb is_struct hs = true -> in_order [] hs -> NoDup (map struct_ident hs) ->
  (forall h, In h hs -> is_identifier (struct_ident h) = true /\ NoDup (map fst (struct_members h))
     /\ forall f, In f (map fst (struct_members h)) -> is_identifier f = true) ->
  map_opt struct_glsl hs = Some texts -> map_opt gty_of hs = Some gs ->
  exists ds e, parse (program texts) = Some ds /\ length ds = length hs /\ elaborate [] ds = Some e
    /\ map_opt (fun h => match glsl_name h with Some n => denotes e n | None => None end) hs = Some gs.
Proof.
  assert (Main : forall hs pre e texts gs,
    forallb is_struct hs = true -> in_order pre hs -> NoDup (map struct_ident (pre ++ hs)) ->
    map fst e = map struct_ident pre ->
    Forall (fun u => is_identifier (struct_ident u) = true /\ exists g', gty_of u = Some g' /\ assoc (struct_ident u) e = Some g') pre ->
    (forall h, In h hs -> ok_struct h) ->
    map_opt struct_glsl hs = Some texts -> map_opt gty_of hs = Some gs ->
    exists ts ds, lex_from (program texts) "" = Some ts /\ parse_tokens PTop ts = Some ds /\ length ds = length hs
      /\ elaborate e ds = Some (e ++ combine (map struct_ident hs) gs)%list
      /\ map_opt glsl_name hs = Some (map struct_ident hs) /\ length gs = length hs).
  { induction hs as [|h hs IH]; intros pre e texts gs Hst Hord Hnd He Hpre Hok Ht Hg.
    { cbn in Ht, Hg. injection Ht as <-. injection Hg as <-. exists [], []. cbn. rewrite app_nil_r. repeat split; reflexivity. }
    cbn [map_opt] in Ht, Hg. destruct (struct_glsl h) as [t|] eqn:Et; [|discriminate]. destruct (map_opt struct_glsl hs) as [texts'|] eqn:Et'; [|discriminate].
    injection Ht as <-. destruct (gty_of h) as [g|] eqn:Eg; [|discriminate]. destruct (map_opt gty_of hs) as [gs'|] eqn:Eg'; [|discriminate].
    injection Hg as <-. cbn [forallb] in Hst. apply andb_prop in Hst. destruct Hst as [Hs1 Hs2].
    destruct h as [ | | | | |name fs| ]; try discriminate. cbn [in_order struct_members] in Hord. destruct Hord as [Ho1 Ho2].
    assert (Hnew : ~ In name (map fst e)).
    { rewrite He. rewrite map_app in Hnd. cbn [map struct_ident] in Hnd. apply NoDup_remove_2 in Hnd. intros X. apply Hnd. apply in_or_app. now left. }
    assert (Hok1 : ok_struct (HStruct name fs)) by (apply Hok; now left).
    destruct (struct_step e name fs t g Et Eg Hok1 Hnew) as [ms [-> [Gd [Ed En]]]].
    { intros f hf u Hin Hu. rewrite Forall_forall in Hpre. apply Hpre. eapply Ho1; eassumption. }
    destruct (IH (pre ++ [HStruct name fs])%list (e ++ [(name, g)])%list texts' gs' Hs2 Ho2) as [ts [ds [A1 [A2 [A3 [A4 [A5 A6]]]]]]].
    - rewrite <- app_assoc. exact Hnd.
    - rewrite !map_app, He. reflexivity.
    - apply Forall_app. split.
      + eapply Forall_impl; [|exact Hpre]. intros u [U1 [g' [U2 U3]]]. split; [assumption|]. exists g'. split; [assumption|].
        clear - U3. induction e as [|[k v] e IHe]; [discriminate|]. cbn [app]. rewrite assoc_cons in *. destruct (String.eqb (struct_ident u) k); auto.
      + constructor; [|constructor]. cbn [struct_ident]. split; [exact (proj1 Hok1)|]. exists g. split; [assumption|].
        clear - Hnew. induction e as [|[k v] e IHe]; cbn [app]; rewrite assoc_cons; [now rewrite String.eqb_refl|].
        cbn [map fst In] in Hnew. destruct (String.eqb_spec name k) as [->|]; [exfalso; apply Hnew; now left|]. apply IHe. tauto.
    - intros h Hin. apply Hok. now right.
    - reflexivity.
    - reflexivity.
    - destruct Gd as [G1 [G2 G3]]. cbn [fst snd] in *.
      exists (def_toks name ms ++ ts)%list, ((name, ms) :: ds). cbn [program]. split.
      { rewrite lex_def; [|now apply is_identifier_word|now apply good_fields_words]. rewrite lex_space_front, A1. reflexivity. }
      split. { rewrite parse_def by assumption. rewrite A2. reflexivity. }
      split; [cbn; now rewrite A3|]. split.
      { cbn [elaborate]. rewrite Ed, A4. cbn [map struct_ident combine]. rewrite <- app_assoc. reflexivity. }
      split; [|cbn; now rewrite A6]. cbn [map_opt]. rewrite En, A5. reflexivity. }
  intros hs texts gs Hst Hord Hnd Hok Ht Hg.
  destruct (Main hs [] [] texts gs Hst Hord Hnd eq_refl (Forall_nil _) Hok Ht Hg) as [ts [ds [A1 [A2 [A3 [A4 [A5 A6]]]]]]].
  exists ds, (combine (map struct_ident hs) gs). unfold parse, lex. rewrite A1.
  split; [exact A2|]. split; [exact A3|]. split; [exact A4|].
  assert (Hid : forall h, In h hs -> is_identifier (struct_ident h) = true) by (intros h Hin; exact (proj1 (Hok h Hin))).
  assert (L : length (map struct_ident hs) = length gs) by now rewrite map_length.
  assert (D : forall n g, In (n, g) (combine (map struct_ident hs) gs) -> is_identifier n = true ->
     denotes (combine (map struct_ident hs) gs) n = Some g).
  { intros n g Hin Hi. unfold denotes. rewrite identifier_not_builtin by assumption. apply assoc_nodup; [|assumption].
    assert (X : map fst (combine (map struct_ident hs) gs) = map struct_ident hs).
    { clear - L. revert gs L. induction (map struct_ident hs) as [|x xs IH]; intros [|g gs] L; try discriminate; [reflexivity|].
      cbn in *. rewrite IH by lia. reflexivity. }
    rewrite X. exact Hnd. }
  set (e := combine (map struct_ident hs) gs) in D |- *. 
  assert (Sub : forall n g, In (n, g) (combine (map struct_ident hs) gs) -> In (n, g) e) by (intros; assumption).
  clearbody e. clear - A5 A6 Hid D Sub. revert gs A6 Sub. induction hs as [|h hs IH]; intros [|g gs] A6 Sub; try discriminate; [reflexivity|].
  cbn [map_opt map] in *. destruct (glsl_name h) as [n|] eqn:En; [|discriminate].
  destruct (map_opt glsl_name hs) as [ns|]; [|discriminate]. injection A5 as -> ->.
  rewrite (D (struct_ident h) g).
  - rewrite IH with (gs := gs); [reflexivity|reflexivity| | |].
    + intros h' Hin. apply Hid. now right.
    + cbn in A6. lia.
    + intros n' g' Hin. apply Sub. now right.
  - apply Sub. now left.
  - apply Hid. now left.
Qed.

(** C30.  Every supported math type, and every built-in layout type, has a NAME, and the
    NAME is that of the GLSL built-in type of the same shape, the same in both layouts. *)
Lemma C30_builtin_names_proof :
  (forall name g, In (name, g) math_names ->
     exists h n, In (Some h) all_math_types /\ rust_name h = name /\ glsl_name h = Some n /\ assoc n builtin_types = Some g)
  /\ (forall l name g, In (name, g) std_names -> exists n, std_glsl_name l name = Some n /\ assoc n builtin_types = Some g)
  /\ (forall h n g, gty_of h = Some g -> glsl_name h = Some n -> struct_used h = None -> assoc n builtin_types = Some g).
Proof.
  split; [|split].
  - intros name g Hin.
    assert (H : forallb (fun e => existsb (fun oh => match oh with
        | Some h => String.eqb (rust_name h) (fst e)
                    && match glsl_name h with
                       | Some n => match assoc n builtin_types, snd e with
                                   | Some (GVec s n), GVec s' n' => gscalar_eqb s s' && Nat.eqb n n'
                                   | Some (GMat s c r), GMat s' c' r' => gscalar_eqb s s' && Nat.eqb c c' && Nat.eqb r r'
                                   | _, _ => false end
                       | None => false end
        | None => false end) all_math_types) math_names = true) by (vm_compute; reflexivity).
    rewrite forallb_forall in H. specialize (H _ Hin). apply existsb_exists in H.
    destruct H as [[h|] [Hh H]]; [|discriminate]. cbn [fst snd] in H. apply andb_prop in H. destruct H as [H1 H2].
    apply String.eqb_eq in H1. destruct (glsl_name h) as [n|] eqn:En; [|discriminate]. exists h, n.
    repeat (split; [first [assumption|reflexivity]|]).
    assert (GE : forall a b, gscalar_eqb a b = true -> a = b) by (intros [] []; cbn; congruence).
    destruct (assoc n builtin_types) as [g0|]; [|discriminate]. f_equal.
    destruct g0, g; try discriminate; rewrite !andb_true_iff in H2.
    + destruct H2 as [A B]. apply GE in A. apply Nat.eqb_eq in B. congruence.
    + destruct H2 as [[A B] C]. apply GE in A. apply Nat.eqb_eq in B, C. congruence.
  - intros l name g Hin. destruct (std_name_denotes l name g) as [n [E1 [E2 _]]]; [|eauto].
    apply assoc_nodup; [|assumption]. apply nodupb_NoDup. vm_compute. reflexivity.
  - intros h n g Hg Hn Hu. pose proof (field_denotes [] h n g Hn Hg) as D. unfold denotes in D.
    destruct (assoc n builtin_types); [|rewrite Hu in D; specialize (D ltac:(discriminate)); discriminate].
    apply D. rewrite Hu. discriminate.
Qed.

(** C30.  "All GLSL primitives, like [int] or [vec3], implement the [Glsl] trait"
    (documentation of the [glsl] module): every scalar, vector and square matrix type is the
    NAME of a Rust type, except [bool], which is the NAME of none that has a layout; so a
    struct with a [bool] field cannot derive [GlslStruct]. *)
Lemma C30_which_names_exist_proof :
  (forall n g, In (n, g) builtin_types -> n <> "bool" ->
     match g with GMat _ c r => c = r | _ => True end ->
     exists h n', gty_of h = Some g /\ glsl_name h = Some n' /\ assoc n' builtin_types = Some g)
  /\ (forall h n, glsl_name h = Some n -> gty_of h <> Some (GScalar GBool))
  /\ glsl_name HBool = None /\ glsl_name (HPrim PBool) = None
  /\ (forall name fs f, In (f, HBool) fs -> glsl_name (HStruct name fs) = None /\ struct_glsl (HStruct name fs) = None).
Proof.
  assert (Hmath : forall g h, gty_of h = Some g -> (exists n, glsl_name h = Some n) -> struct_used h = None ->
     exists h n', gty_of h = Some g /\ glsl_name h = Some n' /\ assoc n' builtin_types = Some g).
  { intros g h Hg [n Hn] Hu. exists h, n. split; [assumption|]. split; [assumption|].
    now apply (proj2 (proj2 C30_builtin_names_proof) h n g). }
  split; [|split; [|split; [reflexivity|split; [reflexivity|]]]].
  - intros n g Hin Hb Hsq. cbn [builtin_types In] in Hin.
    assert (Hmk : forall ty e h, mint_hty ty e = Some h -> gty_of h = Some g ->
       (exists n, glsl_name h = Some n) -> struct_used h = None ->
       exists h n', gty_of h = Some g /\ glsl_name h = Some n' /\ assoc n' builtin_types = Some g)
      by (intros ty e h _; apply Hmath).
    repeat (destruct Hin as [E|Hin];
      [injection E as <- <-; first
        [ exfalso; apply Hb; reflexivity
        | discriminate Hsq
        | eapply (Hmath _ (HPrim PF32)); [reflexivity|eexists; reflexivity|reflexivity]
        | eapply (Hmath _ (HPrim PF64)); [reflexivity|eexists; reflexivity|reflexivity]
        | eapply (Hmath _ (HPrim PI32)); [reflexivity|eexists; reflexivity|reflexivity]
        | eapply (Hmath _ (HPrim PU32)); [reflexivity|eexists; reflexivity|reflexivity]
        | match goal with |- exists h n', gty_of h = Some ?g /\ _ =>
            let o := eval vm_compute in (find (fun oh => match oh with
              | Some h => match gty_of h with
                          | Some g' => match g', g with
                                       | GVec s n, GVec s' n' => gscalar_eqb s s' && Nat.eqb n n'
                                       | GMat s c r, GMat s' c' r' => gscalar_eqb s s' && Nat.eqb c c' && Nat.eqb r r'
                                       | _, _ => false end
                          | None => false end
              | None => false end) all_math_types) in
            match o with Some (Some ?h) => apply (Hmath g h); [reflexivity|eexists; reflexivity|reflexivity] end end ]|]).
    contradiction.
  - assert (Hout : forall h l n, out_glsl l h = Some n -> gty_of h <> Some (GScalar GBool)).
    { fix IH 1. intros h l n H. destruct h as [p| |r std fs|r m|h'|nm fs|l' h']; try discriminate.
      - destruct p; cbn in *; discriminate.
      - cbn [gty_of]. intros X. destruct (assoc std std_names) as [g|] eqn:E; [|discriminate].
        destruct (map_opt _ fs); [|discriminate]. destruct (_ && _); [|discriminate]. injection X as ->.
        apply assoc_in in E. cbn [std_names In] in E. intuition discriminate.
      - exact (IH m l n H).
      - exact (IH h' l' n H). }
    fix IH 1. intros h n H. destruct h as [p| |r std fs|r m|h'|nm fs|l' h']; try discriminate.
    + destruct p; cbn in *; discriminate.
    + exact (Hout (HEasy r std fs) L140 n H).
    + exact (IH m n H).
    + cbn [gty_of]. destruct fs; [discriminate|]. destruct (map_opt _ _); discriminate.
    + exact (Hout h' l' n H).
  - intros name fs f Hin.
    assert (Hnone : map_opt (fun nf => glsl_name (snd nf)) fs = None).
    { induction fs as [|[f' h] fs IH]; [contradiction|]. cbn [map_opt snd]. destruct Hin as [E|Hin].
      - injection E as -> ->. reflexivity.
      - destruct (glsl_name h); [|reflexivity]. now rewrite (IH Hin). }
    split.
    + destruct (glsl_name (HStruct name fs)) as [n|] eqn:E; [exfalso|reflexivity].
      cbn [glsl_name] in E. cbn [glsl_emit gi_data gi_ident ident_to_string id_raw id_name gl_name] in E.
      destruct (glsl_fields _ _) as [ff|] eqn:Ef; [|discriminate].
      assert (X : exists t, struct_glsl (HStruct name fs) = Some t).
      { unfold struct_glsl. cbn [glsl_emit gi_data gi_ident ident_to_string id_raw id_name gl_name].
        unfold glsl_definition. rewrite Ef. eauto. }
      destruct X as [t X]. apply struct_glsl_inv in X. destruct X as [tys [X _]]. congruence.
    + destruct (struct_glsl (HStruct name fs)) as [t|] eqn:E; [exfalso|reflexivity].
      apply struct_glsl_inv in E. destruct E as [tys [X _]]. congruence.
Qed.

(** C30.  Which types have a NAME. *)
Lemma std_named l std t : find_std l std = Some t -> forall l', std_glsl_name l' std <> None.
Proof.
  intros H l'. pose proof (find_std_names _ _ _ H) as Hin.
  assert (Hall : forallb (fun n => match std_glsl_name l' n with Some _ => true | None => false end) table_names = true)
    by (destruct l'; vm_compute; reflexivity).
  rewrite forallb_forall in Hall. specialize (Hall _ Hin). destruct (std_glsl_name l' std); [discriminate|congruence].
Qed.

Lemma out_named tg : forall h l t, out_ty tg l h = Some t -> forall l', out_glsl l' h = None <-> output_lacks_name h = true.
Proof.
  induction h as [p| |r s fs IH|r m IH|h IH|n fs IH|l0 h IH] using hty_ind'; intros l t Ho l'; cbn [out_glsl output_lacks_name].
  - destruct p; cbn; split; congruence.
  - tauto.
  - destruct (easy_facts _ _ _ _ _ _ Ho) as [outs [ln [n [al [decl [E _]]]]]]. pose proof (std_named _ _ _ E l'). split; congruence.
  - eapply IH. exact Ho.
  - tauto.
  - tauto.
  - cbn [out_ty] in Ho. destruct (out_ty tg l0 h) as [u|] eqn:E; [|discriminate]. eapply IH. exact E.
Qed.

Lemma C30_types_without_name_proof : forall tg l h t,
  out_ty tg l h = Some t -> (glsl_name h = None <-> lacks_name h = true).
Proof.
  intros tg. intros l h. revert h l.
  induction h as [p| |r s fs IH|r m IH|h IH|n fs IH|l0 h IH] using hty_ind'; intros l t Ho.
  - destruct p; cbn; split; congruence.
  - cbn. tauto.
  - destruct (easy_facts _ _ _ _ _ _ Ho) as [outs [ln [n [al [decl [E _]]]]]]. cbn [glsl_name lacks_name].
    pose proof (std_named _ _ _ E L140). split; congruence.
  - cbn [glsl_name lacks_name]. eapply IH. exact Ho.
  - cbn. tauto.
  - cbn [lacks_name].
    assert (E : map_opt (fun nf => glsl_name (snd nf)) fs = None <-> existsb (fun nf => lacks_name (snd nf)) fs = true).
    { cbn [out_ty] in Ho. destruct (map_opt _ fs) as [outs|] eqn:Eo; [|discriminate]. clear Ho. apply map_opt_Forall2 in Eo.
      revert IH. induction Eo as [|[f h] [f' u] fs outs E _ IHe]; intros IH; [cbn; split; discriminate|]. inversion_clear IH as [|? ? H1 H2].
      cbn [map_opt existsb snd fst] in *. destruct (out_ty tg l h) as [u'|] eqn:Eu; [|discriminate]. specialize (H1 _ _ Eu). specialize (IHe H2).
      rewrite orb_true_iff, <- H1, <- IHe. destruct (glsl_name h), (map_opt _ fs); split; intros X; try tauto; try discriminate; destruct X; discriminate. }
    rewrite <- E. destruct (map_opt (fun nf => glsl_name (snd nf)) fs) as [tys|] eqn:Em.
    + rewrite (glsl_name_struct n fs tys Em). split; discriminate.
    + split; [reflexivity|]. intros _. destruct (glsl_name (HStruct n fs)) as [nm|] eqn:E1; [exfalso|reflexivity].
      cbn [glsl_name] in E1. cbn [glsl_emit gi_data gi_ident ident_to_string id_raw id_name gl_name] in E1.
      destruct (glsl_fields _ _) as [ff|] eqn:Ef; [|discriminate].
      assert (X : exists t, struct_glsl (HStruct n fs) = Some t).
      { unfold struct_glsl. cbn [glsl_emit gi_data gi_ident ident_to_string id_raw id_name gl_name].
        unfold glsl_definition. rewrite Ef. eauto. }
      destruct X as [t' X]. apply struct_glsl_inv in X. destruct X as [tys [X _]]. congruence.
  - cbn [glsl_name lacks_name]. cbn [out_ty] in Ho. destruct (out_ty tg l0 h) as [u|] eqn:E; [|discriminate].
    eapply out_named. exact E.
Qed.

Lemma C30_ex_without_name_proof :
  lacks_name scene = true /\ glsl_name scene = None /\ lacks_name main_uniform = false /\ glsl_name main_uniform = Some "MainUniform"
  /\ glsl_name (HStruct "S" [("d", HDyn vec3f)]) = None /\ glsl_name (HStruct "S" [("m", HOut L430 mat3f)]) = Some "S".
Proof. conjs; vm_compute; reflexivity. Qed.

(** C30.  For generic structs a NAME does not determine the type: the instances of one
    generic struct have the same NAME and different definitions, so a program that uses
    two of them is ambiguous. *)
Lemma C30_generic_names_refuted_proof :
  exists g i1 i2 t1 t2,
    glsl_emit (GlslInput (Ident false "Pair") 1 (LNamed [(Ident false "a", FParam 0); (Ident false "b", FParam 0)])) = Some g
    /\ glsl_definition i1 g = Some t1 /\ glsl_definition i2 g = Some t2
    /\ (exists m1 m2, parse t1 = Some [(gl_name g, m1)] /\ parse t2 = Some [(gl_name g, m2)] /\ m1 <> m2)
    /\ (exists ds, parse (program [t1; t2]) = Some ds /\ elaborate [] ds = None).
Proof.
  eexists. exists ["float"], ["vec3"]. do 2 eexists. split; [reflexivity|]. split; [reflexivity|]. split; [reflexivity|]. split.
  - do 2 eexists. split; [vm_compute; reflexivity|]. split; [vm_compute; reflexivity|]. discriminate.
  - eexists. split; vm_compute; reflexivity.
Qed.

(** C29.  The derive rejects everything but structs with named fields. *)
Lemma C29_rejected_inputs_proof : forall input,
  glsl_emit input = None <-> forall fs, gi_data input <> LNamed fs.
Proof.
  intros [i n d]. cbn. destruct d as [fs| | | |]; cbn; split; try discriminate; try (intros _ fs; discriminate); try reflexivity.
  intros H. exfalso. now apply (H fs).
Qed.

(** ** Examples *)

(** the snapshot test of the crate (/repo/tests/test.rs, tests/snapshots) *)
Lemma C29_ex_proof :
  exists g, glsl_emit (GlslInput (Ident false "TestGlsl") 0
     (LNamed [(Ident false "foo", FNamed "vec3"); (Ident false "bar", FNamed "mat2")])) = Some g
  /\ glsl_definition [] g = Some ("struct TestGlsl {" ++ nl ++ tab ++ "vec3 foo;" ++ nl ++ tab ++ "mat2 bar;" ++ nl ++ "};")
  /\ parse ("struct TestGlsl {" ++ nl ++ tab ++ "vec3 foo;" ++ nl ++ tab ++ "mat2 bar;" ++ nl ++ "};")
     = Some [("TestGlsl", [("vec3", "foo"); ("mat2", "bar")])]
  (* the parser accepts GLSL that crevice never writes, and rejects malformed text *)
  /\ parse "struct A{float x,y;mat2 m;};struct B{A a;};" = Some [("A", [("float", "x"); ("float", "y"); ("mat2", "m")]); ("B", [("A", "a")])]
  /\ parse "struct A { float x }; " = None /\ parse "struct float { int x; };" = None.
Proof. eexists. split; [reflexivity|]. repeat split; vm_compute; reflexivity. Qed.

(** a nested program: [PointLight] before [Shadowed], which contains it *)
Definition shadowed : hty := HStruct "Shadowed" [("light", point_light); ("map", HPrim PU32); ("view", mat3f)].
Lemma C30_ex_proof :
  forallb is_struct [point_light; shadowed] = true /\ in_order [] [point_light; shadowed]
  /\ NoDup (map struct_ident [point_light; shadowed])
  /\ (exists texts gs ds e, map_opt struct_glsl [point_light; shadowed] = Some texts
        /\ map_opt gty_of [point_light; shadowed] = Some gs
        /\ parse (program texts) = Some ds /\ elaborate [] ds = Some e
        /\ map_opt (denotes e) ["PointLight"; "Shadowed"] = Some gs).
Proof.
  split; [reflexivity|]. split; [|split].
  - cbn [in_order struct_members point_light shadowed]. split; [|split; [|exact I]].
    + intros f hf u [E|[E|[E|[]]]] Hu; injection E as <- <-; discriminate.
    + intros f hf u [E|[E|[E|[]]]] Hu; injection E as <- <-; cbn in Hu; try discriminate. injection Hu as <-. now left.
  - apply nodupb_NoDup. reflexivity.
  - do 4 eexists. split; [vm_compute; reflexivity|]. split; [vm_compute; reflexivity|].
    split; [vm_compute; reflexivity|]. split; vm_compute; reflexivity.
Qed.

(** C42: an ordinary field name, a GLSL keyword that is a legal Rust identifier, a raw one. *)
Lemma C42_ex_proof :
  is_word "sampler_index" = true /\ is_identifier (ident_to_string (Ident false "sampler_index")) = true
  /\ is_word "sampler2D" = true /\ is_identifier (ident_to_string (Ident false "sampler2D")) = false
  /\ ident_to_string (Ident true "type") = "r#type" /\ is_identifier "r#type" = false
  /\ is_identifier (ident_to_string (Ident false "gl_Position")) = false.
Proof. repeat split; vm_compute; reflexivity. Qed.
