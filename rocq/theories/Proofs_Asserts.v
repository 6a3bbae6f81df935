(** * Proofs: the layout assertion macros (C90) *)

From Coq Require Import NArith String Ascii Bool List Lia ZArith PeanoNat.
From Coq Require Import ZifyBool ZifyN ZifyNat.
From Coq Require Import Strings.Byte.
From Verif Require Import Rust Internal Prims Derive Host Rows GlslGen DebugMetrics SpecGlsl SpecHost SpecTypes SpecNumeral SpecText SpecFields SpecProgram SpecHarness
  Asserts SpecAsserts
  Arith RustFacts DeriveFacts TypeFacts HostFacts GlslFacts NumeralFacts Proofs_Types Proofs_Portable Samples.
Import ListNotations.
Local Open Scope string_scope.
Local Open Scope N_scope.

(** ** Texts *)
Fixpoint line_text (s : string) : bool :=
  match s with "" => true | String c r => negb (Ascii.eqb c (ascii_of_nat 10)) && line_text r end.

Lemma line_app a b : line_text a = true -> line_text b = true -> line_text (a ++ b) = true.
Proof. induction a as [|c a IH]; [easy|]. cbn [line_text append]. rewrite !andb_true_iff. intros [H1 H2] H3. auto. Qed.

Lemma lines_line a b : line_text a = true -> lines (a ++ nl ++ b) = a :: lines b.
Proof.
  induction a as [|c a IH]; intros H.
  - change ("" ++ nl ++ b) with (String (ascii_of_nat 10) b). cbn [lines]. now rewrite Ascii.eqb_refl.
  - cbn [line_text] in H. rewrite andb_true_iff, negb_true_iff in H. destruct H as [H1 H2].
    change (String c a ++ nl ++ b) with (String c (a ++ nl ++ b)). cbn [lines]. rewrite H1, IH by assumption. reflexivity.
Qed.

Lemma sapp_assoc3 (a b c : string) : (a ++ b) ++ c = a ++ (b ++ c).
Proof. induction a as [|x a IH]; [reflexivity|]. cbn [append]. now rewrite IH. Qed.

Lemma dec_line u : line_text (DecimalString.NilEmpty.string_of_uint u) = true.
Proof. induction u; cbn [DecimalString.NilEmpty.string_of_uint line_text]; rewrite ?IHu; reflexivity. Qed.

Lemma rust_line n : rust_name_text n = true -> line_text n = true.
Proof.
  assert (A : forall r, all_chars (fun x => word_char x || non_ascii x) r = true -> line_text r = true).
  { induction r as [|c r IH]; [easy|]. cbn [all_chars line_text]. rewrite !andb_true_iff. intros [H1 H2]. split; [|auto].
    destruct (Ascii.eqb_spec c (ascii_of_nat 10)) as [->|]; [discriminate H1|reflexivity]. }
  assert (B : forall s, match s with "" => false | String c r => (is_nondigit c || non_ascii c) && all_chars (fun x => word_char x || non_ascii x) r end = true -> line_text s = true).
  { intros [|c r] H; [discriminate|]. rewrite andb_true_iff in H. destruct H as [H1 H2]. cbn [line_text]. rewrite (A r H2), andb_true_r.
    destruct (Ascii.eqb_spec c (ascii_of_nat 10)) as [->|]; [discriminate H1|reflexivity]. }
  unfold rust_name_text. intros H. destruct (after "r#" n) as [m|] eqn:E; [|now apply B].
  apply B in H. destruct n as [|a [|b n]]; try discriminate E.
  { cbn [after] in E. destruct (Ascii.eqb "r" a); discriminate. }
  cbn [after] in E. destruct (Ascii.eqb_spec "r" a) as [<-|]; [|discriminate]. destruct (Ascii.eqb_spec "#" b) as [<-|]; [|discriminate].
  injection E as <-. exact H.
Qed.

Lemma after_app p r : after p (p ++ r) = Some r.
Proof. induction p as [|a p IH]; [reflexivity|]. cbn [append after]. now rewrite Ascii.eqb_refl. Qed.

Lemma numeral_dec n : numeral (decN n) = Some n.
Proof. apply numeral_iff. reflexivity. Qed.

(** ** One message *)
Definition header_of (l : lay) (s : subject) : string :=
  match s with SizeOf n => size_message l n | AlignmentOf n => align_message l n | OffsetOf f => offset_message l f end.
Definition subject_name (s : subject) : string := match s with SizeOf n | AlignmentOf n | OffsetOf n => n end.

Lemma subject_header l s : subject_of l (header_of l s) = Some s.
Proof. destruct l, s; reflexivity. Qed.

Lemma header_line l s : line_text (subject_name s) = true -> line_text (header_of l s) = true.
Proof. intros H. destruct l, s; cbn [header_of subject_name] in *; exact H. Qed.

Fixpoint messages (l : lay) (fs : list finding) : string :=
  match fs with
  | [] => ""
  | f :: r => message (header_of l (fd_subject f)) (fd_expected f) (fd_actual f) ++ messages l r
  end.

Lemma messages_app l a b : messages l (a ++ b)%list = messages l a ++ messages l b.
Proof. induction a as [|f a IH]; [reflexivity|]. cbn [messages app]. now rewrite IH, sapp_assoc3. Qed.

Lemma read_messages_ok l fs : Forall (fun f => line_text (subject_name (fd_subject f)) = true) fs ->
  read_report l (messages l fs) = Some fs.
Proof.
  unfold read_report. induction 1 as [|[s e a] fs H HF IH]; [reflexivity|].
  cbn [messages fd_subject fd_expected fd_actual] in *. unfold message. rewrite !sapp_assoc3.
  rewrite lines_line by now apply header_line.
  rewrite <- (sapp_assoc3 "Expected: "), lines_line by (apply line_app; [reflexivity|apply dec_line]).
  rewrite <- (sapp_assoc3 "Actual:   "), lines_line by (apply line_app; [reflexivity|apply dec_line]).
  change (nl ++ messages l fs) with ("" ++ nl ++ messages l fs). rewrite lines_line by reflexivity.
  cbn [read_messages]. rewrite subject_header. unfold number_after. rewrite !after_app, !numeral_dec, IH. 
  destruct (header_of l s) eqn:Eh; [destruct l, s; discriminate|]. reflexivity.
Qed.

(** ** The checks *)
Lemma check_number_spec l s e a c :
  check_number (header_of l s) e a c
  = Checks (ck_printed c ++ messages l (differing s e a)) (ck_fail c || negb (match differing s e a with [] => true | _ => false end)).
Proof.
  unfold check_number, differing. rewrite N.eqb_sym. destruct c as [p b]. destruct (e =? a); cbn [negb messages ck_printed ck_fail fd_subject fd_expected fd_actual].
  - rewrite orb_false_r. f_equal. clear. induction p as [|x p IH]; [reflexivity|]. cbn [append]. now rewrite <- IH.
  - rewrite orb_true_r. f_equal. f_equal. unfold message. rewrite !sapp_assoc3. reflexivity.
Qed.

Lemma sapp_nil_r (p : string) : p ++ "" = p.
Proof. induction p as [|x p IH]; [reflexivity|]. cbn [append]. now rewrite IH. Qed.

Definition nonempty {A} (l : list A) : bool := match l with [] => false | _ => true end.

Lemma nonempty_app {A} (a b : list A) : nonempty (a ++ b) = nonempty a || nonempty b.
Proof. destruct a; reflexivity. Qed.

Lemma check_number_eq l s e a p fl :
  check_number (header_of l s) e a (Checks p fl) = Checks (p ++ messages l (differing s e a)) (fl || nonempty (differing s e a)).
Proof. rewrite check_number_spec. cbn [ck_printed ck_fail]. destruct (differing s e a); reflexivity. Qed.

Definition field_findings (offs : string -> option N) (fields : list (string * N)) : list finding :=
  flat_map (fun fo => match offs (fst fo) with Some o => differing (OffsetOf (fst fo)) (snd fo) o | None => [] end) fields.

Lemma check_fields_eq tg l t fields : forall p fl,
  (forall f o, In (f, o) fields -> assoc f (field_offsets tg t) <> None) ->
  check_fields tg l t fields (Checks p fl)
  = Some (Checks (p ++ messages l (field_findings (fun f => assoc f (field_offsets tg t)) fields))
                 (fl || nonempty (field_findings (fun f => assoc f (field_offsets tg t)) fields))).
Proof.
  induction fields as [|[f o] fields IH]; intros p fl H; cbn [check_fields].
  - cbn [field_findings flat_map messages nonempty]. now rewrite sapp_nil_r, orb_false_r.
  - specialize (H f o (or_introl eq_refl)) as Hf. destruct (assoc f (field_offsets tg t)) as [o'|] eqn:E; [|congruence].
    change (offset_message l f) with (header_of l (OffsetOf f)). rewrite check_number_eq, IH by (intros f' o'' Hi; eapply H; right; exact Hi).
    unfold field_findings. cbn [flat_map fst snd]. rewrite E, messages_app, nonempty_app, sapp_assoc3, orb_assoc. reflexivity.
Qed.

Lemma check_fields_none tg l t fields : forall c, check_fields tg l t fields c <> None ->
  forall f o, In (f, o) fields -> assoc f (field_offsets tg t) <> None.
Proof.
  induction fields as [|[f o] fields IH]; intros c H f' o' Hi; [destruct Hi|]. cbn [check_fields] in H.
  destruct (assoc f (field_offsets tg t)) eqn:E; [|congruence]. destruct Hi as [K|Hi]; [injection K as <- <-; congruence|].
  eapply IH; eassumption.
Qed.

Definition all_findings (tg : target) (l : lay) (t : sty) (al : N) name size align fields : list finding :=
  (differing (SizeOf name) size (size_of tg t) ++ differing (AlignmentOf name) align al
   ++ field_findings (fun f => assoc f (field_offsets tg t)) fields)%list.

Definition verdict (l : lay) (name : string) (fs : list finding) : string * option string :=
  (messages l fs, if nonempty fs then Some ("Invalid " ++ std_word l ++ " result for " ++ name) else None).

Definition compiles (tg : target) (name : string) (t : sty) (size align : N) (fields : list (string * N)) : Prop :=
  name <> "Target" /\ Forall (fun n => n < 2 ^ 31 /\ n < 2 ^ t_bits tg) (size :: align :: map snd fields)
  /\ forall f o, In (f, o) fields -> assoc f (field_offsets tg t) <> None.

Lemma literals_ok tg ns : forallb (literal_ok tg) ns = true <-> Forall (fun n => n < 2 ^ 31 /\ n < 2 ^ t_bits tg) ns.
Proof.
  rewrite forallb_forall, Forall_forall. unfold literal_ok. split; intros H n Hn; specialize (H n Hn).
  - rewrite andb_true_iff, !N.ltb_lt in H. tauto.
  - rewrite andb_true_iff, !N.ltb_lt. tauto.
Qed.

Lemma assert_std_eq tg l name h size align fields t al : out_ty tg l h = Some t -> std_align l t = Some al ->
  (compiles tg name t size align fields ->
   assert_std tg l name h size align fields = Some (verdict l name (all_findings tg l t al name size align fields)))
  /\ (assert_std tg l name h size align fields <> None -> compiles tg name t size align fields).
Proof.
  intros Ho Ha. unfold assert_std, compiles. rewrite Ho, Ha.
  change (size_message l name) with (header_of l (SizeOf name)). change (align_message l name) with (header_of l (AlignmentOf name)).
  split.
  - intros [Hn [Hl Hf]]. destruct (String.eqb_spec name "Target"); [congruence|]. apply literals_ok in Hl. rewrite Hl. cbn [negb].
    rewrite !check_number_eq, check_fields_eq by assumption. cbn [ck_printed ck_fail]. unfold verdict, all_findings.
    rewrite !messages_app, !nonempty_app, sapp_assoc3, orb_false_l, <- orb_assoc. reflexivity.
  - destruct (String.eqb_spec name "Target"); [congruence|]. destruct (forallb (literal_ok tg) (size :: align :: map snd fields)) eqn:El; cbn [negb]; [|congruence].
    intros H. split; [assumption|]. split; [now apply literals_ok|]. eapply check_fields_none.
    destruct (check_fields tg l t fields _) eqn:E in H; [|congruence]. rewrite E. discriminate.
Qed.

(** ** Against the paths of the types *)
Lemma assoc_combine_some {A B} (fs : list (string * A)) (os : list B) f : length os = length fs ->
  (assoc f (combine (map fst fs) os) <> None <-> assoc f fs <> None).
Proof.
  revert os. induction fs as [|[g a] fs IH]; intros [|o os] H; try discriminate; cbn [map fst combine]; [tauto|].
  rewrite !assoc_cons. destruct (String.eqb _ _); [split; intros _ K; discriminate K|]. apply IH. now injection H.
Qed.

Lemma repr_c_length : forall ls cur, length (repr_c_offsets cur ls) = length ls.
Proof. induction ls as [|[s a] ls IH]; intros cur; [reflexivity|]. cbn [repr_c_offsets length]. now rewrite IH. Qed.

Lemma field_path tg t f o : assoc f (field_offsets tg t) = Some o <-> exists u, path_offset tg t [f] = Some (o, u).
Proof.
  cbn [path_offset]. destruct t as [| |l n al fs|]; try (split; [discriminate|intros [u K]; discriminate]).
  pose proof (assoc_combine_some fs (repr_c_offsets 0 (map (fun nf => layout_of tg (snd nf)) fs)) f) as K.
  rewrite repr_c_length, map_length in K. specialize (K eq_refl). change (combine _ _) with (field_offsets tg (TStruct l n al fs)) in K.
  destruct (assoc f (field_offsets tg (TStruct l n al fs))) as [o'|], (assoc f fs) as [u|].
  - rewrite N.add_0_r. split; [intros H; injection H as ->; now exists u|intros [u' H]; now injection H as ->].
  - exfalso. destruct K as [K1 _]. apply K1; [discriminate|reflexivity].
  - split; [discriminate|]. intros _. exfalso. destruct K as [_ K2]. apply K2; [discriminate|reflexivity].
  - split; [discriminate|intros [u H]; discriminate].
Qed.

Lemma field_path_none tg t f : assoc f (field_offsets tg t) <> None <-> path_offset tg t [f] <> None.
Proof.
  pose proof (field_path tg t f) as K. destruct (assoc f (field_offsets tg t)) as [o|] eqn:E.
  - destruct (K o) as [[u H] _]; [reflexivity|]. rewrite H. split; discriminate.
  - split; [congruence|]. intros H. destruct (path_offset tg t [f]) as [[o u]|] eqn:Ep; [|congruence].
    assert (K' : assoc f (field_offsets tg t) = Some o) by (apply field_path; eauto). congruence.
Qed.

Lemma differing_nil s e a : differing s e a = [] <-> e = a.
Proof. unfold differing. destruct (N.eqb_spec e a); split; congruence. Qed.

Lemma flat_map_nil {A B} (f : A -> list B) l : flat_map f l = [] <-> forall x, In x l -> f x = [].
Proof.
  induction l as [|a l IH]; [easy|]. cbn [flat_map]. split.
  - intros H x [->|Hx]; apply app_eq_nil in H; [tauto|]. now apply IH.
  - intros H. rewrite (H a) by now left. apply IH. intros x Hx. apply H. now right.
Qed.

Lemma out_al tg l h t : target_ok tg = true -> out_ty tg l h = Some t -> exists al, std_align l t = Some al.
Proof. intros H1 H2. assert (G : good tg l t) by (eapply out_ty_good; eassumption). destruct G as [a [H _]]. now exists a. Qed.

Lemma Some_pair {A B} (a c : A) (b d : B) : Some (a, b) = Some (c, d) -> a = c /\ b = d.
Proof. intros H. injection H. auto. Qed.

(** C90.  Which assertions compile: the type is not called [Target], the numbers can be written
    as literals of types [usize] and [i32], the type has a layout version, and all listed fields
    are fields of it. *)
Lemma C90_compiles_proof : forall tg l name h size align fields,
  target_ok tg = true ->
  (assert_std tg l name h size align fields <> None <->
   name <> "Target" /\ Forall (fun n => n < 2 ^ 31 /\ n < 2 ^ t_bits tg) (size :: align :: map snd fields)
   /\ exists t, out_ty tg l h = Some t /\ forall f o, In (f, o) fields -> path_offset tg t [f] <> None).
Proof.
  intros tg l name h size align fields Htg. split.
  - intros H. destruct (out_ty tg l h) as [t|] eqn:Ho.
    + destruct (out_al tg l h t Htg Ho) as [al Ha]. destruct (assert_std_eq tg l name h size align fields t al Ho Ha) as [_ B].
      destruct (B H) as [B1 [B2 B3]]. split; [assumption|]. split; [assumption|]. exists t. split; [reflexivity|].
      intros f o Hi. apply field_path_none. eapply B3. exact Hi.
    + elim H. unfold assert_std. rewrite Ho. destruct (String.eqb name "Target"); [reflexivity|]. now destruct (negb _).
  - intros [H1 [H2 [t [Ho H3]]]]. destruct (out_al tg l h t Htg Ho) as [al Ha].
    destruct (assert_std_eq tg l name h size align fields t al Ho Ha) as [A _]. rewrite A; [discriminate|].
    split; [assumption|]. split; [assumption|]. intros f o Hi. apply field_path_none. eapply H3. exact Hi.
Qed.

(** C90.  An assertion that compiles panics unless the size and ALIGNMENT of [Output] and the
    offsets of all listed fields are as asserted; if it does not panic, it prints nothing. *)
Lemma C90_verdict_proof : forall tg l name h t size align fields printed panic,
  target_ok tg = true -> out_ty tg l h = Some t ->
  assert_std tg l name h size align fields = Some (printed, panic) ->
  (panic = None <->
   size_of tg t = size /\ std_align l t = Some align
   /\ forall f o, In (f, o) fields -> exists u, path_offset tg t [f] = Some (o, u))
  /\ (panic = None <-> printed = "")
  /\ (panic = None \/ panic = Some ("Invalid " ++ (match l with L140 => "std140" | L430 => "std430" end) ++ " result for " ++ name)).
Proof.
  intros tg l name h t size align fields printed panic Htg Ho H. destruct (out_al tg l h t Htg Ho) as [al Ha].
  destruct (assert_std_eq tg l name h size align fields t al Ho Ha) as [A B].
  assert (K : compiles tg name t size align fields) by (apply B; congruence). rewrite (A K) in H. unfold verdict in H.
  apply Some_pair in H. destruct H as [<- <-]. destruct K as [_ [_ K]]. remember (all_findings tg l t al name size align fields) as fs eqn:Efs.
  assert (E : nonempty fs = false <-> fs = []) by (clear; destruct fs; split; (reflexivity || discriminate)).
  split; [|split].
  - transitivity (fs = []).
    { rewrite <- E. destruct (nonempty fs); split; (reflexivity || discriminate). }
    subst fs. clear E. unfold all_findings. split.
    + intros H. apply app_eq_nil in H. destruct H as [H1 H]. apply app_eq_nil in H. destruct H as [H2 H3].
      apply differing_nil in H1, H2. split; [congruence|]. split; [congruence|]. intros f o Hi.
      unfold field_findings in H3. rewrite flat_map_nil in H3. specialize (H3 _ Hi). specialize (K _ _ Hi). cbn [fst snd] in H3.
      destruct (assoc f (field_offsets tg t)) as [o'|] eqn:Eo; [|congruence]. apply differing_nil in H3. subst o'. now apply field_path.
    + intros [H1 [H2 H3]]. rewrite H2 in Ha. injection Ha as ->.
      replace (differing (SizeOf name) size (size_of tg t)) with (@nil finding) by (symmetry; apply differing_nil; congruence).
      replace (differing (AlignmentOf name) al al) with (@nil finding) by (symmetry; now apply differing_nil).
      cbn [app]. apply flat_map_nil. intros [f o] Hi. cbn [fst snd]. specialize (H3 _ _ Hi). apply field_path in H3. rewrite H3. now apply differing_nil.
  - clear Efs E. destruct fs as [|[s e a] fs']; cbn [nonempty messages]; [now split|]. split; [discriminate|]. unfold message. destruct l, s; discriminate.
  - destruct (nonempty fs); [right|left]; reflexivity.
Qed.

(** C90.  For a type that is a GLSL type: the assertion passes exactly if it states the size, base
    alignment and offsets of the GLSL rules; the printed report, read line by line, is the list of
    the numbers that are wrong, in order, with the right ones. *)
Lemma C90_glsl_proof : forall tg l name h t g size align fields,
  target_ok tg = true -> out_ty tg l h = Some t -> gty_of h = Some g ->
  rust_name_text name = true -> name <> "Target" ->
  Forall (fun n => n < 2 ^ 31 /\ n < 2 ^ t_bits tg) (size :: align :: map snd fields) ->
  (forall f o, In (f, o) fields -> rust_name_text f = true /\ gpath_offset l g [f] <> None) ->
  exists printed panic, assert_std tg l name h size align fields = Some (printed, panic)
    /\ read_report l printed = Some (wrong_numbers l g name size align fields)
    /\ (panic = None <->
        size = gsize l g /\ align = base_align l g
        /\ forall f o, In (f, o) fields -> exists g', gpath_offset l g [f] = Some (o, g')).
Proof.
  intros tg l name h t g size align fields Htg Ho Hg Hn HT HL HF. destruct (out_al tg l h t Htg Ho) as [al Ha].
  assert (P : forall path o g', gpath_offset l g path = Some (o, g') -> exists u, path_offset tg t path = Some (o, u)
                /\ size_of tg u = gsize l g' /\ std_align l u = Some (base_align l g')).
  { intros path o g' H. destruct l; [eapply C15_std140_offsets_proof|eapply C16_std430_offsets_proof]; eassumption. }
  destruct (P [] 0 g) as [u [P1 [P2 P3]]]; [reflexivity|]. injection P1 as <-. rewrite Ha in P3. injection P3 as ->.
  assert (Q : forall f o, In (f, o) fields -> exists o' g', gpath_offset l g [f] = Some (o', g') /\ assoc f (field_offsets tg t) = Some o').
  { intros f o Hi. destruct (HF f o Hi) as [_ H]. destruct (gpath_offset l g [f]) as [[o' g']|] eqn:E; [|congruence].
    exists o', g'. split; [reflexivity|]. destruct (P _ _ _ E) as [u [H1 _]]. apply field_path. eauto. }
  destruct (assert_std_eq tg l name h size align fields t (base_align l g) Ho Ha) as [A _].
  assert (K : compiles tg name t size align fields).
  { split; [assumption|]. split; [assumption|]. intros f o Hi. destruct (Q f o Hi) as [o' [g' [_ E]]]. congruence. }
  specialize (A K).
  assert (W : all_findings tg l t (base_align l g) name size align fields = wrong_numbers l g name size align fields).
  { unfold all_findings, wrong_numbers. rewrite P2. do 2 f_equal. unfold field_findings. clear -Q. induction fields as [|[f o] fields IH]; [reflexivity|].
    cbn [flat_map fst snd]. destruct (Q f o (or_introl eq_refl)) as [o' [g' [E1 E2]]]. rewrite E1, E2. f_equal. apply IH. intros; eapply Q; right; eassumption. }
  exists (fst (verdict l name (wrong_numbers l g name size align fields))), (snd (verdict l name (wrong_numbers l g name size align fields))).
  split; [now rewrite A, W; destruct (verdict _ _ _)|]. cbn [verdict fst snd]. split.
  - apply read_messages_ok. apply Forall_forall. intros f Hi. unfold wrong_numbers in Hi. rewrite !in_app_iff in Hi.
    assert (D : forall s e a, In f (differing s e a) -> fd_subject f = s).
    { intros s e a H. unfold differing in H. destruct (e =? a); [destruct H|]. destruct H as [<-|[]]. reflexivity. }
    destruct Hi as [Hi|[Hi|Hi]]; [apply D in Hi; rewrite Hi; now apply rust_line..|].
    apply in_flat_map in Hi. destruct Hi as [[f' o] [H1 H2]]. cbn [fst snd] in H2. destruct (gpath_offset l g [f']) as [[o' g']|]; [|destruct H2].
    apply D in H2. rewrite H2. apply rust_line. now apply (HF f' o).
  - destruct (C90_verdict_proof tg l name h t size align fields _ _ Htg Ho A) as [V _]. rewrite W in V. cbn [verdict fst snd] in V. rewrite V. clear V.
    rewrite P2, Ha. split.
    + intros [H1 [H2 H3]]. split; [congruence|]. split; [congruence|]. intros f o Hi. destruct (Q f o Hi) as [o' [g' [E1 E2]]].
      specialize (H3 f o Hi). apply field_path in H3. rewrite E2 in H3. injection H3 as ->. eauto.
    + intros [H1 [H2 H3]]. split; [congruence|]. split; [congruence|]. intros f o Hi. destruct (H3 f o Hi) as [g' E].
      destruct (P _ _ _ E) as [u [E2 _]]. eauto.
Qed.

(** C90.  What is printed and whether it panics does not depend on the target (where it compiles). *)
Lemma C90_portable_proof : forall tg1 tg2 l name h size align fields r1 r2,
  target_ok tg1 = true -> target_ok tg2 = true ->
  assert_std tg1 l name h size align fields = Some r1 -> assert_std tg2 l name h size align fields = Some r2 -> r1 = r2.
Proof.
  intros tg1 tg2 l name h size align fields r1 r2 T1 T2 H1 H2.
  destruct (out_ty tg1 l h) as [t1|] eqn:O1; [|unfold assert_std in H1; rewrite O1 in H1; destruct (String.eqb name "Target"); [discriminate|]; destruct (negb _); discriminate].
  destruct (out_ty tg2 l h) as [t2|] eqn:O2; [|unfold assert_std in H2; rewrite O2 in H2; destruct (String.eqb name "Target"); [discriminate|]; destruct (negb _); discriminate].
  pose proof (out_same _ _ _ _ _ _ T1 T2 O1 O2) as E. subst t2. destruct (out_al _ _ _ _ T1 O1) as [al Ha].
  destruct (assert_std_eq tg1 l name h size align fields t1 al O1 Ha) as [A1 B1].
  destruct (assert_std_eq tg2 l name h size align fields t1 al O2 Ha) as [A2 B2].
  rewrite A1 in H1 by (apply B1; congruence). rewrite A2 in H2 by (apply B2; congruence).
  assert (N1 : nopad tg1 t1 = true) by (eapply good_nopad, out_ty_good; [exact T1|exact O1]).
  assert (N2 : nopad tg2 t1 = true) by (eapply good_nopad, out_ty_good; [exact T2|exact O2]).
  assert (F : all_findings tg1 l t1 al name size align fields = all_findings tg2 l t1 al name size align fields).
  { unfold all_findings. rewrite (field_offsets_port tg1 tg2 t1 N1 N2), (size_port tg1 tg2 t1 N1 N2). reflexivity. }
  rewrite F in H1. congruence.
Qed.

(** C90.  "Structs that pass an assertion that lists all fields have the same bytes" is false: the
    types of the fields are not checked. *)
Definition two_ab : hty := HStruct "Two" [("a", HPrim PF32); ("b", HPrim PU32)].
Definition two_ba : hty := HStruct "Two" [("a", HPrim PU32); ("b", HPrim PF32)].
Lemma C90_field_types_refuted_proof :
  (forall l name size align fields, assert_std x86_64 l name two_ab size align fields = assert_std x86_64 l name two_ba size align fields)
  /\ (forall l, exists g g', gty_of two_ab = Some g /\ gty_of two_ba = Some g' /\ gpath_offset l g ["a"] = Some (0, GScalar GFloat)
       /\ gpath_offset l g' ["a"] = Some (0, GScalar GUint)).
Proof.
  split.
  - intros l name size align fields.
    assert (exists t t' al, out_ty x86_64 l two_ab = Some t /\ out_ty x86_64 l two_ba = Some t' /\ size_of x86_64 t = size_of x86_64 t'
              /\ std_align l t = Some al /\ std_align l t' = Some al /\ field_offsets x86_64 t = field_offsets x86_64 t')
      as [t [t' [al [E1 [E2 [E3 [E4 [E5 E6]]]]]]]].
    { destruct l; do 3 eexists; (split; [reflexivity|]); (split; [reflexivity|]); (split; [vm_compute; reflexivity|]);
      (split; [vm_compute; reflexivity|]); split; vm_compute; reflexivity. }
    unfold assert_std. rewrite E1, E2, E3, E4, E5.
    assert (C : forall c, check_fields x86_64 l t fields c = check_fields x86_64 l t' fields c).
    { induction fields as [|[f o] fields IH]; intros c; [reflexivity|]. cbn [check_fields]. rewrite E6.
      destruct (assoc f (field_offsets x86_64 t')); [apply IH|reflexivity]. }
    rewrite C. reflexivity.
  - intros l. do 2 eexists. split; [reflexivity|]. split; [reflexivity|]. destruct l; split; vm_compute; reflexivity.
Qed.

(** An assertion of the crate's tests, and the same with two wrong numbers. *)
Lemma C90_ex_proof :
  assert_std x86_64 L140 "Mat3Padding" mat3_padding 64 16 [("one", 0); ("two", 48)] = Some ("", None)
  /\ assert_std x86_64 L140 "Mat3Padding" mat3_padding 52 16 [("one", 0); ("two", 36)]
     = Some ("Invalid size for std140 struct Mat3Padding
Expected: 52
Actual:   64

Invalid offset for field two
Expected: 36
Actual:   48

", Some "Invalid std140 result for Mat3Padding")
  /\ (exists g, gty_of mat3_padding = Some g
        /\ wrong_numbers L140 g "Mat3Padding" 52 16 [("one", 0); ("two", 36)]
           = [Finding (SizeOf "Mat3Padding") 52 64; Finding (OffsetOf "two") 36 48])
  /\ assert_std x86_64 L430 "Mat2" mat2f 16 8 [("x", 0); ("y", 8)] = Some ("", None)
  /\ assert_std x86_64 L430 "Mat2" mat2f 16 8 [("z", 16)] = None
  /\ assert_std x86_64 L430 "Target" mat2f 16 8 [] = None.
Proof.
  split; [vm_compute; reflexivity|]. split; [vm_compute; reflexivity|]. split; [eexists; split; [reflexivity|]; vm_compute; reflexivity|].
  split; [|split]; vm_compute; reflexivity.
Qed.
