(** * Proofs: the GPU test harness (C89) *)

From Coq Require Import NArith String Ascii Bool List Lia ZArith PeanoNat.
From Coq Require Import ZifyBool ZifyN ZifyNat.
From Coq Require Import Strings.Byte.
From Verif Require Import Rust Internal Prims Derive Host Rows Buffer GlslGen SpecGlsl SpecHost SpecTypes SpecText SpecBuf SpecUse SpecGpu
  SpecFields SpecProgram Harness SpecHarness
  Arith RustFacts DeriveFacts TypeFacts HostFacts GlslFacts Proofs_Types Proofs_Use GpuFacts Proofs_Gpu Proofs_Text Proofs_Values Samples.
Import ListNotations.
Local Open Scope string_scope.

(** ** [str::replace] *)

(** a text through which the replacement passes, whatever follows *)
Fixpoint passes (pat p : string) : bool :=
  match p with
  | "" => true
  | String _ r => negb (String.prefix pat p) && negb (String.prefix p pat) && passes pat r
  end.

Lemma prefix_app_no a : forall b c, String.prefix a b = false -> String.prefix b a = false ->
  String.prefix a (b ++ c) = false /\ String.prefix (b ++ c) a = false.
Proof.
  induction a as [|x a IH]; intros [|y b] c H1 H2; try discriminate. cbn [String.prefix append] in *.
  destruct (ascii_dec x y) as [->|N].
  - destruct (ascii_dec y y); [|congruence]. now apply IH.
  - destruct (ascii_dec y x); [congruence|]. now split.
Qed.

Lemma passes_app pat p : forall q, passes pat p = true -> passes pat q = true -> passes pat (p ++ q) = true.
Proof.
  induction p as [|c p IH]; intros q Hp Hq; [exact Hq|]. cbn [passes] in Hp. rewrite !andb_true_iff, !negb_true_iff in Hp.
  destruct Hp as [[H1 H2] H3]. destruct (prefix_app_no pat (String c p) q H1 H2) as [E1 E2].
  change ((String c p) ++ q) with (String c (p ++ q)) in *. cbn [passes]. now rewrite E1, E2, IH.
Qed.

Lemma passes_no_brace pat w : String.prefix "{" pat = true -> all_chars (fun c => negb (Ascii.eqb c "{")) w = true -> passes pat w = true.
Proof.
  intros Hp. destruct pat as [|x pat]; [discriminate|]. cbn [String.prefix] in Hp. destruct (ascii_dec "{" x) as [<-|]; [clear Hp|discriminate].
  induction w as [|c w IH]; intros H; [reflexivity|]. cbn [all_chars] in H. apply andb_prop in H. destruct H as [H1 H2].
  apply negb_true_iff, Ascii.eqb_neq in H1. cbn [passes String.prefix]. destruct (ascii_dec "{" c); [congruence|].
  destruct (ascii_dec c "{"); [congruence|]. now rewrite IH.
Qed.

Lemma replace_pass pat rep p : forall s, passes pat p = true -> replace_from pat rep (p ++ s) 0 = p ++ replace_from pat rep s 0.
Proof.
  induction p as [|c p IH]; intros s H; [reflexivity|]. cbn [passes] in H. rewrite !andb_true_iff, !negb_true_iff in H.
  destruct H as [[H1 H2] H3]. destruct (prefix_app_no pat (String c p) s H1 H2) as [E _].
  change ((String c p) ++ s) with (String c (p ++ s)) in *. cbn [replace_from]. now rewrite E, IH.
Qed.

Lemma prefix_app pat s : String.prefix pat (pat ++ s) = true.
Proof. induction pat as [|c p IH]; [now destruct s|]. cbn [String.prefix append]. destruct (ascii_dec c c); [assumption|congruence]. Qed.

Lemma replace_skip pat rep p : forall s, replace_from pat rep (p ++ s) (String.length p) = replace_from pat rep s 0.
Proof. induction p as [|c p IH]; intros s; [reflexivity|]. cbn [append String.length replace_from]. apply IH. Qed.

Lemma replace_hit pat rep s : pat <> "" -> replace_from pat rep (pat ++ s) 0 = rep ++ replace_from pat rep s 0.
Proof.
  intros Hn. destruct pat as [|c p]; [congruence|]. cbn [append replace_from].
  change (String c (p ++ s)) with ((String c p) ++ s). rewrite prefix_app. cbn [String.length].
  replace (S (String.length p) - 1)%nat with (String.length p) by lia. now rewrite replace_skip.
Qed.

Lemma replace_end pat rep p : passes pat p = true -> replace_from pat rep p 0 = p.
Proof. intros H. rewrite <- (sapp_nil_r p) at 1. rewrite replace_pass by assumption. cbn [replace_from]. apply sapp_nil_r. Qed.

(** the text the harness builds *)
Definition part1 : string := nl ++ nl ++ "layout(".
Definition part2 : string := ", set = 0, binding = 0) readonly buffer INPUT {" ++ nl ++ "    ".
Definition part3 : string := " in_data;" ++ nl ++ "};" ++ nl ++ nl ++ "layout(".
Definition part4 : string := ", set = 0, binding = 1) buffer OUTPUT {" ++ nl ++ "    ".
Definition part5 : string := " out_data;" ++ nl ++ "};" ++ nl ++ nl ++ "void main() {" ++ nl ++ "    ".
Definition part6 : string := nl ++ "}".
Definition harness_tail (l name copy : string) : string :=
  part1 ++ l ++ part2 ++ name ++ part3 ++ l ++ part4 ++ name ++ part5 ++ copy ++ part6.
Definition harness_text (def l name copy : string) : string := "#version 450" ++ nl ++ nl ++ def ++ harness_tail l name copy.

Lemma base_shader_eq : base_shader
  = "#version 450" ++ nl ++ nl ++ "{struct_definition}" ++ part1 ++ "{layout}" ++ part2 ++ "{struct_name}" ++ part3 ++ "{layout}"
    ++ part4 ++ "{struct_name}" ++ part5 ++ "{struct_copy}" ++ part6.
Proof. reflexivity. Qed.

Definition clear (w : string) : Prop := all_chars (fun c => negb (Ascii.eqb c "{")) w = true.

Ltac rp Pn Pc := repeat first [rewrite replace_hit by discriminate | rewrite replace_pass by first [reflexivity|assumption|apply Pn; reflexivity|apply Pc; reflexivity] | rewrite replace_end by reflexivity].

Lemma harness_text_eq def l name copy :
  clear name -> clear copy -> passes "{struct_copy}" def = true -> passes "{layout}" def = true ->
  str_replace (str_replace (str_replace (str_replace base_shader "{struct_name}" name) "{struct_definition}" def) "{struct_copy}" copy) "{layout}" l
  = harness_text def l name copy.
Proof.
  intros Hn Hc D1 D2. unfold str_replace. rewrite base_shader_eq. unfold harness_text, harness_tail.
  assert (Pn : forall pat, String.prefix "{" pat = true -> passes pat name = true) by (intros; now apply passes_no_brace).
  assert (Pc : forall pat, String.prefix "{" pat = true -> passes pat copy = true) by (intros; now apply passes_no_brace).
  rp Pn Pc. reflexivity.
Qed.

(** ** Lexing *)
Definition stcons (ts : list stok) (o : option (list stok)) : option (list stok) :=
  match o with Some us => Some (ts ++ us)%list | None => None end.
Lemma stcons_app a b o : stcons a (stcons b o) = stcons (a ++ b)%list o.
Proof. destruct o; [|reflexivity]. cbn [stcons]. now rewrite app_assoc. Qed.
Lemma stcons_none a : stcons a None = None.
Proof. reflexivity. Qed.

(** a text that ends with a separator *)
Fixpoint ends_sep (p : string) : bool :=
  match p with "" => false | String c "" => negb (word_char c) | String _ r => ends_sep r end.

Lemma slex_piece p : forall s cur ts, ends_sep p = true -> slex_from p cur = Some ts ->
  slex_from (p ++ s) cur = stcons ts (slex_from s "").
Proof.
  induction p as [|c p IH]; intros s cur ts He H; [discriminate|]. cbn [append slex_from] in *.
  destruct (word_char c) eqn:Ew.
  - apply IH; [|assumption]. destruct p; [cbn in He; rewrite Ew in He; discriminate|exact He].
  - destruct (sflush cur) as [us|]; [|discriminate].
    assert (K : exists vs, slex_from p "" = Some vs /\ slex_from (p ++ s) "" = stcons vs (slex_from s "")).
    { destruct (slex_from p "") as [vs|] eqn:E; [|discriminate]. exists vs. split; [reflexivity|].
      destruct p as [|d p]; [injection E as <-; cbn; now destruct (slex_from s "")|]. now apply IH. }
    destruct K as [vs [K1 K2]]. rewrite K1 in H. rewrite K2. destruct (slex_from s "") as [ws|]; cbn [stcons].
    + destruct (is_space c); [injection H as <-; now rewrite app_assoc|]. destruct (prog_punct c); [|discriminate].
      injection H as <-. now rewrite <- app_assoc.
    + reflexivity.
Qed.

Lemma slex_word w : forall s cur, all_chars word_char w = true -> slex_from (w ++ s) cur = slex_from s (cur ++ w).
Proof.
  induction w as [|c w IH]; intros s cur H; cbn [append] in *.
  - now rewrite sapp_nil_r.
  - cbn [all_chars] in H. apply andb_prop in H. destruct H as [H1 H2]. cbn [slex_from]. rewrite H1, IH by assumption.
    now rewrite sapp_assoc.
Qed.

Lemma sflush_word w : is_word w = true -> sflush w = Some [SW w].
Proof. intros H. destruct w as [|c w]; [discriminate|]. unfold sflush. now rewrite H. Qed.

Definition sep_front (s : string) : bool := match s with String c _ => negb (word_char c) | "" => false end.

Lemma slex_word_sep w s : is_word w = true -> sep_front s = true ->
  slex_from (w ++ s) "" = stcons [SW w] (slex_from s "").
Proof.
  intros Hw Hs. destruct s as [|c s]; [discriminate|]. cbn [sep_front] in Hs. apply negb_true_iff in Hs.
  rewrite slex_word by now apply is_word_chars. cbn [append slex_from]. rewrite Hs, (sflush_word w Hw).
  cbn [sflush]. destruct (slex_from s "") as [us|]; [|reflexivity]. destruct (is_space c); [reflexivity|].
  destruct (prog_punct c); reflexivity.
Qed.

Lemma name_char_facts c : word_char c || non_ascii c = true -> is_space c = false /\ prog_punct c = false /\ Ascii.eqb c "{" = false.
Proof. destruct c as [[] [] [] [] [] [] [] []]; vm_compute; intuition discriminate. Qed.
Lemma word_not_ascii c : word_char c = true -> non_ascii c = false.
Proof. destruct c as [[] [] [] [] [] [] [] []]; vm_compute; congruence. Qed.

Lemma after_eq p : forall s r, after p s = Some r -> s = p ++ r.
Proof.
  induction p as [|a p IH]; intros s r H; [injection H as ->; reflexivity|]. destruct s as [|b s]; [discriminate|].
  cbn [after] in H. destruct (Ascii.eqb_spec a b) as [->|]; [|discriminate]. cbn [append]. f_equal. now apply IH.
Qed.

Definition sclear (w : string) : bool := all_chars (fun c => negb (is_space c) && negb (prog_punct c)) w.

Lemma all_chars_impl (P Q : ascii -> bool) w : (forall c, P c = true -> Q c = true) -> all_chars P w = true -> all_chars Q w = true.
Proof.
  intros H. induction w as [|c w IH]; [reflexivity|]. cbn [all_chars]. rewrite !andb_true_iff. intros [H1 H2]. auto.
Qed.

Lemma rust_name_facts w : rust_name_text w = true -> sclear w = true /\ clear w /\ (is_word w = false -> all_chars word_char w = false).
Proof.
  unfold rust_name_text. intros H.
  set (b := match after "r#" w with Some b => b | None => w end) in *.
  assert (Hb : all_chars (fun x => word_char x || non_ascii x) b = true).
  { destruct b as [|c r]; [discriminate|]. apply andb_prop in H. destruct H as [H1 H2]. cbn [all_chars]. rewrite H2, andb_true_r.
    unfold word_char. destruct (is_nondigit c); [reflexivity|]. cbn [orb] in H1. rewrite H1. now rewrite !orb_true_r. }
  assert (Hs : sclear b = true).
  { revert Hb. apply all_chars_impl. intros c Hc. destruct (name_char_facts c Hc) as [-> [-> _]]. reflexivity. }
  assert (Hc : clear b).
  { revert Hb. apply all_chars_impl. intros c Hc. destruct (name_char_facts c Hc) as [_ [_ ->]]. reflexivity. }
  destruct (after "r#" w) as [b'|] eqn:E.
  - apply after_eq in E. subst b. subst w. cbn [append]. unfold sclear, clear in *. cbn [all_chars]. rewrite Hs, Hc.
    split; [reflexivity|]. split; reflexivity.
  - subst b. split; [assumption|]. split; [assumption|]. intros Hw. destruct w as [|c r]; [discriminate|].
    apply andb_prop in H. destruct H as [H1 H2]. cbn [is_word] in Hw. cbn [all_chars].
    destruct (word_char c) eqn:Ec; [|reflexivity]. rewrite (word_not_ascii c Ec), orb_false_r in H1. rewrite H1 in Hw. exact Hw.
Qed.

Lemma slex_bad w : forall s cur, sclear w = true -> all_chars word_char w = false -> slex_from (w ++ s) cur = None.
Proof.
  unfold sclear. induction w as [|c w IH]; intros s cur H1 H2; [discriminate|]. cbn [all_chars append slex_from] in *.
  apply andb_prop in H1. destruct H1 as [Hc H1]. apply andb_prop in Hc. destruct Hc as [Hs Hp].
  apply negb_true_iff in Hs, Hp. destruct (word_char c); cbn [andb] in H2.
  - now apply IH.
  - rewrite Hs, Hp. destruct (sflush cur); [|reflexivity]. destruct (slex_from (w ++ s) ""); reflexivity.
Qed.

Lemma slex_name w s : rust_name_text w = true -> sep_front s = true ->
  slex_from (w ++ s) "" = if is_word w then stcons [SW w] (slex_from s "") else None.
Proof.
  intros Hw Hs. destruct (is_word w) eqn:E; [now apply slex_word_sep|].
  destruct (rust_name_facts w Hw) as [H1 [_ H2]]. apply slex_bad; auto.
Qed.

Definition words2 (fs : list (string * string)) : bool := forallb (fun f => is_word (fst f) && is_word (snd f)) fs.
Definition names2 (fs : list (string * string)) : Prop := Forall (fun f => rust_name_text (fst f) = true /\ rust_name_text (snd f) = true) fs.
Definition body_stoks (fs : list (string * string)) : list stok :=
  flat_map (fun f => [SW (fst f); SW (snd f); SP ";"]) fs.
Definition def_stoks (n : string) (fs : list (string * string)) : list stok :=
  (SW "struct" :: SW n :: SP "{" :: body_stoks fs ++ [SP "}"; SP ";"])%list.

Lemma slex_step_space c s : is_space c = true -> word_char c = false -> slex_from (String c s) "" = slex_from s "".
Proof. intros H1 H2. cbn [slex_from]. rewrite H1, H2. cbn [sflush]. now destruct (slex_from s ""). Qed.
Lemma slex_step_punct c s : is_space c = false -> prog_punct c = true -> word_char c = false ->
  slex_from (String c s) "" = stcons [SP c] (slex_from s "").
Proof. intros H1 H2 H3. cbn [slex_from]. rewrite H1, H2, H3. cbn [sflush]. now destruct (slex_from s ""). Qed.

Lemma slex_body fs : forall s, names2 fs ->
  slex_from (body_text fs ++ s) "" = if words2 fs then stcons (body_stoks fs) (slex_from s "") else None.
Proof.
  induction fs as [|[ty n] fs IH]; intros s H; [cbn; now destruct (slex_from s "")|].
  inversion H as [|? ? [W1 W2] Hr]; subst. cbn [fst snd] in W1, W2.
  cbn [body_text fold_right fst snd words2 forallb body_stoks flat_map]. fold (body_text fs) (words2 fs) (body_stoks fs).
  rewrite !sapp_assoc. unfold tab. cbn [append]. rewrite slex_step_space by reflexivity.
  rewrite slex_name by first [assumption|reflexivity]. destruct (is_word ty); [|reflexivity].
  rewrite slex_step_space by reflexivity.
  rewrite slex_name by first [assumption|reflexivity]. destruct (is_word n); [|reflexivity].
  rewrite slex_step_punct by reflexivity. unfold nl. cbn [append]. rewrite slex_step_space by reflexivity. rewrite IH by assumption.
  cbn [andb]. destruct (words2 fs); [|reflexivity]. rewrite !stcons_app. reflexivity.
Qed.

Lemma slex_def n fs s : rust_name_text n = true -> names2 fs ->
  slex_from (glsl_text n fs ++ s) "" = if is_word n && words2 fs then stcons (def_stoks n fs) (slex_from s "") else None.
Proof.
  intros Hn Hf. rewrite glsl_text_eq. rewrite !sapp_assoc.
  change ("struct " ++ n ++ " {" ++ nl ++ body_text fs ++ "};" ++ s)
    with ("struct" ++ String " " (n ++ String " " (String "{" (String (ascii_of_nat 10) (body_text fs ++ "};" ++ s))))).
  rewrite slex_word_sep by reflexivity. rewrite slex_step_space by reflexivity.
  rewrite slex_name by first [assumption|reflexivity]. destruct (is_word n); [|reflexivity]. rewrite slex_step_space by reflexivity.
  rewrite slex_step_punct by reflexivity. rewrite slex_step_space by reflexivity. rewrite slex_body by assumption.
  cbn [andb]. destruct (words2 fs); [|reflexivity].
  cbn [append]. rewrite slex_step_punct by reflexivity. rewrite slex_step_punct by reflexivity.
  rewrite !stcons_app. unfold def_stoks. cbn [app]. rewrite <- !app_assoc. reflexivity.
Qed.

(** the copies *)
Definition copy_text (fs : list (string * string)) : string :=
  fold_right (fun f s => "out_data." ++ snd f ++ " = in_data." ++ snd f ++ ";" ++ nl ++ s) "" fs.
Definition copy_stoks (fs : list (string * string)) : list stok :=
  flat_map (fun f => [SW "out_data"; SP "."; SW (snd f); SP "="; SW "in_data"; SP "."; SW (snd f); SP ";"]) fs.

Lemma struct_copy_eq fs : struct_copy fs = copy_text fs.
Proof.
  unfold struct_copy. assert (H : forall out, struct_copy_loop fs out = out ++ copy_text fs); [|apply H].
  induction fs as [|[ty n] fs IH]; intros out; cbn [struct_copy_loop copy_text fold_right snd].
  - now rewrite sapp_nil_r.
  - fold (copy_text fs). rewrite IH. rewrite !sapp_assoc. reflexivity.
Qed.

Lemma slex_copy fs : forall s, names2 fs -> words2 fs = true ->
  slex_from (copy_text fs ++ s) "" = stcons (copy_stoks fs) (slex_from s "").
Proof.
  induction fs as [|[ty n] fs IH]; intros s H Hw; [cbn; now destruct (slex_from s "")|].
  inversion H as [|? ? [W1 W2] Hr]; subst. cbn [fst snd] in W1, W2.
  cbn [copy_text fold_right fst snd copy_stoks flat_map]. fold (copy_text fs) (copy_stoks fs).
  cbn [words2 forallb fst snd] in Hw. fold (words2 fs) in Hw. rewrite !andb_true_iff in Hw. destruct Hw as [[Wa Wb] Wc].
  rewrite !sapp_assoc.
  rewrite (slex_piece "out_data." _ "" [SW "out_data"; SP "."]) by reflexivity.
  rewrite slex_word_sep by first [assumption|reflexivity].
  rewrite (slex_piece " = in_data." _ "" [SP "="; SW "in_data"; SP "."]) by reflexivity.
  rewrite slex_word_sep by first [assumption|reflexivity].
  change (";" ++ nl ++ copy_text fs ++ s) with ((";" ++ nl) ++ (copy_text fs ++ s)).
  rewrite (slex_piece (";" ++ nl) _ "" [SP ";"]) by reflexivity.
  rewrite IH by assumption. rewrite !stcons_app. reflexivity.
Qed.

(** the rest *)
Definition tail_stoks (l : lay) (n : string) (copy : list stok) : list stok :=
  [SW "layout"; SP "("; SW (layout_qualifier l); SP ","; SW "set"; SP "="; SN "0"; SP ","; SW "binding"; SP "="; SN "0"; SP ")";
    SW "readonly"; SW "buffer"; SW "INPUT"; SP "{"; SW n; SW "in_data"; SP ";"; SP "}"; SP ";";
    SW "layout"; SP "("; SW (layout_qualifier l); SP ","; SW "set"; SP "="; SN "0"; SP ","; SW "binding"; SP "="; SN "1"; SP ")";
    SW "buffer"; SW "OUTPUT"; SP "{"; SW n; SW "out_data"; SP ";"; SP "}"; SP ";";
    SW "void"; SW "main"; SP "("; SP ")"; SP "{"]%list ++ copy ++ [SP "}"].

Definition tail_1 : list stok := [SW "layout"; SP "("].
Definition tail_2 : list stok := [SP ","; SW "set"; SP "="; SN "0"; SP ","; SW "binding"; SP "="; SN "0"; SP ")";
    SW "readonly"; SW "buffer"; SW "INPUT"; SP "{"].
Definition tail_3 : list stok := [SW "in_data"; SP ";"; SP "}"; SP ";"; SW "layout"; SP "("].
Definition tail_4 : list stok := [SP ","; SW "set"; SP "="; SN "0"; SP ","; SW "binding"; SP "="; SN "1"; SP ")";
    SW "buffer"; SW "OUTPUT"; SP "{"].
Definition tail_5 : list stok := [SW "out_data"; SP ";"; SP "}"; SP ";"; SW "void"; SW "main"; SP "("; SP ")"; SP "{"].

Lemma slex_part1 s : slex_from (part1 ++ s) "" = stcons tail_1 (slex_from s "").
Proof. apply slex_piece; vm_compute; reflexivity. Qed.
Lemma slex_part2 s : slex_from (part2 ++ s) "" = stcons tail_2 (slex_from s "").
Proof. apply slex_piece; vm_compute; reflexivity. Qed.
Lemma slex_part3 s : slex_from (part3 ++ s) "" = stcons tail_3 (slex_from s "").
Proof. apply slex_piece; vm_compute; reflexivity. Qed.
Lemma slex_part4 s : slex_from (part4 ++ s) "" = stcons tail_4 (slex_from s "").
Proof. apply slex_piece; vm_compute; reflexivity. Qed.
Lemma slex_part5 s : slex_from (part5 ++ s) "" = stcons tail_5 (slex_from s "").
Proof. apply slex_piece; vm_compute; reflexivity. Qed.
Lemma slex_part6 : slex_from part6 "" = Some [SP "}"].
Proof. vm_compute. reflexivity. Qed.
Lemma front_part s : sep_front (part2 ++ s) = true /\ sep_front (part3 ++ s) = true /\ sep_front (part4 ++ s) = true /\ sep_front (part5 ++ s) = true.
Proof. split; [reflexivity|]. split; [reflexivity|]. split; reflexivity. Qed.
Lemma layout_word_ok l : is_word (layout_qualifier l) = true.
Proof. destruct l; reflexivity. Qed.

Lemma slex_tail l n copy ctoks : is_word n = true ->
  (forall s, slex_from (copy ++ s) "" = stcons ctoks (slex_from s "")) ->
  slex_from (harness_tail (layout_qualifier l) n copy) "" = Some (tail_stoks l n ctoks).
Proof.
  intros Hw Hc. unfold harness_tail.
  rewrite slex_part1. rewrite slex_word_sep by first [apply layout_word_ok|apply front_part].
  rewrite slex_part2. rewrite slex_word_sep by first [assumption|apply front_part].
  rewrite slex_part3. rewrite slex_word_sep by first [apply layout_word_ok|apply front_part].
  rewrite slex_part4. rewrite slex_word_sep by first [assumption|apply front_part].
  rewrite slex_part5, Hc, slex_part6. rewrite !stcons_app. reflexivity.
Qed.

Lemma slex_start s : slex ("#version 450" ++ nl ++ nl ++ s) = slex_from s "".
Proof. unfold slex. change (after _ _) with (Some (nl ++ s)). apply slex_step_space; reflexivity. Qed.

Lemma slex_struct l n fs : rust_name_text n = true -> names2 fs ->
  slex (harness_text (glsl_text n fs) (layout_qualifier l) n (copy_text fs))
  = if is_word n && words2 fs then Some (def_stoks n fs ++ tail_stoks l n (copy_stoks fs))%list else None.
Proof.
  intros Hn Hf. unfold harness_text. rewrite slex_start, slex_def by assumption.
  destruct (is_word n) eqn:E1; [|reflexivity]. destruct (words2 fs) eqn:E2; [|reflexivity]. cbn [andb].
  rewrite (slex_tail l n (copy_text fs) (copy_stoks fs)); [reflexivity|assumption|]. intros s. now apply slex_copy.
Qed.

Lemma slex_primitive l n : is_word n = true ->
  slex (harness_text "" (layout_qualifier l) n ("out_data = in_data;" ++ nl))
  = Some (tail_stoks l n [SW "out_data"; SP "="; SW "in_data"; SP ";"]).
Proof.
  intros Hw. unfold harness_text. rewrite slex_start. apply slex_tail; [assumption|]. intros s.
  apply slex_piece; reflexivity.
Qed.

(** ** Parsing *)
Definition good_fieldb (f : string * string) : bool := is_type_word (fst f) && is_identifier (snd f).

Definition scons' (d : list item) (o : option (list item)) : option (list item) :=
  match o with Some ds => Some (d ++ ds)%list | None => None end.
Lemma scons'_nil o : scons' [] o = o.
Proof. now destruct o. Qed.

Lemma sparse_body n fs : forall ms ts,
  sparse_tokens (GStructDecl (PMembers n ms)) (body_stoks fs ++ ts)%list
  = if forallb good_fieldb fs then sparse_tokens (GStructDecl (PMembers n (ms ++ fs))) ts else None.
Proof.
  induction fs as [|[ty m] fs IH]; intros ms ts; [now rewrite app_nil_r|].
  cbn [body_stoks flat_map app fst snd sparse_tokens sstep pstep forallb]. fold (body_stoks fs). unfold good_fieldb at 1. cbn [fst snd].
  destruct (is_type_word ty); [|reflexivity]. cbn [sparse_tokens sstep pstep map app].
  destruct (is_identifier m); [|reflexivity]. cbn [sparse_tokens sstep pstep map app andb].
  change (pstep (PMember n ms ty) (TWord m)) with (pstep (PMember n ms ty) (TWord m)).
  cbn [Ascii.eqb Bool.eqb map app].
  replace (ms ++ (ty, m) :: fs)%list with ((ms ++ [(ty, m)]) ++ fs)%list by now rewrite <- app_assoc.
  rewrite <- IH. destruct (sparse_tokens _ (body_stoks fs ++ ts)); reflexivity.
Qed.

Lemma sparse_def n fs ts :
  sparse_tokens GTop (def_stoks n fs ++ ts)%list
  = if is_identifier n && negb (match fs with [] => true | _ => false end) && forallb good_fieldb fs
    then scons' [IStruct (n, fs)] (sparse_tokens GTop ts) else None.
Proof.
  unfold def_stoks. cbn [app sparse_tokens sstep pstep String.eqb Ascii.eqb Bool.eqb].
  destruct (is_identifier n); [|reflexivity].
  cbn [sparse_tokens sstep pstep map Ascii.eqb Bool.eqb app andb]. rewrite <- app_assoc. rewrite (sparse_body n fs [] _). cbn [app].
  destruct fs as [|f fs]; [reflexivity|]. cbn [negb andb]. destruct (forallb good_fieldb (f :: fs)); [|reflexivity].
  cbn [sparse_tokens sstep pstep map Ascii.eqb Bool.eqb app]. destruct (sparse_tokens GTop ts); reflexivity.
Qed.

Lemma sparse_copy fs : forall ss ts, forallb (fun f => is_identifier (snd f)) fs = true ->
  sparse_tokens (GBody ss) (copy_stoks fs ++ ts)%list
  = sparse_tokens (GBody (ss ++ map (fun f : string * string => (["out_data"; snd f], ["in_data"; snd f])) fs)%list) ts.
Proof.
  induction fs as [|[ty m] fs IH]; intros ss ts H; [now rewrite app_nil_r|].
  cbn [forallb snd] in H. apply andb_prop in H. destruct H as [H1 H2].
  cbn [copy_stoks flat_map app snd map]. fold (copy_stoks fs).
  cbn [sparse_tokens sstep is_c Ascii.eqb Bool.eqb app]. change (is_identifier "out_data") with true. change (is_identifier "in_data") with true.
  cbn [sparse_tokens sstep is_c Ascii.eqb Bool.eqb app]. rewrite H1.
  cbn [sparse_tokens sstep is_c Ascii.eqb Bool.eqb app]. change (is_identifier "in_data") with true.
  cbn [sparse_tokens sstep is_c Ascii.eqb Bool.eqb app]. rewrite H1.
  cbn [sparse_tokens sstep is_c Ascii.eqb Bool.eqb app]. rewrite IH by assumption.
  rewrite <- app_assoc. cbn [app]. now destruct (sparse_tokens _ ts).
Qed.

Lemma sparse_tail l n copy :
  sparse_tokens GTop (tail_stoks l n copy)
  = if is_type_word n then scons' (harness_blocks l n) (sparse_tokens (GBody []) (copy ++ [SP "}"])%list) else None.
Proof.
  Ltac st := cbn [app sparse_tokens sstep String.eqb Ascii.eqb Bool.eqb is_c bl_quals bl_readonly bl_name bl_members].
  unfold tail_stoks. st. change (is_identifier "INPUT") with true. cbv beta iota. st.
  destruct (is_type_word n) eqn:E; [|reflexivity].
  st. change (is_identifier "in_data") with true. st. change (is_identifier "OUTPUT") with true. st. rewrite E. st.
  change (is_identifier "out_data") with true. st.
  unfold harness_blocks. destruct (sparse_tokens (GBody []) _); reflexivity.
Qed.

(** the names a struct's shader needs *)
Definition parses (n : string) (fs : list (string * string)) : bool :=
  is_identifier n && negb (match fs with [] => true | _ => false end) && forallb good_fieldb fs.

Lemma good_words fs : forallb good_fieldb fs = true -> words2 fs = true /\ forallb (fun f : string * string => is_identifier (snd f)) fs = true.
Proof.
  intros H. unfold words2. rewrite !forallb_forall in *. split; intros f Hf; specialize (H f Hf); apply andb_prop in H; destruct H as [H1 H2].
  - now rewrite is_type_word_word, is_identifier_word.
  - assumption.
Qed.

Lemma sparse_struct l n fs : rust_name_text n = true -> names2 fs ->
  sparse (harness_text (glsl_text n fs) (layout_qualifier l) n (copy_text fs))
  = if parses n fs then Some (struct_program l n fs) else None.
Proof.
  intros Hn Hf. unfold sparse. rewrite slex_struct by assumption. unfold parses.
  destruct (is_identifier n) eqn:E1.
  - rewrite (is_identifier_word n E1). cbn [andb].
    destruct (forallb good_fieldb fs) eqn:E2.
    + destruct (good_words fs E2) as [W1 W2]. rewrite W1. rewrite sparse_def, E1, E2. cbn [andb]. rewrite andb_true_r.
      destruct fs as [|f fs]; [reflexivity|]. cbn [negb]. rewrite sparse_tail.
      assert (is_type_word n = true) as -> by (unfold is_type_word; now rewrite E1).
      rewrite sparse_copy by assumption. cbn [app sparse_tokens sstep is_c Ascii.eqb Bool.eqb]. reflexivity.
    + rewrite andb_false_r. destruct (words2 fs); [|reflexivity]. rewrite sparse_def, E2, andb_false_r. reflexivity.
  - cbn [andb]. destruct (is_word n && words2 fs); [|reflexivity]. rewrite sparse_def, E1. reflexivity.
Qed.

Lemma sparse_primitive l n : is_type_word n = true ->
  sparse (harness_text "" (layout_qualifier l) n ("out_data = in_data;" ++ nl)) = Some (primitive_program l n).
Proof.
  intros H. unfold sparse. rewrite slex_primitive by now apply is_type_word_word. rewrite sparse_tail, H. reflexivity.
Qed.

(** ** Static checks *)
Lemma round_up_0 a : round_up 0 a = 0%N.
Proof. destruct (N.eq_dec a 0) as [->|H]; [reflexivity|]. apply round_up_zero. lia. Qed.

Definition hbody (paths : list (list string)) : list (list string * list string) :=
  map (fun r => ("out_data" :: r, "in_data" :: r)%list) paths.
Definition hvars (l : lay) (G : gty) : list (string * bvar) :=
  [("in_data", BVar "0" l true [("in_data", G)]); ("out_data", BVar "1" l false [("out_data", G)])].

Lemma gpath_single l x G r : gpath_offset l (GStruct "" [(x, G)]) (x :: r) = gpath_offset l G r.
Proof.
  cbn [gpath_offset]. unfold goffsets, gmembers. cbn [map member_offsets combine fst snd]. cbn zeta. rewrite round_up_0.
  rewrite !assoc_cons, String.eqb_refl. cbn [assoc]. destruct (gpath_offset l G r) as [[o g]|]; reflexivity.
Qed.

Lemma place_in l e G ns r : place (Scope e (hvars l G) ns) ("in_data" :: r)
  = match gpath_offset l G r with Some (o, g) => Some (BVar "0" l true [("in_data", G)], o, g) | None => None end.
Proof.
  unfold place, hvars. cbn [sc_vars]. rewrite assoc_cons. change (String.eqb "in_data" "in_data") with true. cbv beta iota.
  change (bv_layout (BVar "0" l true [("in_data", G)])) with l. change (bv_members (BVar "0" l true [("in_data", G)])) with [("in_data", G)].
  now rewrite gpath_single.
Qed.
Lemma place_out l e G ns r : place (Scope e (hvars l G) ns) ("out_data" :: r)
  = match gpath_offset l G r with Some (o, g) => Some (BVar "1" l false [("out_data", G)], o, g) | None => None end.
Proof.
  unfold place, hvars. cbn [sc_vars]. rewrite !assoc_cons. change (String.eqb "out_data" "in_data") with false.
  change (String.eqb "out_data" "out_data") with true. cbv beta iota.
  change (bv_layout (BVar "1" l false [("out_data", G)])) with l. change (bv_members (BVar "1" l false [("out_data", G)])) with [("out_data", G)].
  now rewrite gpath_single.
Qed.

Lemma sgty_eqb_refl g : sgty_eqb g g = true.
Proof.
  assert (S : forall s, gscalar_eqb s s = true) by (intros []; reflexivity).
  induction g as [s|s n|s c r|e IH n|n fs]; cbn [sgty_eqb]; rewrite ?S, ?Nat.eqb_refl; [reflexivity|reflexivity|reflexivity| |apply String.eqb_refl].
  now rewrite IH.
Qed.

Lemma well_typed_copy l e G ns r : well_typed (Scope e (hvars l G) ns) ("out_data" :: r, "in_data" :: r)%list
  = match gpath_offset l G r with Some _ => true | None => false end.
Proof.
  unfold well_typed. cbn [fst snd]. rewrite place_in, place_out. destruct (gpath_offset l G r) as [[o g]|]; [|reflexivity].
  cbn [bv_readonly]. now rewrite sgty_eqb_refl.
Qed.

Definition hnames (n : string) : list string := ["main"; "OUTPUT"; "out_data"; "INPUT"; "in_data"; n]%list.

Lemma check_harness l e n G body : denotes e n = Some G ->
  check_all (Scope e [] [n]) (harness_blocks l n ++ [IMain body])%list
  = if negb (existsb (String.eqb n) reserved_names) && forallb (well_typed (Scope e (hvars l G) (hnames n))) body
    then Some (Scope e (hvars l G) (hnames n)) else None.
Proof.
  intros D. unfold harness_blocks, reserved_names. cbn [app check_all].
  cbn [check bl_name bl_members bl_quals bl_readonly map fst snd sc_types sc_vars sc_names map_opt]. rewrite D.
  unfold fresh. cbn [forallb existsb sc_names]. rewrite !(String.eqb_sym n).
  change (nodupb ["INPUT"; "in_data"]) with true.
  assert (L : layout_named [(layout_qualifier l, None); ("set", Some "0"); ("binding", Some "0")] = Some l
    /\ layout_named [(layout_qualifier l, None); ("set", Some "0"); ("binding", Some "1")] = Some l
    /\ assoc "set" [(layout_qualifier l, None); ("set", Some "0"); ("binding", Some "0")] = Some (Some "0")
    /\ assoc "set" [(layout_qualifier l, None); ("set", Some "0"); ("binding", Some "1")] = Some (Some "0")
    /\ assoc "binding" [(layout_qualifier l, None); ("set", Some "0"); ("binding", Some "0")] = Some (Some "0")
    /\ assoc "binding" [(layout_qualifier l, None); ("set", Some "0"); ("binding", Some "1")] = Some (Some "1")) by (destruct l; repeat (split; [reflexivity|]); reflexivity).
  destruct L as [L1 [L2 [L3 [L4 [L5 L6]]]]]. rewrite L1, L3, L5.
  destruct (String.eqb "INPUT" n) eqn:E1; [reflexivity|].
  destruct (String.eqb "in_data" n) eqn:E2; [cbn [orb negb andb]; now rewrite !orb_true_r|].
  cbn [orb negb andb sc_vars sc_types sc_names app map].
  cbn [check_all check bl_name bl_members bl_quals bl_readonly map fst snd sc_types sc_vars sc_names map_opt].
  unfold fresh. rewrite D, L2, L4, L6. change (nodupb ["OUTPUT"; "out_data"]) with true.
  cbn [forallb existsb sc_names snd bv_binding].
  change (String.eqb "OUTPUT" "INPUT") with false. change (String.eqb "OUTPUT" "in_data") with false.
  change (String.eqb "out_data" "INPUT") with false. change (String.eqb "out_data" "in_data") with false. change (String.eqb "1" "0") with false.
  destruct (String.eqb "OUTPUT" n) eqn:E3; [reflexivity|].
  destruct (String.eqb "out_data" n) eqn:E4; [reflexivity|].
  cbn [orb negb andb sc_vars sc_types sc_names app map check_all].
  cbn [check]. unfold fresh. change (nodupb ["main"]) with true. cbn [forallb existsb sc_names].
  change (String.eqb "main" "OUTPUT") with false. change (String.eqb "main" "out_data") with false.
  change (String.eqb "main" "INPUT") with false. change (String.eqb "main" "in_data") with false. cbn [orb].
  destruct (String.eqb "main" n) eqn:E5; [reflexivity|]. cbn [orb negb andb].
  change (Scope e _ ["OUTPUT"; "out_data"; "INPUT"; "in_data"; n]) with (Scope e (hvars l G) ["OUTPUT"; "out_data"; "INPUT"; "in_data"; n]).
  assert (W : forallb (well_typed (Scope e (hvars l G) ["OUTPUT"; "out_data"; "INPUT"; "in_data"; n])) body
            = forallb (well_typed (Scope e (hvars l G) (hnames n))) body) by reflexivity.
  rewrite W. destruct (forallb _ body); reflexivity.
Qed.

Definition pnames : list string := ["main"; "OUTPUT"; "out_data"; "INPUT"; "in_data"]%list.

Lemma check_primitive l n :
  check_all (Scope [] [] []) (primitive_program l n)
  = match assoc n builtin_types with Some G => Some (Scope [] (hvars l G) pnames) | None => None end.
Proof.
  unfold primitive_program, harness_blocks. cbn [app check_all check bl_name bl_members bl_quals bl_readonly map fst snd sc_types sc_vars sc_names map_opt].
  unfold denotes. destruct (assoc n builtin_types) as [G|].
  - destruct l.
    + change (Some (Scope [] (hvars L140 G) pnames)) with (Some (Scope [] (hvars L140 G) pnames)).
      cbn -[well_typed]. change (well_typed _ _) with (well_typed (Scope [] (hvars L140 G) ["OUTPUT"; "out_data"; "INPUT"; "in_data"]) ("out_data" :: [], "in_data" :: [])%list).
      rewrite well_typed_copy. reflexivity.
    + cbn -[well_typed]. change (well_typed _ _) with (well_typed (Scope [] (hvars L430 G) ["OUTPUT"; "out_data"; "INPUT"; "in_data"]) ("out_data" :: [], "in_data" :: [])%list).
      rewrite well_typed_copy. reflexivity.
  - destruct l; reflexivity.
Qed.

Definition builtin_members (fs : list (string * string)) : option (list (string * gty)) :=
  map_opt (fun m => match denotes [] (fst m) with Some g => Some (snd m, g) | None => None end) fs.
Definition names_fine (n : string) (fs : list (string * string)) : bool :=
  parses n fs && negb (existsb (String.eqb n) reserved_names) && nodupb (map snd fs).

Lemma builtin_members_names fs gs : builtin_members fs = Some gs -> map fst gs = map snd fs.
Proof.
  unfold builtin_members. intros H. apply map_opt_Forall2 in H. induction H as [|m g fs gs E _ IH]; [reflexivity|].
  destruct (denotes [] (fst m)); [|discriminate]. injection E as <-. cbn [map fst]. now rewrite IH.
Qed.

Lemma gpath_member l n gs f : In f (map fst gs) -> exists o g, gpath_offset l (GStruct n gs) [f] = Some (o, g).
Proof.
  intros H. destruct (assoc_some_in f gs H) as [g Eg]. cbn [gpath_offset].
  assert (L : forall c, length (member_offsets c (gmembers l gs)) = length gs).
  { clear. induction gs as [|[f g] gs IH]; intros c; [reflexivity|]. rewrite gmembers_cons. cbn [member_offsets length]. cbn zeta. now rewrite IH. }
  destruct (assoc_some_in f (combine (map fst gs) (goffsets l gs))) as [o Eo].
  { assert (E : map fst (combine (map fst gs) (goffsets l gs)) = map fst gs); [|now rewrite E].
    unfold goffsets. specialize (L 0%N). revert L. generalize (member_offsets 0 (gmembers l gs)). clear.
    induction gs as [|[f g] gs IH]; intros [|o os] L; try discriminate; [reflexivity|]. cbn in *. rewrite IH; [reflexivity|lia]. }
  rewrite Eo, Eg. eauto.
Qed.

Lemma compile_struct l n fs : rust_name_text n = true -> names2 fs ->
  compile (harness_text (glsl_text n fs) (layout_qualifier l) n (copy_text fs))
  = if names_fine n fs then
      match builtin_members fs with
      | Some gs => Some (Scope [(n, GStruct n gs)] (hvars l (GStruct n gs)) (hnames n), hbody (map (fun m => [snd m]) fs))
      | None => None
      end
    else None.
Proof.
  intros Hn Hf. unfold compile. rewrite sparse_struct by assumption. unfold names_fine. destruct (parses n fs) eqn:P; [|reflexivity].
  unfold struct_program. change (IStruct (n, fs) :: harness_blocks l n ++ ?b)%list with (IStruct (n, fs) :: (harness_blocks l n ++ b))%list.
  cbn [check_all check fst sc_types sc_vars sc_names]. unfold fresh. cbn [nodupb existsb forallb sc_names negb andb].
  unfold declare. fold (builtin_members fs). cbn [map existsb negb]. rewrite andb_true_r.
  destruct (nodupb (map snd fs)) eqn:ND; [|now rewrite !andb_false_r].
  destruct (builtin_members fs) as [gs|] eqn:B; [|now destruct (negb _)].
  assert (Ei : is_identifier n = true) by (unfold parses in P; rewrite !andb_true_iff in P; tauto).
  assert (D : denotes ([] ++ [(n, GStruct n gs)])%list n = Some (GStruct n gs)).
  { unfold denotes. rewrite identifier_not_builtin by assumption. cbn [app]. now rewrite assoc_cons, String.eqb_refl. }
  rewrite (check_harness l _ n _ _ D). cbn [app]. rewrite andb_true_r.
  assert (W : forallb (well_typed (Scope [(n, GStruct n gs)] (hvars l (GStruct n gs)) (hnames n)))
      (map (fun m : string * string => (["out_data"; snd m], ["in_data"; snd m])) fs) = true).
  { apply forallb_forall. intros p Hp. apply in_map_iff in Hp. destruct Hp as [m [<- Hm]]. rewrite well_typed_copy.
    destruct (gpath_member l n gs (snd m)) as [o [g ->]]; [|reflexivity]. rewrite (builtin_members_names fs gs B). now apply in_map. }
  rewrite W, andb_true_r. destruct (negb _); [|reflexivity].
  rewrite flat_map_app || idtac. cbn [flat_map harness_blocks app]. unfold hbody. rewrite map_map. reflexivity.
Qed.

Lemma compile_primitive l n : is_type_word n = true ->
  compile (harness_text "" (layout_qualifier l) n ("out_data = in_data;" ++ nl))
  = match assoc n builtin_types with Some G => Some (Scope [] (hvars l G) pnames, hbody [[]]) | None => None end.
Proof.
  intros H. unfold compile. rewrite sparse_primitive, check_primitive by assumption.
  destruct (assoc n builtin_types); reflexivity.
Qed.

(** ** Execution *)
Local Open Scope N_scope.

Lemma gread_agree_size tg l g : gpos l g = true -> forall a b off, len a = len b ->
  (forall i, off <= i < off + gsize l g -> byte_at a i = byte_at b i) -> gread tg l g a off = gread tg l g b off.
Proof. intros Hp a b off Hl H. apply gread_agree; [assumption|]. split; assumption. Qed.

Lemma exec_exists tg l e G ns data : gpos l G = true -> gsize l G <= len data -> forall paths,
  (forall r, In r paths -> exists o g y, gpath_offset l G r = Some (o, g) /\ gread tg l g data o = Some y) ->
  forall m, m "0"%string = data -> len (m "1"%string) = len data -> exists m', runs tg (Scope e (hvars l G) ns) (hbody paths) m m'.
Proof.
  intros Hp Hsz. induction paths as [|r paths IH]; intros H m H0 H1.
  - exists m. constructor.
  - destruct (H r (or_introl eq_refl)) as [o [g [y [Ep Er]]]]. destruct (path_within l r G o g Hp Ep) as [W Hg].
    destruct (copy_at_spec (m "1"%string) o (firstn (N.to_nat (gsize l g)) (skipn (N.to_nat o) data))) as [buf [C [Cl Cb]]].
    { unfold len in *. rewrite firstn_length, skipn_length. lia. }
    assert (Hll : len (firstn (N.to_nat (gsize l g)) (skipn (N.to_nat o) data)) = gsize l g).
    { unfold len in *. rewrite firstn_length, skipn_length. lia. }
    set (m1 := fun k => if String.eqb k "1" then buf else m k).
    destruct (IH (fun r' Hr' => H r' (or_intror Hr')) m1) as [m' Hm'].
    { unfold m1. exact H0. }
    { unfold m1. change (String.eqb "1" "1") with true. cbv iota. congruence. }
    exists m'. cbn [hbody map]. eapply runs_assign with (g := g) (m1 := m1).
    + rewrite place_out, Ep. reflexivity.
    + rewrite place_in, Ep. reflexivity.
    + cbn [bv_layout bv_binding]. rewrite H0. exact Er.
    + cbn [bv_layout bv_binding]. eapply stored_by_copy; [exact C|exact Hll|].
      rewrite <- Er. apply gread_agree_size; [assumption|congruence|]. intros i Hi. rewrite Cb, Hll.
      replace (o <=? i) with true by (symmetry; apply N.leb_le; lia). replace (i <? o + gsize l g) with true by (symmetry; apply N.ltb_lt; lia).
      cbn [andb]. rewrite byte_at_firstn. destruct (Nat.ltb_spec (N.to_nat (i - o)) (N.to_nat (gsize l g))); [|lia].
      rewrite byte_at_skipn. f_equal. lia.
    + reflexivity.
    + cbn [bv_binding]. intros k Hk. unfold m1. destruct (String.eqb_spec k "1"); [congruence|reflexivity].
    + exact Hm'.
Qed.

(** an execution copies the members *)
Lemma exec_struct tg l e n gs ns data : forall names m m',
  runs tg (Scope e (hvars l (GStruct n gs)) ns) (hbody (map (fun f => [f]) names)) m m' -> m "0"%string = data ->
  copied_members tg l (GStruct n gs) data 0 0 names (m "1"%string) (m' "1"%string) /\ len (m' "1"%string) = len (m "1"%string).
Proof.
  induction names as [|f names IH]; intros m m' H H0; cbn [map hbody] in H; inversion H; subst.
  - split; [constructor|reflexivity].
  - rewrite place_out in *. rewrite place_in in *. destruct (gpath_offset l (GStruct n gs) [f]) as [[o g']|] eqn:Ep; [|discriminate].
    repeat match goal with E : Some _ = Some _ |- _ => injection E; clear E; intros; subst end. cbn [bv_layout bv_binding] in *.
    match goal with R : runs _ _ (map _ _) _ m', K : forall k : string, k <> _ -> _ |- _ =>
      destruct (IH _ m' R (K "0"%string ltac:(discriminate))) as [I1 I2] end.
    match goal with S : stored _ _ _ _ _ _ _ |- _ => pose proof S as [S1 _] end.
    split; [|congruence]. eapply copied_next; [exact Ep| | |exact I1]; rewrite N.add_0_l; eassumption.
Qed.

(** ** The generated text *)
Local Open Scope string_scope.

Lemma named_eq fs : map_opt (fun f : glsl_fty * string => match fty_name [] (fst f) with Some ty => Some (ty, snd f) | None => None end)
    (map (fun field : ident * glsl_fty => (snd field, ident_to_string (fst field)))
       (map (fun nf : string * hty => (Ident false (fst nf), match glsl_name (snd nf) with Some n => FNamed n | None => FNoGlsl end)) fs))
  = named_members fs.
Proof.
  unfold named_members. induction fs as [|[f h] fs IH]; [reflexivity|]. cbn [map map_opt fst snd]. rewrite IH.
  destruct (glsl_name h); reflexivity.
Qed.

Lemma struct_parts name fs ms : named_members fs = Some ms ->
  fields_of (HStruct name fs) = Some ms /\ struct_glsl (HStruct name fs) = Some (glsl_text name ms) /\ glsl_name (HStruct name fs) = Some name.
Proof.
  intros H. unfold fields_of, struct_glsl. cbn [glsl_name]. cbn [glsl_emit gi_data gi_ident ident_to_string id_raw id_name].
  unfold glsl_definition, glsl_fields. cbn [gl_fields gl_name]. rewrite named_eq, H. auto.
Qed.
Lemma struct_parts_none name fs : named_members fs = None -> shader_for_struct (HStruct name fs) = fun _ => None.
Proof.
  intros H. unfold shader_for_struct. cbn [glsl_name]. cbn [glsl_emit gi_data gi_ident ident_to_string id_raw id_name].
  unfold glsl_fields. cbn [gl_fields gl_name]. rewrite named_eq, H. reflexivity.
Qed.

Lemma all_chars_app P a b : all_chars P (a ++ b) = all_chars P a && all_chars P b.
Proof. induction a as [|c a IH]; cbn [append all_chars]; [reflexivity|]. now rewrite IH, andb_assoc. Qed.
Lemma clear_app a b : clear a -> clear b -> clear (a ++ b).
Proof. unfold clear. rewrite all_chars_app. now intros -> ->. Qed.

Lemma rust_clear w : rust_name_text w = true -> clear w.
Proof. intros H. now destruct (rust_name_facts w H) as [_ [C _]]. Qed.

Lemma body_clear fs : names2 fs -> clear (body_text fs).
Proof.
  intros H. induction H as [|[ty n] fs [W1 W2] _ IH]; [reflexivity|]. cbn [body_text fold_right fst snd] in *. fold (body_text fs).
  repeat apply clear_app; try reflexivity; try assumption; now apply rust_clear.
Qed.
Lemma copy_clear fs : names2 fs -> clear (copy_text fs).
Proof.
  intros H. induction H as [|[ty n] fs [W1 W2] _ IH]; [reflexivity|]. cbn [copy_text fold_right fst snd] in *. fold (copy_text fs).
  repeat apply clear_app; try reflexivity; try assumption; now apply rust_clear.
Qed.

Lemma definition_passes pat n fs : String.prefix "{" pat = true -> passes pat (" {" ++ nl) = true ->
  rust_name_text n = true -> names2 fs -> passes pat (glsl_text n fs) = true.
Proof.
  intros H1 H2 Hn Hf. rewrite glsl_text_eq.
  change ("struct " ++ n ++ " {" ++ nl ++ body_text fs ++ "};") with ("struct " ++ n ++ (" {" ++ nl) ++ body_text fs ++ "};").
  apply passes_app; [now apply passes_no_brace|]. apply passes_app; [apply passes_no_brace; [assumption|now apply rust_clear]|].
  apply passes_app; [assumption|]. apply passes_no_brace; [assumption|]. apply clear_app; [now apply body_clear|reflexivity].
Qed.

Lemma shader_text name fs ms l : rust_name_text name = true -> names2 ms -> named_members fs = Some ms ->
  shader_for_struct (HStruct name fs) (layout_qualifier l) = Some (harness_text (glsl_text name ms) (layout_qualifier l) name (copy_text ms)).
Proof.
  intros Hn Hm H. destruct (struct_parts name fs ms H) as [A [B C]]. unfold shader_for_struct. rewrite A, B, C. f_equal.
  rewrite struct_copy_eq. apply harness_text_eq.
  - now apply rust_clear.
  - now apply copy_clear.
  - now apply definition_passes.
  - now apply definition_passes.
Qed.

Lemma builtin_rust n g : assoc n builtin_types = Some g -> rust_name_text n = true.
Proof.
  intros H. apply assoc_in in H. assert (B : forallb (fun b => rust_name_text (fst b)) builtin_types = true) by (vm_compute; reflexivity).
  rewrite forallb_forall in B. apply (B _ H).
Qed.

Lemma used_name : forall h u n, struct_used h = Some u -> glsl_name h = Some n -> n = struct_ident u.
Proof.
  fix IH 1. intros h u n Hu Hn. destruct h as [p| |r std fs|r m|h'|nm fs|l h']; try discriminate.
  - exact (IH m u n Hu Hn).
  - injection Hu as <-. now apply glsl_name_struct_inv in Hn.
Qed.

Lemma named_rust name fs g ms : gty_of (HStruct name fs) = Some g -> proper_names (HStruct name fs) -> named_members fs = Some ms -> names2 ms.
Proof.
  intros Hg [_ [Hf Hu]] H. cbn [SpecTypes.struct_members] in *.
  destruct (gty_of_HStruct _ _ _ Hg) as [gs [_ [Hgs _]]]. apply gfields_Forall2 in Hgs. unfold named_members in H. apply map_opt_Forall2 in H.
  apply Forall_forall. intros m Hm. clear Hg. revert gs Hgs. induction H as [|[f h] m' fs ms E _ IH]; intros gs Hgs; [contradiction|].
  inversion Hgs as [|? [f' g'] ? gs' [G1 G2] Hgs']; subst. cbn [fst snd] in *.
  destruct Hm as [->|Hm].
  - destruct (glsl_name h) as [n|] eqn:En; [|discriminate]. injection E as <-. cbn [fst snd]. split; [|apply Hf; now left].
    destruct (struct_used h) as [u|] eqn:Eu.
    + rewrite (used_name h u n Eu En). apply (Hu f h u (or_introl eq_refl) Eu).
    + destruct C30_builtin_names_proof as [_ [_ B]]. eapply builtin_rust. eapply B; eassumption.
  - apply IH with (gs := gs'); [intros f0 Hin; apply Hf; now right|intros f0 hf0 u0 Hin; apply (Hu f0); now right|assumption|assumption].
Qed.

Lemma named_snd fs ms : named_members fs = Some ms -> map snd ms = map fst fs.
Proof.
  unfold named_members. intros H. apply map_opt_Forall2 in H. induction H as [|[f h] m fs ms E _ IH]; [reflexivity|]. cbn [fst snd] in E.
  destruct (glsl_name h); [|discriminate]. injection E as <-. cbn [map fst snd]. now rewrite IH.
Qed.

Lemma denotes_nil w : denotes [] w = assoc w builtin_types.
Proof. unfold denotes. now destruct (assoc w builtin_types). Qed.

(** the members denote the fields' types *)
Lemma named_builtin fs ms gs : named_members fs = Some ms -> gfields_of fs = Some gs ->
  (forall f hf u, In (f, hf) fs -> struct_used hf = Some u -> assoc (struct_ident u) builtin_types = None) ->
  match builtin_members ms with
  | Some gs' => gs' = gs /\ forallb (fun m => is_type_word (fst m)) ms = true /\ forall f hf, In (f, hf) fs -> struct_used hf = None
  | None => exists f hf, In (f, hf) fs /\ struct_used hf <> None
  end.
Proof.
  intros H Hg. unfold named_members in H. apply map_opt_Forall2 in H. apply gfields_Forall2 in Hg. revert gs Hg.
  induction H as [|[f h] m fs ms E _ IH]; intros gs Hg Hu; inversion Hg as [|? [f' g'] ? gs' [G1 G2] Hgs']; subst.
  { cbn. split; [reflexivity|]. split; [reflexivity|contradiction]. }
  cbn [fst snd] in *. subst f'. destruct (glsl_name h) as [n|] eqn:En; [|discriminate]. injection E as <-.
  specialize (IH gs' Hgs' (fun f0 hf0 u0 Hin => Hu f0 hf0 u0 (or_intror Hin))).
  unfold builtin_members in *. cbn [map_opt fst snd forallb]. rewrite denotes_nil.
  destruct (struct_used h) as [u|] eqn:Eu.
  - rewrite (used_name h u n Eu En), (Hu f h u (or_introl eq_refl) Eu). exists f, h. split; [now left|congruence].
  - destruct C30_builtin_names_proof as [_ [_ B]]. rewrite (B h n g' G2 En Eu).
    destruct (map_opt _ ms) as [gs''|].
    + destruct IH as [-> [IH1 IH2]]. split; [reflexivity|]. split.
      * rewrite IH1, andb_true_r. apply (glsl_name_type_word h n g' En G2). congruence.
      * intros f0 h0 [Hin|Hin]; [injection Hin as <- <-; assumption|now apply (IH2 f0)].
    + destruct IH as [f0 [h0 [Hin Hs]]]. exists f0, h0. split; [now right|assumption].
Qed.

Lemma fits_compile name fs g ms l : gty_of (HStruct name fs) = Some g -> proper_names (HStruct name fs) -> named_members fs = Some ms ->
  (harness_fits (HStruct name fs) ->
     exists gs, g = GStruct name gs /\ gfields_of fs = Some gs /\ map fst gs = map fst fs
     /\ compile (harness_text (glsl_text name ms) (layout_qualifier l) name (copy_text ms))
        = Some (Scope [(name, g)] (hvars l g) (hnames name), hbody (map (fun f => [f]) (map fst fs))))
  /\ (~ harness_fits (HStruct name fs) -> compile (harness_text (glsl_text name ms) (layout_qualifier l) name (copy_text ms)) = None).
Proof.
  intros Hg Hp Hm. pose proof (named_rust name fs g ms Hg Hp Hm) as Hr. destruct Hp as [Hn [Hf Hu]]. cbn [struct_ident SpecTypes.struct_members] in *.
  destruct (gty_of_HStruct _ _ _ Hg) as [gs [Hne [Hgs ->]]]. rewrite compile_struct by assumption.
  pose proof (named_builtin fs ms gs Hm Hgs (fun f hf u Hi Hs => proj2 (Hu f hf u Hi Hs))) as HB.
  pose proof (named_snd fs ms Hm) as Hsnd.
  assert (Hids : forallb (fun m => is_type_word (fst m)) ms = true -> forallb good_fieldb ms = forallb is_identifier (map fst fs)).
  { rewrite <- Hsnd. clear. induction ms as [|[ty n] ms IH]; [reflexivity|]. cbn [forallb map fst snd]. intros H. apply andb_prop in H. destruct H as [H1 H2].
    unfold good_fieldb at 1. cbn [fst snd]. now rewrite H1, IH. }
  assert (Hids' : forallb good_fieldb ms = true -> forallb is_identifier (map fst fs) = true).
  { rewrite <- Hsnd. clear. induction ms as [|[ty n] ms IH]; [reflexivity|]. cbn [forallb map fst snd]. intros H. apply andb_prop in H. destruct H as [H1 H2].
    unfold good_fieldb in H1. cbn [fst snd] in H1. apply andb_prop in H1. destruct H1 as [_ ->]. now apply IH. }
  assert (Hms : ms <> []) by (intros ->; destruct fs; [congruence|discriminate]).
  assert (Hgn : map fst gs = map fst fs).
  { apply gfields_Forall2 in Hgs. clear - Hgs. induction Hgs as [|a b ? ? [E _] _ IH]; [reflexivity|]. cbn [map]. now rewrite IH, E. }
  unfold harness_fits. cbn [struct_ident SpecTypes.struct_members]. split.
  - intros [F1 [F2 [F3 [F4 F5]]]]. exists gs. split; [reflexivity|]. split; [assumption|]. split; [assumption|].
    destruct (builtin_members ms) as [gs'|]; [|destruct HB as [f [hf [Hi Hs]]]; elim Hs; eauto].
    destruct HB as [-> [B1 _]]. unfold names_fine, parses. rewrite F1, (Hids B1), Hsnd.
    rewrite (proj2 (nodupb_NoDup _) F4).
    assert (forallb is_identifier (map fst fs) = true) as -> by (apply forallb_forall; exact F3).
    assert (existsb (String.eqb name) reserved_names = false) as ->.
    { destruct (existsb _ reserved_names) eqn:E; [|reflexivity]. apply existsb_eqb_in in E. contradiction. }
    destruct ms; [congruence|]. cbn [negb andb]. f_equal. f_equal. rewrite <- Hsnd, map_map. reflexivity.
  - intros HN. destruct (names_fine name ms) eqn:NF; [|reflexivity]. destruct (builtin_members ms) as [gs'|]; [|reflexivity].
    exfalso. apply HN. destruct HB as [_ [B1 B2]]. unfold names_fine, parses in NF. rewrite !andb_true_iff in NF.
    destruct NF as [[[[N1 _] N2] N3] N4]. split; [assumption|]. split.
    + intros Hin. apply existsb_eqb_in in Hin. rewrite Hin in N3. discriminate.
    + split; [|split].
      * intros f Hin. pose proof (Hids' N2) as K. rewrite forallb_forall in K. now apply K.
      * rewrite Hsnd in N4. now apply nodupb_NoDup.
      * assumption.
Qed.

Lemma fits_dec name fs : harness_fits (HStruct name fs) \/ ~ harness_fits (HStruct name fs).
Proof.
  unfold harness_fits. cbn [struct_ident SpecTypes.struct_members].
  destruct (forallb (fun nf => match struct_used (snd nf) with None => true | _ => false end) fs) eqn:E1.
  2: { right. intros [_ [_ [_ [_ F]]]]. assert (K : forallb (fun nf => match struct_used (snd nf) with None => true | _ => false end) fs = true); [|congruence].
       apply forallb_forall. intros [f hf] Hin. cbn [snd]. now rewrite (F f hf Hin). }
  destruct (nodupb (map fst fs)) eqn:E2; [|right; intros [_ [_ [_ [F _]]]]; apply nodupb_NoDup in F; congruence].
  destruct (forallb is_identifier (map fst fs)) eqn:E3; [|right; intros [_ [_ [F _]]]; assert (forallb is_identifier (map fst fs) = true) by (apply forallb_forall; exact F); congruence].
  destruct (existsb (String.eqb name) reserved_names) eqn:E4; [right; intros [_ [F _]]; apply existsb_eqb_in in E4; contradiction|].
  destruct (is_identifier name) eqn:E5; [|right; intros [F _]; congruence].
  left. split; [reflexivity|]. split; [intros Hin; apply existsb_eqb_in in Hin; congruence|].
  split; [intros f Hin; rewrite forallb_forall in E3; now apply E3|]. split; [now apply nodupb_NoDup|].
  intros f hf Hin. rewrite forallb_forall in E1. specialize (E1 _ Hin). cbn [snd] in E1. now destruct (struct_used hf).
Qed.

(** C89.  The shader generated for a struct, as text: a structure declaration with the struct's
    name and its fields' names and GLSL types, two buffer blocks with the layout asked for, and a
    [main] that copies every field; unless a name is not a GLSL identifier (then it is not a GLSL
    program at all).  There is one exactly when every field has a GLSL name. *)
Lemma C89_shader_text_proof : forall l name fs g,
  gty_of (HStruct name fs) = Some g -> proper_names (HStruct name fs) ->
  match named_members fs with
  | None => shader_for_struct (HStruct name fs) (layout_qualifier l) = None
  | Some members =>
    exists text, shader_for_struct (HStruct name fs) (layout_qualifier l) = Some text
    /\ sparse text = if is_identifier name && forallb (fun m => is_type_word (fst m) && is_identifier (snd m)) members
                     then Some (struct_program l name members) else None
  end.
Proof.
  intros l name fs g Hg Hp. destruct (named_members fs) as [ms|] eqn:Em; [|now rewrite struct_parts_none].
  pose proof (named_rust name fs g ms Hg Hp Em) as Hr. destruct Hp as [Hn _]. cbn [struct_ident] in Hn.
  eexists. split; [now apply (shader_text name fs ms)|]. rewrite sparse_struct by assumption. unfold parses.
  destruct ms as [|m ms]; [|cbn [negb]; now rewrite andb_true_r].
  exfalso. destruct (gty_of_HStruct _ _ _ Hg) as [gs [Hne _]]. apply named_snd in Em. destruct fs; [congruence|discriminate].
Qed.

(** C89.  Which of them compile. *)
Lemma C89_which_compile_proof : forall l name fs g text,
  gty_of (HStruct name fs) = Some g -> proper_names (HStruct name fs) ->
  shader_for_struct (HStruct name fs) (layout_qualifier l) = Some text ->
  (compile text <> None <-> harness_fits (HStruct name fs)).
Proof.
  intros l name fs g text Hg Hp Ht. destruct (named_members fs) as [ms|] eqn:Em; [|rewrite struct_parts_none in Ht by assumption; discriminate].
  assert (Htx : text = harness_text (glsl_text name ms) (layout_qualifier l) name (copy_text ms)).
  { pose proof (shader_text name fs ms l (proj1 Hp) (named_rust name fs g ms Hg Hp Em) Em) as T. congruence. }
  subst text. destruct (fits_compile name fs g ms l Hg Hp Em) as [A B]. split.
  - intros Hc. destruct (fits_dec name fs) as [F|F]; [exact F|]. elim (Hc (B F)).
  - intros F Hc. destruct (A F) as [gs [_ [_ [_ E]]]]. congruence.
Qed.


Local Open Scope N_scope.

Lemma Some_eq {A} (a b : A) : Some a = Some b -> a = b.
Proof. congruence. Qed.

(** a device that behaves, on a text that compiles to copies of members *)
Lemma read_whole tg l h t g v bs : target_ok tg = true -> out_ty tg l h = Some t -> gty_of h = Some g -> hval_ok tg h v = true ->
  as_std_bytes tg l h v = Some bs ->
  gpos l g = true /\ gsize l g <= len bs /\ len bs = size_of tg t /\ exists X, gval_of tg h v = Some X /\ gread tg l g bs 0 = Some X.
Proof.
  intros Htg Ho Hg Hv Hb. split; [exact (gpos_of tg Htg h l t g Ho Hg)|].
  destruct (as_bytes_facts tg l h t v Htg Ho Hv) as [s [_ [_ [_ [A4 A5]]]]]. rewrite A4 in Hb. injection Hb as <-.
  destruct (size_align_glsl tg Htg h l t g Ho Hg) as [S1 [S2 S3]].
  split; [lia|]. split; [assumption|].
  apply (C23_gpu_reads_host_value_proof tg l h t g v (flat tg t s) (flat tg t s) 0 Htg Ho Hg Hv A4). apply read_at_all.
Qed.

Lemma host_output tg l h t buf v : out_ty tg l h = Some t -> len buf = size_of tg t -> host_reads tg l h buf 0 v ->
  exists s, from_bytes tg t buf = Some s /\ from_std tg l h s = Some v.
Proof.
  intros Ho Hl [t' [bs [s [Ho' [Hr [Hb Hs]]]]]]. assert (t' = t) as -> by congruence. rewrite <- Hl, read_at_all in Hr. injection Hr as <-. eauto.
Qed.

Lemma device_output tg l dev name fs g t ms v data :
  target_ok tg = true -> out_ty tg l (HStruct name fs) = Some t -> gty_of (HStruct name fs) = Some g ->
  plain (HStruct name fs) = true -> hval_ok tg (HStruct name fs) v = true -> proper_names (HStruct name fs) ->
  named_members fs = Some ms -> let text := harness_text (glsl_text name ms) (layout_qualifier l) name (copy_text ms) in
  behaves tg dev text -> harness_fits (HStruct name fs) -> as_std_bytes tg l (HStruct name fs) v = Some data ->
  exists out, dev text data = Some out /\ len out = size_of tg t /\ host_reads tg l (HStruct name fs) out 0 v.
Proof.
  intros Htg Ho Hg Hpl Hv Hp Hm text Hb F A4. destruct (fits_compile name fs g ms l Hg Hp Hm) as [A _]. fold text in A.
  specialize (Hb data).
  destruct (A F) as [gs [-> [Egs [Efs Ec]]]]. rewrite Ec in Hb. destruct Hb as [Hb1 Hb2].
  destruct (read_whole tg l _ t _ v data Htg Ho Hg Hv A4) as [Hpos [Hsz [Hlen [X [X1 X2]]]]].
  destruct (dev text data) as [out|].
  2: { exfalso. apply Hb2; [|reflexivity]. intros m M0 M1. eapply (exec_exists tg l _ (GStruct name gs) _ data Hpos Hsz); [|exact M0|congruence].
       intros r Hr. apply in_map_iff in Hr. destruct Hr as [f [<- Hf]]. rewrite <- Efs in Hf.
       destruct (gpath_member l name gs f Hf) as [o [gf Ep]]. exists o, gf.
       rewrite gread_struct in X2. destruct (gread_fields tg l data 0 0 gs) as [xs|] eqn:Er; [|discriminate].
       destruct (gpath_struct _ _ _ _ _ _ _ Ep) as [of [gf' [o' [Eo [Ef [E ->]]]]]]. cbn [gpath_offset] in E. injection E as <- <-.
       destruct (gread_member tg l data 0 f gf' gs xs 0 of Er Eo Ef) as [y [_ Y2]]. exists y. split; [exact Ep|].
       rewrite N.add_0_r. exact Y2. }
  destruct (Hb1 out eq_refl) as [m [m' [M0 [M1 [Hrun ->]]]]].
  destruct (exec_struct tg l _ name gs _ data (map fst fs) m m' Hrun M0) as [Hcopy Hl'].
  exists (m' "1"%string). split; [reflexivity|]. split; [congruence|].
  eapply (C58_memberwise_copy_proof tg l name fs t (GStruct name gs) v data data 0 (m "1"%string) (m' "1"%string) 0 (map fst fs));
    try eassumption; [apply read_at_all|lia|auto].
Qed.

Lemma round_trip_struct tg l dev eq name fs g t ms v :
  target_ok tg = true -> out_ty tg l (HStruct name fs) = Some t -> gty_of (HStruct name fs) = Some g ->
  plain (HStruct name fs) = true -> hval_ok tg (HStruct name fs) v = true -> proper_names (HStruct name fs) ->
  named_members fs = Some ms -> let text := harness_text (glsl_text name ms) (layout_qualifier l) name (copy_text ms) in
  behaves tg dev text ->
  (harness_fits (HStruct name fs) -> test_round_trip tg l dev eq (HStruct name fs) text v = eq v v)
  /\ (~ harness_fits (HStruct name fs) -> test_round_trip tg l dev eq (HStruct name fs) text v = false).
Proof.
  intros Htg Ho Hg Hpl Hv Hp Hm text Hb.
  destruct (as_bytes_facts tg l _ t v Htg Ho Hv) as [s [_ [_ [_ [A4 A5]]]]]. set (data := flat tg t s) in *.
  unfold test_round_trip. rewrite Ho, A4. split.
  - intros F. destruct (device_output tg l dev name fs g t ms v data Htg Ho Hg Hpl Hv Hp Hm Hb F A4) as [out [D [Hl Hh]]]. fold text in D. rewrite D.
    destruct (host_output tg l _ t out v Ho Hl Hh) as [s' [S1 S2]].
    rewrite S1, S2. replace (len out =? size_of tg t) with true by (symmetry; apply N.eqb_eq; congruence). reflexivity.
  - intros F. destruct (fits_compile name fs g ms l Hg Hp Hm) as [_ B]. fold text in B. specialize (Hb data). rewrite (B F) in Hb. rewrite Hb. reflexivity.
Qed.

(** C89.  What the round-trip test of a struct establishes, on a device that does what the shader
    says: it passes exactly when the shader compiles and the value equals itself.  (In particular
    it fails for every struct with a field that is itself a struct, and for values with a NaN.) *)
Lemma C89_round_trip_struct_proof : forall tg dev eq name fs g t140 t430 v text140 text430,
  target_ok tg = true -> out_ty tg L140 (HStruct name fs) = Some t140 -> out_ty tg L430 (HStruct name fs) = Some t430 ->
  gty_of (HStruct name fs) = Some g -> plain (HStruct name fs) = true -> proper_names (HStruct name fs) ->
  shader_for_struct (HStruct name fs) "std140" = Some text140 -> shader_for_struct (HStruct name fs) "std430" = Some text430 ->
  behaves tg dev text140 -> behaves tg dev text430 -> hval_ok tg (HStruct name fs) v = true ->
  (test_round_trip_struct tg dev eq (HStruct name fs) v = true <-> harness_fits (HStruct name fs) /\ eq v v = true).
Proof.
  intros tg dev eq name fs g t140 t430 v text140 text430 Htg Ho1 Ho2 Hg Hpl Hp Ht1 Ht2 Hb1 Hb2 Hv.
  destruct (named_members fs) as [ms|] eqn:Em; [|rewrite struct_parts_none in Ht1 by assumption; discriminate].
  pose proof (named_rust name fs g ms Hg Hp Em) as Hr. pose proof Hp as [Hn _]. cbn [struct_ident] in Hn.
  pose proof (shader_text name fs ms L140 Hn Hr Em) as T1. pose proof (shader_text name fs ms L430 Hn Hr Em) as T2.
  change (layout_qualifier L140) with "std140"%string in T1. change (layout_qualifier L430) with "std430"%string in T2.
  rewrite Ht1 in T1. rewrite Ht2 in T2. apply Some_eq in T1. apply Some_eq in T2.
  unfold test_round_trip_struct. change (layout_word L140) with "std140"%string. change (layout_word L430) with "std430"%string. rewrite Ht1, Ht2.
  subst text140 text430.
  destruct (round_trip_struct tg L140 dev eq name fs g t140 ms v Htg Ho1 Hg Hpl Hv Hp Em Hb1) as [A1 A2].
  destruct (round_trip_struct tg L430 dev eq name fs g t430 ms v Htg Ho2 Hg Hpl Hv Hp Em Hb2) as [B1 B2].
  change (layout_qualifier L140) with "std140"%string in *. change (layout_qualifier L430) with "std430"%string in *.
  destruct (fits_dec name fs) as [F|F].
  - rewrite (A1 F), (B1 F), andb_diag. tauto.
  - rewrite (A2 F). cbn [andb]. split; [discriminate|tauto].
Qed.

Lemma compile_primitive_none l n : rust_name_text n = true -> assoc n builtin_types = None ->
  compile (harness_text "" (layout_qualifier l) n ("out_data = in_data;" ++ nl)) = None.
Proof.
  intros Hn Hb. destruct (is_type_word n) eqn:E; [now rewrite compile_primitive, Hb|].
  unfold compile, sparse. destruct (is_word n) eqn:W.
  - rewrite slex_primitive by assumption. now rewrite sparse_tail, E.
  - unfold harness_text. rewrite slex_start. cbn [append]. unfold harness_tail.
    rewrite slex_part1. rewrite slex_word_sep by first [apply layout_word_ok|apply front_part]. rewrite slex_part2.
    rewrite slex_name by first [assumption|apply front_part]. now rewrite W.
Qed.

Lemma primitive_text h n l : glsl_name h = Some n -> rust_name_text n = true ->
  shader_for_primitive h (layout_qualifier l) = Some (harness_text "" (layout_qualifier l) n ("out_data = in_data;" ++ nl)).
Proof.
  intros H Hn. unfold shader_for_primitive. rewrite H. f_equal. apply harness_text_eq; [now apply rust_clear|reflexivity|reflexivity|reflexivity].
Qed.

Lemma round_trip_primitive tg l dev eq h n g t v :
  target_ok tg = true -> out_ty tg l h = Some t -> gty_of h = Some g -> plain h = true -> hval_ok tg h v = true ->
  glsl_name h = Some n -> (forall u, struct_used h = Some u -> rust_name_text n = true /\ assoc n builtin_types = None) ->
  let text := harness_text "" (layout_qualifier l) n ("out_data = in_data;" ++ nl) in behaves tg dev text ->
  test_round_trip tg l dev eq h text v = match struct_used h with None => eq v v | Some _ => false end.
Proof.
  intros Htg Ho Hg Hpl Hv Hn Hu text Hb.
  destruct (as_bytes_facts tg l _ t v Htg Ho Hv) as [s [_ [_ [_ [A4 A5]]]]]. set (data := flat tg t s) in *.
  specialize (Hb data). unfold test_round_trip. rewrite Ho, A4. destruct (struct_used h) as [u|] eqn:Eu.
  - destruct (Hu u eq_refl) as [U1 U2]. unfold text in *. rewrite compile_primitive_none in Hb by assumption. now rewrite Hb.
  - destruct C30_builtin_names_proof as [_ [_ B]]. specialize (B h n g Hg Hn Eu).
    assert (Htw : is_type_word n = true) by (apply (glsl_name_type_word h n g Hn Hg); congruence).
    unfold text in *. rewrite (compile_primitive l n Htw), B in Hb. destruct Hb as [Hb1 Hb2].
    destruct (read_whole tg l _ t _ v data Htg Ho Hg Hv A4) as [Hpos [Hsz [Hlen [X [X1 X2]]]]].
    destruct (dev _ data) as [out|].
    2: { exfalso. apply Hb2; [|reflexivity]. intros m M0 M1. eapply (exec_exists tg l _ g _ data Hpos Hsz); [|exact M0|congruence].
         intros r [<-|[]]. exists 0, g, X. split; [reflexivity|exact X2]. }
    destruct (Hb1 out eq_refl) as [m [m' [M0 [M1 [Hrun ->]]]]]. cbn [hbody map] in Hrun. inversion Hrun; subst. clear Hrun.
    rewrite place_out in *. rewrite place_in in *. cbn [gpath_offset] in *.
    repeat match goal with E : Some _ = Some _ |- _ => injection E; clear E; intros; subst end. cbn [bv_layout bv_binding] in *.
    match goal with R : runs _ _ [] _ _ |- _ => inversion R; subst; clear R end.
    rewrite M0 in *.
    match goal with S : stored _ _ _ _ _ _ _, R : gread _ _ _ data 0 = Some ?x |- _ => assert (x = X) as -> by congruence; destruct S as [S1 [S2 _]] end.
    assert (Hh : host_reads tg l h (m' "1"%string) 0 v).
    { eapply (host_reads_of tg l h t _ (m' "1"%string) 0 v X); try eassumption. lia. }
    destruct (host_output tg l _ t (m' "1"%string) v Ho) as [s' [Q1 Q2]]; [congruence|assumption|].
    rewrite Q1, Q2. replace (len (m' "1"%string) =? size_of tg t) with true by (symmetry; apply N.eqb_eq; congruence). reflexivity.
Qed.

(** C89.  The round-trip test of a type that is not a struct; called on a struct, it always fails. *)
Lemma C89_round_trip_primitive_proof : forall tg dev eq h g t140 t430 v text140 text430,
  target_ok tg = true -> out_ty tg L140 h = Some t140 -> out_ty tg L430 h = Some t430 ->
  gty_of h = Some g -> plain h = true ->
  (forall u, struct_used h = Some u -> rust_name_text (struct_ident u) = true /\ assoc (struct_ident u) builtin_types = None) ->
  shader_for_primitive h "std140" = Some text140 -> shader_for_primitive h "std430" = Some text430 ->
  behaves tg dev text140 -> behaves tg dev text430 -> hval_ok tg h v = true ->
  (test_round_trip_primitive tg dev eq h v = true <-> struct_used h = None /\ eq v v = true).
Proof.
  intros tg dev eq h g t140 t430 v text140 text430 Htg Ho1 Ho2 Hg Hpl Hu Ht1 Ht2 Hb1 Hb2 Hv.
  destruct (glsl_name h) as [n|] eqn:En; [|unfold shader_for_primitive in Ht1; rewrite En in Ht1; discriminate].
  assert (Hu' : forall u, struct_used h = Some u -> rust_name_text n = true /\ assoc n builtin_types = None).
  { intros u Eu. rewrite (used_name h u n Eu En). now apply Hu. }
  assert (Hn : rust_name_text n = true).
  { destruct (struct_used h) as [u|] eqn:Eu; [now apply (Hu' u)|]. destruct C30_builtin_names_proof as [_ [_ B]]. eapply builtin_rust. eapply B; eassumption. }
  pose proof (primitive_text h n L140 En Hn) as T1. pose proof (primitive_text h n L430 En Hn) as T2.
  change (layout_qualifier L140) with "std140"%string in T1. change (layout_qualifier L430) with "std430"%string in T2.
  rewrite Ht1 in T1. rewrite Ht2 in T2. apply Some_eq in T1. apply Some_eq in T2.
  unfold test_round_trip_primitive. change (layout_word L140) with "std140"%string. change (layout_word L430) with "std430"%string. rewrite Ht1, Ht2.
  subst text140 text430.
  pose proof (round_trip_primitive tg L140 dev eq h n g t140 v Htg Ho1 Hg Hpl Hv En Hu' Hb1) as A.
  pose proof (round_trip_primitive tg L430 dev eq h n g t430 v Htg Ho2 Hg Hpl Hv En Hu' Hb2) as B.
  change (layout_qualifier L140) with "std140"%string in *. change (layout_qualifier L430) with "std430"%string in *.
  rewrite A, B. destruct (struct_used h); cbn [andb]; [split; [discriminate|intros [K _]; discriminate]|]. rewrite andb_diag. tauto.
Qed.

(** ** Any device *)
Lemma any_device tg l dev eq h g t text v data : target_ok tg = true -> out_ty tg l h = Some t -> gty_of h = Some g -> plain h = true ->
  as_std_bytes tg l h v = Some data ->
  (test_round_trip tg l dev eq h text v = true <-> returns_equal tg l dev eq h g text v data).
Proof.
  intros Htg Ho Hg Hpl Hd. unfold test_round_trip, returns_equal. rewrite Ho, Hd.
  destruct (size_align_glsl tg Htg h l t g Ho Hg) as [S1 [S2 S3]]. assert (Es : size_of tg t = gsize l g) by congruence.
  destruct (dev text data) as [out|]; [|split; [discriminate|intros [out [w [X [K _]]]]; discriminate]].
  rewrite Es. destruct (N.eqb_spec (len out) (gsize l g)) as [El|El].
  2: { split; [discriminate|]. intros [out' [w [X [K [K2 _]]]]]. injection K as <-. congruence. }
  assert (Hr : read_at out 0 (size_of tg t) = Some out) by (rewrite Es, <- El; apply read_at_all).
  destruct (C24_host_reads_gpu_value_proof tg l h t g out 0 out Htg Ho Hg Hr) as [s [w [X [F1 [F2 [F3 [F4 F5]]]]]]].
  rewrite F1, F2. split.
  - intros E. exists out, w, X. repeat (split; [assumption || reflexivity|]). assumption.
  - intros [out' [w' [X' [K1 [K2 [K3 [K4 [K5 K6]]]]]]]]. injection K1 as <-. rewrite F5 in K3. injection K3 as <-.
    destruct (C72_one_to_one_proof tg l h t g Htg Ho Hg Hpl) as [C1 C2]. destruct (C1 w F3) as [Y [Y1 Y2]]. rewrite F4 in Y1. injection Y1 as <-.
    destruct (C2 X Y2) as [w0 [_ U]]. rewrite <- (U w) by (split; assumption). now rewrite (U w') by (split; assumption).
Qed.

(** C89.  What the round-trip test of a struct establishes about any device, working or not: it
    passes exactly if, for both layouts, the device returns for the shader and the bytes of the value a
    buffer of the right size with a GLSL value that Rust considers equal to the value. *)
Lemma C89_any_device_struct_proof : forall tg dev eq h g t140 t430 v text140 text430,
  target_ok tg = true -> out_ty tg L140 h = Some t140 -> out_ty tg L430 h = Some t430 ->
  gty_of h = Some g -> plain h = true -> hval_ok tg h v = true ->
  shader_for_struct h "std140" = Some text140 -> shader_for_struct h "std430" = Some text430 ->
  exists data140 data430, as_std_bytes tg L140 h v = Some data140 /\ as_std_bytes tg L430 h v = Some data430
    /\ (test_round_trip_struct tg dev eq h v = true <->
        returns_equal tg L140 dev eq h g text140 v data140 /\ returns_equal tg L430 dev eq h g text430 v data430).
Proof.
  intros tg dev eq h g t140 t430 v text140 text430 Htg Ho1 Ho2 Hg Hpl Hv Ht1 Ht2.
  destruct (as_bytes_facts tg L140 h t140 v Htg Ho1 Hv) as [s1 [_ [_ [_ [A1 _]]]]].
  destruct (as_bytes_facts tg L430 h t430 v Htg Ho2 Hv) as [s2 [_ [_ [_ [A2 _]]]]].
  exists (flat tg t140 s1), (flat tg t430 s2). split; [assumption|]. split; [assumption|].
  unfold test_round_trip_struct. change (layout_word L140) with "std140"%string. change (layout_word L430) with "std430"%string.
  rewrite Ht1, Ht2, andb_true_iff. now rewrite (any_device tg L140 dev eq h g t140 text140 v _ Htg Ho1 Hg Hpl A1), (any_device tg L430 dev eq h g t430 text430 v _ Htg Ho2 Hg Hpl A2).
Qed.

(** C89.  The same for [test_round_trip_primitive]. *)
Lemma C89_any_device_primitive_proof : forall tg dev eq h g t140 t430 v text140 text430,
  target_ok tg = true -> out_ty tg L140 h = Some t140 -> out_ty tg L430 h = Some t430 ->
  gty_of h = Some g -> plain h = true -> hval_ok tg h v = true ->
  shader_for_primitive h "std140" = Some text140 -> shader_for_primitive h "std430" = Some text430 ->
  exists data140 data430, as_std_bytes tg L140 h v = Some data140 /\ as_std_bytes tg L430 h v = Some data430
    /\ (test_round_trip_primitive tg dev eq h v = true <->
        returns_equal tg L140 dev eq h g text140 v data140 /\ returns_equal tg L430 dev eq h g text430 v data430).
Proof.
  intros tg dev eq h g t140 t430 v text140 text430 Htg Ho1 Ho2 Hg Hpl Hv Ht1 Ht2.
  destruct (as_bytes_facts tg L140 h t140 v Htg Ho1 Hv) as [s1 [_ [_ [_ [A1 _]]]]].
  destruct (as_bytes_facts tg L430 h t430 v Htg Ho2 Hv) as [s2 [_ [_ [_ [A2 _]]]]].
  exists (flat tg t140 s1), (flat tg t430 s2). split; [assumption|]. split; [assumption|].
  unfold test_round_trip_primitive. change (layout_word L140) with "std140"%string. change (layout_word L430) with "std430"%string.
  rewrite Ht1, Ht2, andb_true_iff. now rewrite (any_device tg L140 dev eq h g t140 text140 v _ Htg Ho1 Hg Hpl A1), (any_device tg L430 dev eq h g t430 text430 v _ Htg Ho2 Hg Hpl A2).
Qed.

(** ** A device that behaves: it copies bytes *)
Fixpoint blend (i lo hi : N) (a b : list byte) : list byte :=
  match a, b with
  | x :: a', y :: b' => (if (lo <=? i) && (i <? hi) then x else y) :: blend (i + 1) lo hi a' b'
  | _, _ => b
  end.

Lemma blend_len : forall a b i lo hi, len (blend i lo hi a b) = len b.
Proof.
  induction a as [|x a IH]; intros [|y b] i lo hi; try reflexivity. cbn [blend]. unfold len in *. cbn [length]. specialize (IH b (i + 1) lo hi). lia.
Qed.

Lemma blend_byte : forall a b i lo hi k, len a = len b ->
  byte_at (blend i lo hi a b) k = if (lo <=? i + k) && (i + k <? hi) then byte_at a k else byte_at b k.
Proof.
  induction a as [|x a IH]; intros [|y b] i lo hi k Hl; try (unfold len in Hl; cbn [length] in Hl; lia).
  - cbn [blend]. unfold byte_at. now destruct (N.to_nat k), (_ && _).
  - cbn [blend]. assert (Hl' : len a = len b) by (unfold len in *; cbn [length] in Hl; lia).
    destruct (N.eq_dec k 0) as [->|Hk].
    + rewrite N.add_0_r. unfold byte_at. cbn [N.to_nat nth_error]. now destruct (_ && _).
    + specialize (IH b (i + 1) lo hi (k - 1) Hl'). unfold byte_at in *. replace (N.to_nat k) with (S (N.to_nat (k - 1))) by lia. cbn [nth_error].
      rewrite IH. replace (i + 1 + (k - 1)) with (i + k) by lia. reflexivity.
Qed.

Fixpoint copy_run (tg : target) (sc : scope) (body : list (list string * list string)) (data out : list byte) : option (list byte) :=
  match body with
  | [] => Some out
  | (p, q) :: r =>
    match place sc p, place sc q with
    | Some (_, o, g), Some (bq, _, _) =>
      match gread tg (bv_layout bq) g data o with
      | Some _ => copy_run tg sc r data (blend 0 o (o + gsize (bv_layout bq) g) data out)
      | None => None
      end
    | _, _ => None
    end
  end.
Definition copying_device (tg : target) (text : string) (data : list byte) : option (list byte) :=
  match compile text with Some (sc, body) => copy_run tg sc body data (repeat (byte_of_N 171) (length data)) | None => None end.

Lemma copy_runs tg l e G ns data : gpos l G = true -> forall paths out res m,
  copy_run tg (Scope e (hvars l G) ns) (hbody paths) data out = Some res -> len out = len data ->
  m "0"%string = data -> m "1"%string = out ->
  exists m', runs tg (Scope e (hvars l G) ns) (hbody paths) m m' /\ m' "1"%string = res.
Proof.
  intros Hp. induction paths as [|r paths IH]; intros out res m H Hl H0 H1.
  - cbn in H. injection H as <-. exists m. split; [constructor|assumption].
  - cbn [hbody map copy_run] in H. rewrite place_out, place_in in H. destruct (gpath_offset l G r) as [[o g]|] eqn:Ep; [|discriminate].
    cbn [bv_layout] in H. destruct (gread tg l g data o) as [x|] eqn:Er; [|discriminate].
    destruct (path_within l r G o g Hp Ep) as [_ Hg]. fold (hbody paths) in H.
    set (buf := blend 0 o (o + gsize l g) data out) in *. set (m1 := fun k => if String.eqb k "1" then buf else m k).
    assert (Hbl : len buf = len data) by (unfold buf; now rewrite blend_len).
    destruct (IH buf res m1 H Hbl H0 eq_refl) as [m' [R1 R2]]. exists m'. split; [|assumption].
    cbn [hbody map]. eapply runs_assign with (g := g) (m1 := m1) (buf := buf).
    + rewrite place_out, Ep. reflexivity.
    + rewrite place_in, Ep. reflexivity.
    + cbn [bv_layout bv_binding]. rewrite H0. exact Er.
    + cbn [bv_layout bv_binding]. rewrite H1. split; [congruence|]. split.
      * rewrite <- Er. apply gread_agree_size; [assumption|assumption|]. intros i Hi. unfold buf. rewrite blend_byte by congruence. rewrite N.add_0_l.
        replace (o <=? i) with true by (symmetry; apply N.leb_le; lia). replace (i <? o + gsize l g) with true by (symmetry; apply N.ltb_lt; lia). reflexivity.
      * intros i Hi. unfold buf. rewrite blend_byte by congruence. rewrite N.add_0_l.
        destruct (N.leb_spec o i); [|reflexivity]. destruct (N.ltb_spec i (o + gsize l g)); [lia|reflexivity].
    + reflexivity.
    + cbn [bv_binding]. intros k Hk. unfold m1. destruct (String.eqb_spec k "1"); [congruence|reflexivity].
    + exact R1.
Qed.

Lemma copy_stuck tg l e G ns data : forall paths out m m',
  copy_run tg (Scope e (hvars l G) ns) (hbody paths) data out = None -> m "0"%string = data ->
  ~ runs tg (Scope e (hvars l G) ns) (hbody paths) m m'.
Proof.
  induction paths as [|r paths IH]; intros out m m' H H0 R; [discriminate|]. cbn [hbody map] in R. inversion R; subst.
  cbn [hbody map copy_run] in H. rewrite place_out, place_in in *. destruct (gpath_offset l G r) as [[o g']|]; [|discriminate].
  repeat match goal with E : Some _ = Some _ |- _ => injection E; clear E; intros; subst end. cbn [bv_layout bv_binding] in *.
  match goal with E : gread _ _ _ _ _ = Some _ |- _ => rewrite E in H end. fold (hbody paths) in H.
  match goal with R : runs _ _ (map _ _) _ m', K : forall k : string, k <> _ -> _ |- _ =>
    eapply (IH _ _ m' H); [|exact R]; apply (K "0"%string); discriminate end.
Qed.

Lemma copying_behaves tg text l e G ns paths : gpos l G = true ->
  compile text = Some (Scope e (hvars l G) ns, hbody paths) -> behaves tg (copying_device tg) text.
Proof.
  intros Hp Ec data. rewrite Ec. unfold copying_device. rewrite Ec.
  set (start := repeat (byte_of_N 171) (length data)). assert (Hs : len start = len data) by (unfold start, len; now rewrite repeat_length).
  set (m := fun k : string => if String.eqb k "0" then data else start). split.
  - intros out H. destruct (copy_runs tg l e G ns data Hp paths start out m H Hs eq_refl eq_refl) as [m' [R1 R2]].
    exists m, m'. split; [reflexivity|]. split; [exact Hs|]. split; [exact R1|now symmetry].
  - intros H E. destruct (H m eq_refl Hs) as [m' R]. exact (copy_stuck tg l e G ns data paths start m m' E eq_refl R).
Qed.

(** C89.  There is a device that behaves on every shader of the harness (so the hypotheses about
    the device are not vacuous). *)
Lemma C89_device_exists_proof : forall tg, target_ok tg = true ->
  exists dev : string -> list byte -> option (list byte), forall l h t g text,
    out_ty tg l h = Some t -> gty_of h = Some g ->
    (proper_names h /\ shader_for_struct h (layout_qualifier l) = Some text)
    \/ (struct_used h = None /\ shader_for_primitive h (layout_qualifier l) = Some text) ->
    behaves tg dev text.
Proof.
  intros tg Htg. exists (copying_device tg). intros l h t g text Ho Hg [[Hp Ht]|[Hu Ht]].
  - assert (Hs : exists d, struct_glsl h = Some d) by (unfold shader_for_struct in Ht; destruct (struct_glsl h); [eauto|destruct (glsl_name h); discriminate]).
    destruct h as [| | | | |name fs|]; try (destruct Hs; discriminate). clear Hs.
    destruct (named_members fs) as [ms|] eqn:Em; [|rewrite struct_parts_none in Ht by assumption; discriminate].
    pose proof (shader_text name fs ms l (proj1 Hp) (named_rust name fs g ms Hg Hp Em) Em) as T. rewrite Ht in T. apply Some_eq in T. subst text.
    destruct (fits_compile name fs g ms l Hg Hp Em) as [A B]. destruct (fits_dec name fs) as [F|F].
    + destruct (A F) as [gs [_ [_ [_ E]]]]. eapply copying_behaves; [|exact E]. exact (gpos_of tg Htg _ l t g Ho Hg).
    + specialize (B F). intros data. rewrite B. unfold copying_device. now rewrite B.
  - destruct (glsl_name h) as [n|] eqn:En; [|unfold shader_for_primitive in Ht; rewrite En in Ht; discriminate].
    destruct C30_builtin_names_proof as [_ [_ B]]. specialize (B h n g Hg En Hu).
    pose proof (primitive_text h n l En (builtin_rust n g B)) as T. rewrite Ht in T. apply Some_eq in T. subst text.
    eapply copying_behaves; [exact (gpos_of tg Htg h l t g Ho Hg)|].
    rewrite compile_primitive, B; [reflexivity|]. apply (glsl_name_type_word h n g En Hg). congruence.
Qed.

(** ** What a passing test does not show *)
Definition pair_ab : hty := HStruct "Pair" [("a"%string, HPrim PF32); ("b"%string, HPrim PF32)].
Definition pair_ba : hty := HStruct "Pair" [("b"%string, HPrim PF32); ("a"%string, HPrim PF32)].
Definition gab : gty := GStruct "Pair" [("a"%string, GScalar GFloat); ("b"%string, GScalar GFloat)].
Definition gba : gty := GStruct "Pair" [("b"%string, GScalar GFloat); ("a"%string, GScalar GFloat)].

Lemma gread_pair tg l f1 f2 buf X : gread tg l (GStruct "Pair" [(f1, GScalar GFloat); (f2, GScalar GFloat)]) buf 0 = Some X <->
  exists x y, gread tg l (GScalar GFloat) buf 0 = Some x /\ gread tg l (GScalar GFloat) buf 4 = Some y /\ X = GVStruct [(f1, x); (f2, y)].
Proof.
  rewrite gread_struct. cbn [gread_fields].
  change (0 + round_up 0 (base_align l (GScalar GFloat))) with 0.
  change (0 + round_up (round_up 0 (base_align l (GScalar GFloat)) + gsize l (GScalar GFloat)) (base_align l (GScalar GFloat))) with 4.
  destruct (gread tg l (GScalar GFloat) buf 0) as [x|]; [|split; [discriminate|intros [x [y [H _]]]; discriminate]].
  destruct (gread tg l (GScalar GFloat) buf 4) as [y|]; [|split; [discriminate|intros [x' [y [_ [H _]]]]; discriminate]].
  split; [intros H; injection H as <-; eauto|]. intros [x' [y' [H1 [H2 ->]]]]. injection H1 as ->. injection H2 as ->. reflexivity.
Qed.

Lemma C89_member_order_refuted_proof : forall dev eq l text v,
  shader_for_struct pair_ba (layout_qualifier l) = Some text -> behaves x86_64 dev text -> hval_ok x86_64 pair_ab v = true ->
  test_round_trip x86_64 l dev eq pair_ab text v = eq v v
  /\ gty_of pair_ab = Some gab /\ gty_of pair_ba = Some gba
  /\ gpath_offset l gab ["a"%string] = Some (0%N, GScalar GFloat) /\ gpath_offset l gba ["a"%string] = Some (4%N, GScalar GFloat).
Proof.
  intros dev eq l text v Ht Hb Hv. split; [|split; [reflexivity|split; [reflexivity|split; destruct l; reflexivity]]].
  assert (Htg : target_ok x86_64 = true) by reflexivity.
  assert (exists t, out_ty x86_64 l pair_ab = Some t) as [t Ho] by (destruct l; eexists; reflexivity).
  assert (exists t, out_ty x86_64 l pair_ba = Some t) as [t' Ho'] by (destruct l; eexists; reflexivity).
  assert (Hg : gty_of pair_ab = Some gab) by reflexivity. assert (Hg' : gty_of pair_ba = Some gba) by reflexivity.
  assert (Hp' : proper_names pair_ba).
  { split; [reflexivity|]. split; [intros f [<-|[<-|[]]]; reflexivity|]. intros f hf u [E|[E|[]]]; injection E as <- <-; discriminate. }
  destruct v as [| |vs| | |]; try discriminate Hv. unfold pair_ab in Hv. rewrite hval_ok_struct in Hv.
  destruct vs as [|[f1 x] [|[f2 y] [|]]]; try discriminate Hv; cbn [hfields_ok] in Hv; rewrite ?andb_false_r in Hv; try discriminate Hv.
  rewrite !andb_true_iff in Hv. destruct Hv as [[E1 Hx] [[E2 Hy] _]].
  apply String.eqb_eq in E1, E2. subst f1 f2.
  set (v := HVRec [("a"%string, x); ("b"%string, y)]). set (v' := HVRec [("b"%string, x); ("a"%string, y)]).
  assert (Hv : hval_ok x86_64 pair_ab v = true) by (unfold pair_ab, v; rewrite hval_ok_struct; cbn [hfields_ok]; now rewrite Hx, Hy).
  assert (Hv' : hval_ok x86_64 pair_ba v' = true) by (unfold pair_ba, v'; rewrite hval_ok_struct; cbn [hfields_ok]; now rewrite Hx, Hy).
  destruct (as_bytes_facts x86_64 l _ t v Htg Ho Hv) as [s [_ [_ [_ [A4 A5]]]]].
  destruct (as_bytes_facts x86_64 l _ t' v' Htg Ho' Hv') as [s' [_ [_ [_ [A4' A5']]]]].
  assert (Esame : as_std_bytes x86_64 l pair_ab v = as_std_bytes x86_64 l pair_ba v').
  { destruct x, y; try discriminate Hx; try discriminate Hy. destruct l; reflexivity. }
  set (data := flat x86_64 t s) in *.
  assert (A6 : as_std_bytes x86_64 l pair_ba v' = Some data) by congruence.
  assert (Hsz : size_of x86_64 t' = size_of x86_64 t) by (destruct l; injection Ho as <-; injection Ho' as <-; reflexivity).
  assert (Hb' : behaves x86_64 dev (harness_text (glsl_text "Pair" [("float", "b"); ("float", "a")]%string) (layout_qualifier l) "Pair" (copy_text [("float", "b"); ("float", "a")]%string))).
  { replace (harness_text _ _ _ _) with text; [exact Hb|]. clear - Ht. destruct l; apply Some_eq; rewrite <- Ht; vm_compute; reflexivity. }
  assert (Hfit : harness_fits pair_ba).
  { destruct (fits_dec "Pair" [("b"%string, HPrim PF32); ("a"%string, HPrim PF32)]) as [F|F]; [exact F|exfalso; apply F].
    split; [reflexivity|]. split; [cbn; intuition discriminate|]. split; [intros f [<-|[<-|[]]]; reflexivity|].
    split; [apply nodupb_NoDup; reflexivity|]. intros f hf [E|[E|[]]]; injection E as <- <-; reflexivity. }
  destruct (device_output x86_64 l dev "Pair" _ gba t' _ v' data Htg Ho' Hg' eq_refl Hv' Hp' eq_refl Hb' Hfit A6) as [out [D1 [D2 D3]]].
  assert (Htx : dev text data = Some out).
  { rewrite <- D1. f_equal. clear - Ht. destruct l; apply Some_eq; rewrite <- Ht; vm_compute; reflexivity. }
  destruct (host_reads_facts x86_64 l _ t' gba out 0 v' Htg Ho' Hg' D3) as [_ [_ [X' [G1 G2]]]].
  apply gread_pair in G2. destruct G2 as [x' [y' [G3 [G4 ->]]]].
  assert (Hxy : gval_of x86_64 (HPrim PF32) x = Some x' /\ gval_of x86_64 (HPrim PF32) y = Some y').
  { unfold pair_ba, v' in G1. rewrite gval_struct in G1. cbn [gval_fields] in G1.
    destruct (gval_of x86_64 (HPrim PF32) x) as [a|]; [|discriminate]. destruct (gval_of x86_64 (HPrim PF32) y) as [b|]; [|discriminate].
    injection G1 as <- <-. auto. }
  destruct Hxy as [Hx' Hy'].
  assert (Hh : host_reads x86_64 l pair_ab out 0 v).
  { eapply (host_reads_of x86_64 l pair_ab t gab out 0 v (GVStruct [("a"%string, x'); ("b"%string, y')])); try eassumption.
    - lia.
    - unfold pair_ab, v. rewrite gval_struct. cbn [gval_fields]. now rewrite Hx', Hy'.
    - apply gread_pair. eauto. }
  destruct (host_output x86_64 l _ t out v Ho) as [q [Q1 Q2]]; [congruence|assumption|].
  unfold test_round_trip. rewrite Ho, A4, Htx, Q1, Q2.
  replace (len out =? size_of x86_64 t) with true by (symmetry; apply N.eqb_eq; congruence). reflexivity.
Qed.


(** Example: the text for a struct with two members, and what the tests do on a device that
    behaves: they pass (or not) with the value's own equality for a [PointLight] and for a [vec3];
    they fail for a struct with structs inside and for one named [INPUT]. *)
Definition input_s : hty := HStruct "INPUT" [("x"%string, HPrim PF32)].
Definition foo_1 : hval := HVRec [("x"%string, bits f1_0)].
Definition bar_1 : hval := HVRec [("first"%string, foo_1); ("second"%string, foo_1)].

Lemma C89_ex_proof :
  shader_for_struct pair_ab "std430" = Some
"#version 450

struct Pair {
	float a;
	float b;
};

layout(std430, set = 0, binding = 0) readonly buffer INPUT {
    Pair in_data;
};

layout(std430, set = 0, binding = 1) buffer OUTPUT {
    Pair out_data;
};

void main() {
    out_data.a = in_data.a;
out_data.b = in_data.b;

}"%string
  /\ harness_fits point_light /\ ~ harness_fits bar_s /\ ~ harness_fits input_s
  /\ exists dev : string -> list byte -> option (list byte), forall eq,
      test_round_trip_struct x86_64 dev eq point_light light1 = eq light1 light1
      /\ test_round_trip_primitive x86_64 dev eq vec3f (v3 1 2 3) = eq (v3 1 2 3) (v3 1 2 3)
      /\ test_round_trip_struct x86_64 dev eq bar_s bar_1 = false
      /\ test_round_trip_struct x86_64 dev eq input_s foo_1 = false.
Proof.
  split; [vm_compute; reflexivity|].
  assert (F1 : harness_fits point_light).
  { split; [reflexivity|]. split; [cbn; intuition discriminate|]. split; [intros f [<-|[<-|[<-|[]]]]; reflexivity|].
    split; [apply nodupb_NoDup; reflexivity|]. intros f hf [E|[E|[E|[]]]]; injection E as <- <-; reflexivity. }
  assert (F2 : ~ harness_fits bar_s).
  { intros [_ [_ [_ [_ F]]]]. specialize (F "first"%string foo_s (or_introl eq_refl)). discriminate. }
  assert (F3 : ~ harness_fits input_s) by (intros [_ [F _]]; apply F; now left).
  split; [exact F1|]. split; [exact F2|]. split; [exact F3|].
  destruct (C89_device_exists_proof x86_64 eq_refl) as [dev Hdev]. exists dev. intros eq.
  assert (B : forall a b : bool, (a = true <-> b = true) -> a = b) by (intros [] [] H; destruct H; auto; symmetry; auto).
  assert (P1 : proper_names point_light).
  { split; [reflexivity|]. split; [intros f [<-|[<-|[<-|[]]]]; reflexivity|]. intros f hf u [E|[E|[E|[]]]]; injection E as <- <-; discriminate. }
  assert (P2 : proper_names bar_s).
  { split; [reflexivity|]. split; [intros f [<-|[<-|[]]]; reflexivity|].
    intros f hf u [E|[E|[]]]; injection E as <- <-; intros K; injection K as <-; split; reflexivity. }
  assert (P3 : proper_names input_s).
  { split; [reflexivity|]. split; [intros f [<-|[]]; reflexivity|]. intros f hf u [E|[]]; injection E as <- <-; discriminate. }
  Ltac trip Hdev n fs v P := 
    eapply (C89_round_trip_struct_proof x86_64 _ _ n fs _ _ _ v);
      [reflexivity|vm_compute; reflexivity|vm_compute; reflexivity|vm_compute; reflexivity|reflexivity|exact P
      |vm_compute; reflexivity|vm_compute; reflexivity
      |eapply (Hdev L140 (HStruct n fs)); [vm_compute; reflexivity|vm_compute; reflexivity|left; split; [exact P|vm_compute; reflexivity]]
      |eapply (Hdev L430 (HStruct n fs)); [vm_compute; reflexivity|vm_compute; reflexivity|left; split; [exact P|vm_compute; reflexivity]]
      |vm_compute; reflexivity].
  split; [|split; [|split]].
  - apply B. assert (T : test_round_trip_struct x86_64 dev eq point_light light1 = true <-> harness_fits point_light /\ eq light1 light1 = true); [|tauto].
    unfold point_light in *. trip Hdev "PointLight"%string [("position"%string, vec3f); ("color"%string, vec3f); ("brightness"%string, HPrim PF32)] light1 P1.
  - apply B. assert (T : test_round_trip_primitive x86_64 dev eq vec3f (v3 1 2 3) = true <-> struct_used vec3f = None /\ eq (v3 1 2 3) (v3 1 2 3) = true).
    2: { rewrite T. split; [tauto|]. intros K. split; [reflexivity|exact K]. }
    eapply (C89_round_trip_primitive_proof x86_64 _ _ vec3f);
      [reflexivity|vm_compute; reflexivity|vm_compute; reflexivity|vm_compute; reflexivity|reflexivity|discriminate
      |vm_compute; reflexivity|vm_compute; reflexivity
      |eapply (Hdev L140 vec3f); [vm_compute; reflexivity|vm_compute; reflexivity|right; split; [reflexivity|vm_compute; reflexivity]]
      |eapply (Hdev L430 vec3f); [vm_compute; reflexivity|vm_compute; reflexivity|right; split; [reflexivity|vm_compute; reflexivity]]
      |vm_compute; reflexivity].
  - apply B. assert (T : test_round_trip_struct x86_64 dev eq bar_s bar_1 = true <-> harness_fits bar_s /\ eq bar_1 bar_1 = true).
    2: { rewrite T. split; [tauto|discriminate]. }
    unfold bar_s in *. trip Hdev "Bar"%string [("first"%string, foo_s); ("second"%string, foo_s)] bar_1 P2.
  - apply B. assert (T : test_round_trip_struct x86_64 dev eq input_s foo_1 = true <-> harness_fits input_s /\ eq foo_1 foo_1 = true).
    2: { rewrite T. split; [tauto|discriminate]. }
    unfold input_s in *. trip Hdev "INPUT"%string [("x"%string, HPrim PF32)] foo_1 P3.
Qed.
