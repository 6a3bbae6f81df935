(** * The code of derive(GlslStruct) at the level of tokens (C93) *)

From Coq Require Import NArith String Bool List Lia ZArith PeanoNat.
From Coq Require Import ZifyBool ZifyN ZifyNat.
From Verif Require Import Rust Internal Prims Derive GlslGen Tokens SpecTokens GlslTokens SpecGlslTokens Proofs_Tokens.
Import ListNotations.
Local Open Scope string_scope.

Local Notation "'do' X <- A ; B" := (match A with Some X => B | _ => None end) (at level 200, X pattern, A at level 100, B at level 200).

Lemma to_gt_ok inner : forall d r, balanced d inner = true -> to_gt d (inner ++ TP ">" :: r)%list = Some (inner ++ [TP ">"], r)%list.
Proof.
  induction inner as [|t inner IH]; intros d r H.
  - cbn [balanced] in H. apply Nat.eqb_eq in H. subst d. reflexivity.
  - cbn [balanced] in H. cbn [app to_gt]. destruct (is_p "<" t); [now rewrite IH|].
    destruct (is_p ">" t); [destruct d; [discriminate|now rewrite IH]|].
    apply andb_prop in H. now rewrite IH.
Qed.

Lemma read_generics_ok g r : generics_ok g -> (forall x y, r <> TP "<" :: x ++ y)%list -> read_generics (g ++ r)%list = Some (g, r).
Proof.
  intros [[->|[inner [-> H]]] _] N.
  - cbn [app]. destruct r as [|t r]; [reflexivity|]. destruct t as [| p | | |]; try reflexivity.
    cbn [read_generics]. destruct (String.string_dec p "<") as [->|Hp]; [exfalso; apply (N r []); now rewrite app_nil_r|].
    assert (E : read_generics (TP p :: r) = Some ([], TP p :: r)); [|exact E].
    clear N. destruct p as [|a p]; [reflexivity|]. destruct p as [|a' p].
    + destruct a as [[] [] [] [] [] [] [] []]; try reflexivity. congruence.
    + destruct a as [[] [] [] [] [] [] [] []]; reflexivity.
  - cbn [app]. rewrite <- app_assoc. cbn [app read_generics]. now rewrite (to_gt_ok inner 0 r H).
Qed.

Lemma to_brace_ok h b rest : (forall x, ~ In (TG Brace x) h) -> to_brace (h ++ TG Brace b :: rest)%list = Some (h, b, rest).
Proof.
  induction h as [|t h IH]; intros H; [reflexivity|]. cbn [app to_brace].
  rewrite IH by (intros x Hx; apply (H x); now right).
  destruct t as [| | | |[]]; try reflexivity. exfalso. eapply H. left. reflexivity.
Qed.

Lemma eat_path_ok (segs : list string) r : eat_path segs (flat_map (fun s => [TP "::"; kw s]) segs ++ r)%list = Some r.
Proof.
  unfold eat_path. induction segs as [|s segs IH]; [reflexivity|].
  assert (E : eat s (kw s :: flat_map (fun s => [TP "::"; kw s]) segs ++ r) = Some (flat_map (fun s => [TP "::"; kw s]) segs ++ r)%list)
    by (cbn [eat kw]; now rewrite String.eqb_refl).
  cbn [flat_map app]. cbn [eats]. change (eat "::" (TP "::" :: ?x)) with (Some x). cbn iota. rewrite E. exact IH.
Qed.

Lemma read_impl_ok segs ig nm tg w body rest : generics_ok ig -> generics_ok tg -> where_ok w -> (segs <> []) ->
  read_impl segs ([kw "unsafe"; kw "impl"] ++ ig ++ flat_map (fun s => [TP "::"; kw s]) segs ++ ([kw "for"; TId nm] ++ tg ++ w)
                  ++ [TG Brace body] ++ rest)%list = Some (Header ig nm tg w, body, rest).
Proof.
  intros Hi Ht [Hw1 Hw2] Hs. unfold read_impl. cbn [app eats eat kw String.eqb Ascii.eqb Bool.eqb].
  set (P := flat_map (fun s => [TP "::"; kw s]) segs).
  replace (ig ++ P ++ kw "for" :: TId nm :: (tg ++ w) ++ TG Brace body :: rest)%list
    with ((ig ++ P ++ kw "for" :: TId nm :: tg ++ w) ++ TG Brace body :: rest)%list
    by (rewrite <- !app_assoc; cbn [app]; rewrite <- ?app_assoc; reflexivity).
  rewrite to_brace_ok.
  2:{ intros x Hx. apply in_app_or in Hx. destruct Hx as [Hx|Hx]; [now apply Hi in Hx|].
      apply in_app_or in Hx. destruct Hx as [Hx|Hx].
      { unfold P in Hx. apply in_flat_map in Hx. destruct Hx as [s [_ [Hx|[Hx|[]]]]]; discriminate Hx. }
      destruct Hx as [Hx|[Hx|Hx]]; try discriminate Hx. apply in_app_or in Hx. destruct Hx as [Hx|Hx]; [now apply Ht in Hx|now apply Hw2 in Hx]. }
  rewrite read_generics_ok; [|assumption|].
  2:{ unfold P. destruct segs; [congruence|]. intros x y Q. cbn in Q. discriminate Q. }
  unfold P. rewrite eat_path_ok. cbn [eat kw]. cbn [String.eqb Ascii.eqb Bool.eqb].
  rewrite read_generics_ok; [now rewrite Hw1|assumption|].
  intros x y Q. rewrite Q in Hw1. cbn in Hw1. discriminate Hw1.
Qed.

Section Reads.
Variable R : list tok -> option glsl_fty.

Lemma glsl_fields_ok fields fs :
  Forall2 (fun f nt => fst nt = fst f /\ balanced 0 (snd f) = true /\ R (snd f) = Some (snd nt)) fields fs ->
  forall fuel, (length fields <= fuel)%nat ->
  read_glsl_fields R fuel (flat_map glsl_field_toks fields) = Some (map (fun nt => (snd nt, ident_to_string (fst nt))) fs).
Proof.
  induction 1 as [|[f ty] [g t] fields fs [E1 [E2 E3]] H IH]; intros fuel Hf; [destruct fuel; reflexivity|].
  cbn [length fst snd] in *. subst g. destruct fuel as [|fuel]; [lia|]. specialize (IH fuel ltac:(lia)).
  cbn [flat_map map fst snd]. set (Z := flat_map glsl_field_toks fields) in *. clearbody Z.
  unfold glsl_field_toks at 1. cbn [fst snd].
  set (B := ([kw "ty"; TP ":"; TP "<"] ++ ty ++ [kw "as"] ++ glsl_path "Glsl" ++ [TP ">"; TP "::"; kw "NAME"; TP ","; kw "name"; TP ":"; TStr (ident_to_string f); TP ","])%list).
  assert (EB : forall X, (do b <- eats ["ty"; ":"; "<"] B; do (ty, b) <- to_as 0 b; do t <- R ty;
      do b <- eat_path ["crevice"; "glsl"; "Glsl"] b;
      match eats [">"; "::"; "NAME"; ","; "name"; ":"] b with
      | Some [TStr s; TP ","] => X t s | _ => None end) = (X t (ident_to_string f) : option (list (glsl_fty * string)))).
  { intros X. unfold B. cbn [app eats eat kw String.eqb Ascii.eqb Bool.eqb].
    rewrite (to_as_ok ty 0 _ E2). rewrite E3. reflexivity. }
  clearbody B.
  transitivity (do b <- eats ["ty"; ":"; "<"] B; do (ty, b) <- to_as 0 b; do t <- R ty;
      do b <- eat_path ["crevice"; "glsl"; "Glsl"] b;
      match eats [">"; "::"; "NAME"; ","; "name"; ":"] b with
      | Some [TStr s; TP ","] => do fs <- read_glsl_fields R fuel Z; Some ((t, s) :: fs) | _ => None end); [reflexivity|].
  rewrite (EB (fun t s => do fs <- read_glsl_fields R fuel Z; Some ((t, s) :: fs))), IH. reflexivity.
Qed.

Lemma fields_length fields : (length fields <= length (flat_map glsl_field_toks fields))%nat.
Proof. induction fields as [|f fields IH]; [apply le_n|]. cbn [flat_map length]. rewrite app_length. unfold glsl_field_toks at 1. cbn [app glsl_path length]. lia. Qed.
End Reads.

(** C93.  The tokens that [derive(GlslStruct)] generates, read as Rust, are one impl of [Glsl] and one of [GlslStruct], both with the
    generic parameters, arguments and where clause of the struct, with the name and the fields of GlslGen.v. *)
Lemma C93_code_proof : forall R input n fields fs ts,
  generics_ok (ti_impl_generics input) -> generics_ok (ti_ty_generics input) -> where_ok (ti_where input) ->
  ti_data input = Tokens.TNamed fields ->
  Forall2 (fun f nt => fst nt = fst f /\ balanced 0 (snd f) = true /\ R (snd f) = Some (snd nt)) fields fs ->
  glsl_toks input = Some ts ->
  exists g, glsl_emit (GlslInput (ti_ident input) n (LNamed fs)) = Some g
    /\ let h := Header (ti_impl_generics input) (ti_ident input) (ti_ty_generics input) (ti_where input) in
       read_glsl R ts = Some (h, h, g).
Proof.
  intros R input n fields fs ts Hi Ht Hw Hd H Hts. eexists. split; [reflexivity|]. cbv zeta. cbn [gi_ident].
  unfold glsl_toks in Hts. rewrite Hd in Hts. injection Hts as <-. destruct input as [vis nm ig tg w data].
  cbn [ti_impl_generics ti_ty_generics ti_where ti_ident] in *.
  pose proof (glsl_fields_ok R fields fs H _ (fields_length fields)) as K.
  set (Z := flat_map glsl_field_toks fields) in *. clearbody Z.
  set (b1 := ([kw "const"; kw "NAME"; TP ":"] ++ static_ref ++ [kw "str"; TP "="; TStr (ident_to_string nm); TP ";"])%list).
  set (b2 := ([kw "const"; kw "FIELDS"; TP ":"] ++ static_ref ++ [TG Brack (glsl_path "GlslField"); TP "="; TP "&"; TG Brack Z; TP ";"])%list).
  pose proof (read_impl_ok ["crevice"; "glsl"; "GlslStruct"] ig nm tg w b2 [] Hi Ht Hw ltac:(discriminate)) as E2.
  match type of E2 with read_impl _ ?x = _ => set (r2 := x) in E2 end.
  pose proof (read_impl_ok ["crevice"; "glsl"; "Glsl"] ig nm tg w b1 r2 Hi Ht Hw ltac:(discriminate)) as E1.
  match type of E1 with read_impl _ ?x = _ => set (r1 := x) in E1 end.
  match goal with |- read_glsl R ?x = _ => assert (Er : x = r1) by (unfold r1, r2; rewrite ?app_nil_r; reflexivity); rewrite Er end.
  clearbody r1 r2. unfold read_glsl. rewrite E1, E2.
  unfold b1, b2.
  transitivity (do fs <- read_glsl_fields R (length Z) Z; Some (Header ig nm tg w, Header ig nm tg w, {| gl_name := ident_to_string nm; gl_fields := fs |})); [reflexivity|].
  now rewrite K.
Qed.

(** C93.  The macro generates code for exactly the structs with named fields. *)
Lemma C93_emits_proof : forall input, glsl_toks input <> None <-> exists fields, ti_data input = Tokens.TNamed fields.
Proof.
  intros input. unfold glsl_toks. destruct (ti_data input) as [fields| | | |].
  - split; [eauto|discriminate].
  - split; [congruence|intros [f Q]; discriminate Q].
  - split; [congruence|intros [f Q]; discriminate Q].
  - split; [congruence|intros [f Q]; discriminate Q].
  - split; [congruence|intros [f Q]; discriminate Q].
Qed.

(** ** Example: [struct Light<T: Glsl> where T: Copy { pos: Vec3, r#in: T }] *)
Definition light_input : tok_input :=
  TokInput [] (Ident false "Light") [TP "<"; kw "T"; TP ":"; kw "Glsl"; TP ">"] [TP "<"; kw "T"; TP ">"] [kw "where"; kw "T"; TP ":"; kw "Copy"]
    (Tokens.TNamed [(Ident false "pos", [kw "Vec3"]); (Ident true "in", [kw "T"])]).
Definition light_types (ts : list tok) : option glsl_fty :=
  match ts with [TId (Ident false "Vec3")] => Some (FNamed "vec3") | [TId (Ident false "T")] => Some (FParam 0) | _ => None end.

Lemma C93_ex_proof :
  generics_ok (ti_impl_generics light_input) /\ generics_ok (ti_ty_generics light_input) /\ where_ok (ti_where light_input)
  /\ (let ts := match glsl_toks light_input with Some ts => ts | None => [] end in
      let h := Header [TP "<"; kw "T"; TP ":"; kw "Glsl"; TP ">"] (Ident false "Light") [TP "<"; kw "T"; TP ">"] [kw "where"; kw "T"; TP ":"; kw "Copy"] in
      read_glsl light_types ts = Some (h, h, {| gl_name := "Light"; gl_fields := [(FNamed "vec3", "pos"); (FParam 0, "r#in")] |})
      /\ read_glsl light_types (ts ++ ts)%list = None).
Proof.
  split. { split; [right; exists [kw "T"; TP ":"; kw "Glsl"]; split; reflexivity|].
    intros b H. cbn in H. destruct H as [H|[H|[H|[H|[H|[]]]]]]; discriminate H. }
  split. { split; [right; exists [kw "T"]; split; reflexivity|].
    intros b H. cbn in H. destruct H as [H|[H|[H|[]]]]; discriminate H. }
  split. { split; [reflexivity|]. intros b H. cbn in H. destruct H as [H|[H|[H|[H|[]]]]]; discriminate H. }
  split; vm_compute; reflexivity.
Qed.
