(** * [minty_impl!] at the level of tokens (C96) *)

From Coq Require Import NArith String Bool List Lia ZArith PeanoNat.
From Coq Require Import ZifyBool ZifyN ZifyNat.
From Verif Require Import Rust Internal Prims Derive GlslGen Tokens SpecTokens SpecGlslTokens EasyTokens SpecEasyTokens MintyTokens SpecMintyTokens Proofs_Tokens Proofs_GlslTokens.
Import ListNotations.
Local Open Scope string_scope.

Local Notation "'do' X <- A ; B" := (match A with Some X => B | _ => None end) (at level 200, X pattern, A at level 100, B at level 200).

Lemma to_equals_ok ty r : ~ In (TP "=") ty -> to_equals (ty ++ TP "=" :: r)%list = Some (ty, r).
Proof.
  induction ty as [|t ty IH]; intros H; [reflexivity|]. cbn [app to_equals].
  rewrite IH by (intros Q; apply H; now right).
  destruct (is_p "=" t) eqn:E; [|reflexivity]. exfalso. destruct t as [|p| | |]; try discriminate E. cbn in E. apply String.eqb_eq in E. subst p. apply H. now left.
Qed.

Lemma read_angle_ok ty r : balanced 0 ty = true -> read_angle (TP "<" :: ty ++ TP ">" :: r)%list = Some (ty, r).
Proof.
  intros H. unfold read_angle. change (eat "<" (TP "<" :: ty ++ TP ">" :: r)%list) with (Some (ty ++ TP ">" :: r)%list). cbn iota.
  rewrite (to_gt_ok ty 0 r H). now rewrite removelast_last.
Qed.

Lemma via_body_ok l ty mint : balanced 0 mint = true -> ~ In (TP "=") mint ->
  read_via_body l ty
     ([kw "type"; kw "Output"; TP "="; TP "<"] ++ mint ++ [kw "as"] ++ crate_path l ("As" ++ trait_name l) ++
      [TP ">"; TP "::"; kw "Output"; TP ";";
       TP "#"; TG Brack [kw "inline"];
       kw "fn"; as_trait_method l; TG Paren [TP "&"; kw "self"]; TP "->"; kw "Self"; TP "::"; kw "Output";
       TG Brace ([kw "let"; kw "mint"; TP ":"] ++ mint ++ [TP "="; TG Paren [TP "*"; kw "self"]; TP "."; kw "into"; TG Paren []; TP ";";
                  kw "mint"; TP "."; as_trait_method l; TG Paren []]);
       TP "#"; TG Brack [kw "inline"];
       kw "fn"; from_trait_method l; TG Paren [kw "value"; TP ":"; kw "Self"; TP "::"; kw "Output"]; TP "->"; kw "Self";
       TG Brace ([TP "<"] ++ mint ++ [TP ">"; TP "::"; from_trait_method l; TG Paren [kw "value"]; TP "."; kw "into"; TG Paren []])])%list
  = Some (Via ty mint mint mint).
Proof.
  intros H1 H2.
  set (e1 := [TG Paren [TP "*"; kw "self"]; TP "."; kw "into"; TG Paren []; TP ";"; kw "mint"; TP "."; as_trait_method l; TG Paren []]).
  set (e2 := [TP "::"; from_trait_method l; TG Paren [kw "value"]; TP "."; kw "into"; TG Paren []]).
  pose proof (to_equals_ok mint e1 H2) as E1. pose proof (read_angle_ok mint e2 H1) as E2.
  set (b1 := (mint ++ TP "=" :: e1)%list) in E1. set (b2 := (TP "<" :: mint ++ TP ">" :: e2)%list) in E2.
  match goal with |- read_via_body l ty (_ ++ mint ++ [kw "as"] ++ crate_path l _ ++ ?x)%list = _ =>
    assert (E : x = [TP ">"; TP "::"; kw "Output"; TP ";"; TP "#"; TG Brack [kw "inline"];
       kw "fn"; as_trait_method l; TG Paren [TP "&"; kw "self"]; TP "->"; kw "Self"; TP "::"; kw "Output"; TG Brace (kw "let" :: kw "mint" :: TP ":" :: b1);
       TP "#"; TG Brack [kw "inline"];
       kw "fn"; from_trait_method l; TG Paren [kw "value"; TP ":"; kw "Self"; TP "::"; kw "Output"]; TP "->"; kw "Self"; TG Brace b2]) by reflexivity; rewrite E end.
  clear E. clearbody b1 b2.
  match goal with |- read_via_body l ty (_ ++ mint ++ ?x)%list = _ => pose proof (to_as_ok mint 0) as E0; set (tail := x) end.
  unfold read_via_body. change (eats ["type"; "Output"; "="; "<"] ([kw "type"; kw "Output"; TP "="; TP "<"] ++ mint ++ tail)%list) with (Some (mint ++ tail)%list). cbn iota.
  unfold tail. clear tail. cbn [app]. rewrite (E0 _ H1). clear E0.
  transitivity (do (t1, b1) <- to_equals b1; do (t2, b2) <- read_angle b2;
          match b1, eats ["::"; fn_name "from_" l] b2 with
          | TG Paren s :: b1, Some (TG Paren v :: b2) =>
            match eats ["."; "into"] b1, eats ["."; "into"] b2 with
            | Some (TG Paren [] :: b1), Some [TG Paren []] =>
              match eats [";"; "mint"; "."; fn_name "as_" l] b1 with
              | Some [TG Paren []] => if (is_all ["*"; "self"] s && is_all ["value"] v)%bool then Some (Via ty mint t1 t2) else None
              | _ => None
              end
            | _, _ => None
            end
          | _, _ => None
          end); [destruct l; reflexivity|].
  rewrite E1, E2. unfold e1, e2. destruct l; reflexivity.
Qed.

Lemma minty_impl_ok l r rest : (forall b, ~ In (TG Brace b) (mn_ty r)) -> balanced 0 (mn_mint r) = true -> ~ In (TP "=") (mn_mint r) ->
  read_via_impl l (minty_impl_toks l r ++ rest)%list = Some (Via (mn_ty r) (mn_mint r) (mn_mint r) (mn_mint r), rest).
Proof.
  intros H H1 H2. destruct r as [mint ty]. unfold minty_impl_toks. cbn [mn_ty mn_mint] in *.
  pose proof (via_body_ok l ty mint H1 H2) as E. match type of E with read_via_body _ _ ?x = _ => set (body := x) in * end. clearbody body.
  rewrite <- !app_assoc.
  transitivity (do (ty, body, rest) <- to_brace (ty ++ TG Brace body :: rest)%list; do c <- read_via_body l ty body; Some (c, rest)); [destruct l; reflexivity|].
  now rewrite (to_brace_ok ty body rest H), E.
Qed.

(** C96.  Whatever a row of [minty_impl!] is, its expansion, read as Rust, is the impls of [AsStd140], [AsStd430] and [Glsl] for the row's type
    that take [Output], both conversions and the GLSL name from the row's type of mint, with [into] between the two types. *)
Lemma C96_code_proof : forall r, (forall b, ~ In (TG Brace b) (mn_ty r)) -> balanced 0 (mn_mint r) = true -> ~ In (TP "=") (mn_mint r) ->
  let c := Via (mn_ty r) (mn_mint r) (mn_mint r) (mn_mint r) in
  read_via (minty_toks r) = Some (c, c, mn_ty r, mn_mint r).
Proof.
  intros r H H1 H2. cbv zeta. unfold read_via, minty_toks. rewrite (minty_impl_ok L140 r _ H H1 H2), (minty_impl_ok L430 r _ H H1 H2).
  destruct r as [mint ty]. cbn [mn_ty mn_mint] in *.
  pose proof (read_angle_ok mint [TP "::"; kw "NAME"; TP ";"] H1) as E. set (b := (TP "<" :: mint ++ _)%list) in E.
  set (c := Via ty mint mint mint). clearbody c.
  match goal with |- ?lhs = _ => transitivity 
    (do (ty', b, rest) <- to_brace (ty ++ [TG Brace ([kw "const"; kw "NAME"; TP ":"; TP "&"; TP "'"; kw "static"; kw "str"; TP "="] ++ b)])%list;
     do b <- eats ["const"; "NAME"; ":"; "&"; "'"; "static"; "str"; "="] b; do (n, b) <- read_angle b;
     match rest with [] => if is_all ["::"; "NAME"; ";"] b then Some (c, c, ty', n) else None | _ => None end); [reflexivity|] end.
  rewrite (to_brace_ok ty _ [] H). clearbody b.
  transitivity (do (n, b) <- read_angle b; if is_all ["::"; "NAME"; ";"] b then Some (c, c, ty, n) else None); [reflexivity|]. now rewrite E.
Qed.

Lemma C96_ex_proof :
  let v := MintyRow [kw "mint"; TP "::"; kw "Vector2"; TP "<"; kw "f32"; TP ">"] [kw "Vector2"; TP "<"; kw "f32"; TP ">"] in
  (forall b, ~ In (TG Brace b) (mn_ty v)) /\ balanced 0 (mn_mint v) = true /\ ~ In (TP "=") (mn_mint v)
  /\ option_map snd (read_via (minty_toks v)) = Some (mn_mint v)
  /\ read_via (minty_toks v ++ minty_toks v)%list = None.
Proof.
  cbv zeta. split. { intros b H. cbn in H. destruct H as [H|[H|[H|[H|[]]]]]; discriminate H. }
  split; [reflexivity|]. split. { intros H. cbn in H. destruct H as [H|[H|[H|[H|[H|[H|[]]]]]]]; discriminate H. }
  split; vm_compute; reflexivity.
Qed.
