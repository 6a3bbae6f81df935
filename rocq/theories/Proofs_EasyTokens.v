(** * [easy_impl!] at the level of tokens (C95) *)

From Coq Require Import NArith String Bool List Lia ZArith PeanoNat.
From Coq Require Import ZifyBool ZifyN ZifyNat.
From Verif Require Rows.
From Verif Require Import Rust Internal Prims Derive Host GlslGen Tokens SpecTokens EasyTokens SpecEasyTokens Proofs_GlslTokens.
Import ListNotations.
Local Open Scope string_scope.

Local Notation "'do' X <- A ; B" := (match A with Some X => B | _ => None end) (at level 200, X pattern, A at level 100, B at level 200).

Lemma easy_inits_ok l fs : forall fuel, (length fs <= fuel)%nat ->
  read_easy_inits l fuel (flat_map (fun f => [kw f; TP ":"; kw "self"; TP "."; kw f; TP "."; as_trait_method l; TG Paren []; TP ","]) fs
            ++ [TP ".."; kw "bytemuck"; TP "::"; kw "Zeroable"; TP "::"; kw "zeroed"; TG Paren []])%list = Some (map (fun f => (f, f)) fs).
Proof.
  induction fs as [|f fs IH]; intros fuel Hf; [destruct fuel; reflexivity|]. cbn [length] in Hf. destruct fuel as [|fuel]; [lia|].
  specialize (IH fuel ltac:(lia)). cbn [flat_map map]. rewrite <- app_assoc. set (Z := (flat_map _ fs ++ _)%list) in *. clearbody Z.
  transitivity (do fs <- read_easy_inits l fuel Z; Some ((f, f) :: fs)); [destruct l; reflexivity|]. now rewrite IH.
Qed.

Lemma easy_froms_ok l fs : forall fuel, (length fs <= fuel)%nat ->
  read_easy_froms l fuel (flat_map (fun f => [kw f; TP ":"; TP "<"; kw "_"; kw "as"] ++ crate_path l ("As" ++ trait_name l)
                               ++ [TP ">"; TP "::"; from_trait_method l; TG Paren [kw "value"; TP "."; kw f]; TP ","])%list fs) = Some (map (fun f => (f, f)) fs).
Proof.
  induction fs as [|f fs IH]; intros fuel Hf; [destruct fuel; reflexivity|]. cbn [length] in Hf. destruct fuel as [|fuel]; [lia|].
  specialize (IH fuel ltac:(lia)). cbn [flat_map map]. set (Z := flat_map _ fs) in *. clearbody Z.
  transitivity (do fs <- read_easy_froms l fuel Z; Some ((f, f) :: fs)); [destruct l; reflexivity|]. now rewrite IH.
Qed.

Lemma flat_map_length {A} (g : A -> list tok) fs : (forall f, g f <> []) -> (length fs <= length (flat_map g fs))%nat.
Proof.
  intros H. induction fs as [|f fs IH]; [apply le_n|]. cbn [flat_map length]. rewrite app_length. specialize (H f). destruct (g f); [congruence|]. cbn [length]. lia.
Qed.

Lemma easy_impl_ok l r rest : (forall b, ~ In (TG Brace b) (er_ty r)) ->
  read_easy_impl l (easy_impl_toks l r ++ rest)%list
    = Some (Conversions (er_ty r) (er_std r) (er_std r) (map (fun f => (f, f)) (er_fields r)) (map (fun f => (f, f)) (er_fields r)), rest).
Proof.
  intros H. destruct r as [n ty fs]. unfold easy_impl_toks. cbn [er_std er_ty er_fields] in *.
  set (i1 := (flat_map (fun f => [kw f; TP ":"; kw "self"; TP "."; kw f; TP "."; as_trait_method l; TG Paren []; TP ","]) fs
            ++ [TP ".."; kw "bytemuck"; TP "::"; kw "Zeroable"; TP "::"; kw "zeroed"; TG Paren []])%list).
  set (i2 := flat_map (fun f => [kw f; TP ":"; TP "<"; kw "_"; kw "as"] ++ crate_path l ("As" ++ trait_name l)
                               ++ [TP ">"; TP "::"; from_trait_method l; TG Paren [kw "value"; TP "."; kw f]; TP ","])%list fs).
  assert (E1 : read_easy_inits l (length i1) i1 = Some (map (fun f => (f, f)) fs)).
  { apply easy_inits_ok. unfold i1. rewrite app_length.
    pose proof (flat_map_length (fun f => [kw f; TP ":"; kw "self"; TP "."; kw f; TP "."; as_trait_method l; TG Paren []; TP ","]) fs ltac:(discriminate)). lia. }
  assert (E2 : read_easy_froms l (length i2) i2 = Some (map (fun f => (f, f)) fs)).
  { apply easy_froms_ok. apply flat_map_length. discriminate. }
  clearbody i1 i2. rewrite <- !app_assoc.
  match goal with |- context [TG Brace (?b)] => set (body := b) end.
  transitivity (do (ty, body, rest) <- to_brace (ty ++ TG Brace body :: rest)%list; do c <- read_easy_body l ty body; Some (c, rest)); [destruct l; reflexivity|].
  rewrite (to_brace_ok ty body rest H).
  assert (E : read_easy_body l ty body = (do is <- read_easy_inits l (length i1) i1; do fs <- read_easy_froms l (length i2) i2; Some (Conversions ty n n is fs)))
    by (unfold body; clear; destruct l; reflexivity).
  rewrite E, E1, E2. reflexivity.
Qed.

(** C95.  Whatever a row of [easy_impl!] is, its expansion, read as Rust, is the impls of [AsStd140], [AsStd430] and [Glsl] for the row's type:
    [Output] and what as_stdN builds are the row's layout type in the same module; every listed field, and no other, is converted to and
    from the field of the same name; the GLSL name is that of the row's layout type. *)
Lemma C95_code_proof : forall r, (forall b, ~ In (TG Brace b) (er_ty r)) ->
  let c := Conversions (er_ty r) (er_std r) (er_std r) (map (fun f => (f, f)) (er_fields r)) (map (fun f => (f, f)) (er_fields r)) in
  read_easy (easy_toks r) = Some (c, c, er_ty r, er_std r).
Proof.
  intros r H. cbv zeta. unfold read_easy, easy_toks. rewrite (easy_impl_ok L140 r _ H), (easy_impl_ok L430 r _ H).
  destruct r as [n ty fs]. cbn [er_std er_ty er_fields] in *.
  match goal with |- context [TG Brace (?b)] => set (body := b) end.
  match goal with |- ?lhs = _ => change lhs with
    (do (ty', b, rest) <- to_brace (ty ++ [TG Brace body])%list;
     do b <- eats ["const"; "NAME"; ":"; "&"; "'"; "static"; "str"; "="] b; do b <- eats (in_crate L140) b;
     match b, rest with
     | TId n' :: b, [] => match eats ["::"; "NAME"; ";"] b with
         Some [] => Some (Conversions ty n n (map (fun f => (f, f)) fs) (map (fun f => (f, f)) fs), Conversions ty n n (map (fun f => (f, f)) fs) (map (fun f => (f, f)) fs), ty', id_name n') | _ => None end
     | _, _ => None
     end) end.
  rewrite (to_brace_ok ty body [] H). unfold body. reflexivity.
Qed.

(** A row of the tables in Rows.v, as tokens: [Vec2 mint::Point2<f32> { x, y }] *)
Definition row_toks (lib : string) (r : Rows.easy_row) : easy_row :=
  EasyRow (Rows.er_std r) [kw lib; TP "::"; kw (Rows.er_ty r); TP "<"; kw (Rows.elem_name (Rows.er_elem r)); TP ">"] (Rows.er_fields r).

(** C95.  So for every row of a table of a math library, the host type from which the properties of that library's types start is the one
    of the impls that the row expands to: the same layout type, the same fields in both directions, and its GLSL name. *)
Lemma C95_hosts_proof : forall lib rows r h, Rows.row_hty lib rows r = Some h ->
  exists nm std fs c ty, h = HEasy nm std fs
    /\ read_easy (easy_toks (row_toks lib r)) = Some (c, c, ty, std)
    /\ c_ty c = ty /\ c_output c = std /\ c_built c = std
    /\ c_as c = map (fun f => (fst f, fst f)) fs /\ c_from c = map (fun f => (fst f, fst f)) fs
    /\ glsl_name h = std_glsl_name L140 std.
Proof.
  intros lib rows r h H.
  assert (E : exists nm t, h = HEasy nm (Rows.er_std r) (map (fun f => (f, t)) (Rows.er_fields r))).
  { unfold Rows.row_hty in H. destruct (Rows.column_ty (Rows.er_ty r)) as [col|].
    - destruct (Rows.find_row rows col (Rows.er_elem r)) as [c|]; [|discriminate]. injection H as <-. eexists _, _. reflexivity.
    - injection H as <-. unfold Rows.vec_row_hty. eexists _, _. reflexivity. }
  destruct E as [nm [t ->]]. pose proof (C95_code_proof (row_toks lib r)) as K. cbv zeta in K.
  eexists nm, (Rows.er_std r), _, _, _. split; [reflexivity|]. split.
  - apply K. intros b Hb. cbn in Hb. destruct Hb as [Q|[Q|[Q|[Q|[Q|[Q|[]]]]]]]; discriminate Q.
  - cbn [row_toks er_ty er_std er_fields c_ty c_output c_built c_as c_from]. split; [reflexivity|]. split; [reflexivity|]. split; [reflexivity|].
    rewrite map_map. split; [reflexivity|]. split; reflexivity.
Qed.

Lemma C95_ex_proof :
  let v := EasyRow "Vec2" [kw "cgmath"; TP "::"; kw "Point2"; TP "<"; kw "f32"; TP ">"] ["x"; "y"] in
  (forall b, ~ In (TG Brace b) (er_ty v))
  /\ option_map (fun c => c_as (fst (fst (fst c)))) (read_easy (easy_toks v)) = Some [("x", "x"); ("y", "y")]
  /\ option_map snd (read_easy (easy_toks v)) = Some "Vec2"
  /\ read_easy (tl (easy_toks v)) = None.
Proof.
  cbv zeta. split. { intros b H. cbn in H. destruct H as [H|[H|[H|[H|[H|[H|[]]]]]]]; discriminate H. }
  split; [vm_compute; reflexivity|]. split; vm_compute; reflexivity.
Qed.

(** the tables: every row has a host type *)
Lemma C95_ex_hosts_proof :
  length (filter (fun r => match Rows.row_hty "mint" Rows.mint_rows r with Some _ => true | None => false end) Rows.mint_rows) = 31%nat
  /\ forallb (fun r => match Rows.row_hty "cgmath" Rows.cgmath_rows r with Some _ => true | None => false end) Rows.cgmath_rows = true.
Proof. split; vm_compute; reflexivity. Qed.
