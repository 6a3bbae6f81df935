(** * The built-in layout types at the level of tokens (C94) *)

From Coq Require Import NArith String Bool List Lia ZArith PeanoNat.
From Coq Require Import ZifyBool ZifyN ZifyNat.
From Verif Require Import Rust Internal Prims Derive GlslGen Tokens SpecTokens PrimTokens SpecPrimTokens.
Import ListNotations.
Local Open Scope string_scope.

Local Notation "'do' X <- A ; B" := (match A with Some X => B | _ => None end) (at level 200, X pattern, A at level 100, B at level 200).

Definition written_of (m : mfield) : written := match m with MVec n => WName n | MPrim p => WPrim p | MArr p n => WArr p n end.
Definition mfield_ok (m : mfield) : Prop := match m with MVec n => known n = None | _ => True end.

Lemma known_prim p : known (prim_name p) = Some p.
Proof. now destruct p. Qed.

Lemma read_written_ok m r : mfield_ok m -> read_written (mfield_toks m ++ r)%list = Some (written_of m, r).
Proof.
  destruct m as [n|p|p n]; cbn [mfield_ok mfield_toks app read_written kw written_of]; intros H.
  - now rewrite H.
  - now rewrite known_prim.
  - now rewrite known_prim.
Qed.

Lemma pub_fields_ok (fs : list (string * mfield)) : Forall (fun f => mfield_ok (snd f)) fs -> forall fuel, (length fs <= fuel)%nat ->
  read_pub_fields fuel (flat_map (fun f => [kw "pub"; kw (fst f); TP ":"] ++ mfield_toks (snd f) ++ [TP ","])%list fs)
    = Some (map (fun f => (fst f, written_of (snd f))) fs).
Proof.
  induction 1 as [|[f m] fs H1 H IH]; intros fuel Hf; [destruct fuel; reflexivity|]. cbn [length fst snd] in *.
  destruct fuel as [|fuel]; [lia|]. specialize (IH fuel ltac:(lia)). cbn [flat_map map fst snd].
  set (Z := flat_map _ fs) in *. clearbody Z.
  transitivity (do (t, r) <- read_written (mfield_toks m ++ TP "," :: Z)%list; do r <- eat "," r; do fs <- read_pub_fields fuel r; Some ((f, t) :: fs)).
  - cbn [app]. rewrite <- app_assoc. reflexivity.
  - rewrite (read_written_ok m _ H1). change (eat "," (TP "," :: Z)) with (Some Z). cbn iota. now rewrite IH.
Qed.

Lemma pub_fields_length (fs : list (string * mfield)) :
  (length fs <= length (flat_map (fun f => [kw "pub"; kw (fst f); TP ":"] ++ mfield_toks (snd f) ++ [TP ","])%list fs))%nat.
Proof. induction fs as [|f fs IH]; [apply le_n|]. cbn [flat_map length]. rewrite !app_length. cbn [length]. lia. Qed.

Lemma eats_cons s ss r : eats (s :: ss) (TId (Ident false s) :: r)%list = eats ss r.
Proof. cbn [eats eat]. now rewrite String.eqb_refl. Qed.

Lemma eats_nil r : eats [] r = Some r.
Proof. reflexivity. Qed.

Lemma layout_type_ok l pe doc a g n fs b rest : read_pub_fields (length b) b = Some fs ->
  read_builtin l (layout_type_toks l pe doc a g n b ++ rest)%list = Some (Builtin n fs a g, rest).
Proof.
  intros H. unfold read_builtin.
  set (at1 := [[kw "doc"; TP "="; TStr doc]; [kw "allow"; TG Paren [kw "missing_docs"]];
     [kw "derive"; TG Paren ([kw "Debug"; TP ","; kw "Clone"; TP ","; kw "Copy"] ++ if pe then [TP ","; kw "PartialEq"] else [])%list];
     [kw "repr"; TG Paren [kw "C"]]]).
  set (body := ([kw "pub"; kw "struct"; kw n; TG Brace b;
     kw "unsafe"; kw "impl"; kw "Zeroable"; kw "for"; kw n; TG Brace [];
     kw "unsafe"; kw "impl"; kw "Pod"; kw "for"; kw n; TG Brace [];
     kw "unsafe"; kw "impl"; kw (trait_name l); kw "for"; kw n;
     TG Brace [kw "const"; kw "ALIGNMENT"; TP ":"; kw "usize"; TP "="; TInt a ""; TP ";"];
     kw "unsafe"; kw "impl"; kw "Glsl"; kw "for"; kw n;
     TG Brace [kw "const"; kw "NAME"; TP ":"; TP "&"; TP "'"; kw "static"; kw "str"; TP "="; kw "stringify"; TP "!"; TG Paren [kw g]; TP ";"]] ++ rest)%list).
  assert (E : read_attrs (layout_type_toks l pe doc a g n b ++ rest)%list = (at1, body)) by reflexivity.
  rewrite E.
  assert (C : (is_all ["C"] (attr_args "repr" at1) && has_arg "Clone" (attr_args "derive" at1) && has_arg "Copy" (attr_args "derive" at1))%bool = true)
    by (destruct pe; reflexivity).
  rewrite C. clear E C at1. unfold body, empty_impl. cbn [app]. unfold kw. rewrite !eats_cons, eats_nil, H.
  replace ("Std" ++ number l) with (trait_name l) by (destruct l; reflexivity).
  set (T := trait_name l). clearbody T.
  do 4 (rewrite !eats_cons, eats_nil). reflexivity.
Qed.

(** C94.  Whatever a row of [vectors!] is, its expansion, read as Rust, is a [repr(C)] struct with the row's name, fields of
    the row's primitive, the row's alignment and GLSL name. *)
Lemma C94_vector_proof : forall l doc r rest,
  read_builtin l (vector_toks l doc r ++ rest)%list
    = Some (Builtin (vr_name r) (map (fun f => (f, WPrim (vr_prim r))) (vr_fields r)) (vr_align r) (vr_glsl r), rest).
Proof.
  intros l doc r rest. unfold vector_toks. apply layout_type_ok. set (p := vr_prim r).
  assert (E : flat_map (fun f => [kw "pub"; kw f; TP ":"; kw (prim_name p); TP ","]) (vr_fields r)
     = flat_map (fun f => [kw "pub"; kw (fst f); TP ":"] ++ mfield_toks (snd f) ++ [TP ","])%list (map (fun f => (f, MPrim p)) (vr_fields r)))
    by (induction (vr_fields r) as [|f fs IH]; [reflexivity|]; cbn [flat_map map]; rewrite IH; reflexivity).
  rewrite E, (pub_fields_ok (map (fun f => (f, MPrim p)) (vr_fields r))).
  - rewrite map_map. reflexivity.
  - apply Forall_forall. intros x Hx. apply in_map_iff in Hx. destruct Hx as [f [<- _]]. exact I.
  - apply pub_fields_length.
Qed.

(** C94.  The same for [matrices!]; a vector is not named like a primitive. *)
Lemma C94_matrix_proof : forall l doc r rest, Forall (fun f => match snd f with MVec n => known n = None | _ => True end) (mr_fields r) ->
  read_builtin l (matrix_toks l doc r ++ rest)%list
    = Some (Builtin (mr_name r)
              (map (fun f => (fst f, match snd f with MVec n => WName n | MPrim p => WPrim p | MArr p n => WArr p n end)) (mr_fields r))
              (mr_align r) (mr_glsl r), rest).
Proof.
  intros l doc r rest H. unfold matrix_toks. apply layout_type_ok. apply (pub_fields_ok (mr_fields r) H). apply pub_fields_length.
Qed.

Lemma read_module_cons l ts b rest bs fuel : read_builtin l (ts ++ rest)%list = Some (b, rest) -> (ts <> []) ->
  read_module l fuel rest = Some bs -> read_module l (S fuel) (ts ++ rest)%list = Some (b :: bs).
Proof.
  intros E N Eb. cbn [read_module]. destruct (ts ++ rest)%list eqn:Q; [apply app_eq_nil in Q; destruct Q; contradiction|].
  now rewrite E, Eb.
Qed.

Definition builtin_of_vec (r : vec_row) : builtin := Builtin (vr_name r) (map (fun f => (f, WPrim (vr_prim r))) (vr_fields r)) (vr_align r) (vr_glsl r).
Definition builtin_of_mat (r : mat_row) : builtin :=
  Builtin (mr_name r) (map (fun f => (fst f, match snd f with MVec n => WName n | MPrim p => WPrim p | MArr p n => WArr p n end)) (mr_fields r)) (mr_align r) (mr_glsl r).

Lemma module_ok l doc vs ms : Forall (fun r => Forall (fun f => match snd f with MVec n => known n = None | _ => True end) (mr_fields r)) ms ->
  forall fuel, (length vs + length ms <= fuel)%nat ->
  read_module l fuel (module_toks l doc vs ms) = Some (map builtin_of_vec vs ++ map builtin_of_mat ms)%list.
Proof.
  intros H. unfold module_toks. induction vs as [|v vs IH]; intros fuel Hf.
  - cbn [flat_map map app length] in *. revert fuel Hf. induction H as [|m ms H1 H IH]; intros fuel Hf; [destruct fuel; reflexivity|].
    cbn [length] in Hf. destruct fuel as [|fuel]; [lia|]. cbn [flat_map map]. apply read_module_cons.
    + now apply C94_matrix_proof.
    + discriminate.
    + apply IH. lia.
  - cbn [length] in Hf. destruct fuel as [|fuel]; [lia|]. cbn [flat_map map app]. rewrite <- app_assoc. apply read_module_cons.
    + apply C94_vector_proof.
    + discriminate.
    + apply IH. lia.
Qed.

Lemma module_length l doc vs ms : (length vs + length ms <= length (module_toks l doc vs ms))%nat.
Proof.
  unfold module_toks. rewrite app_length.
  assert (A : (length vs <= length (flat_map (fun r => vector_toks l (doc (vr_name r)) r) vs))%nat)
    by (induction vs as [|v vs IH]; [apply le_n|]; cbn [flat_map length]; rewrite app_length; change (length (vector_toks l (doc (vr_name v)) v)) with (S (length (tl (vector_toks l (doc (vr_name v)) v)))); lia).
  assert (B : (length ms <= length (flat_map (fun r => matrix_toks l (doc (mr_name r)) r) ms))%nat)
    by (induction ms as [|v ms IH]; [apply le_n|]; cbn [flat_map length]; rewrite app_length; change (length (matrix_toks l (doc (mr_name v)) v)) with (S (length (tl (matrix_toks l (doc (mr_name v)) v)))); lia).
  lia.
Qed.

(** C94.  So what both invocations add to the module, read as Rust, is a list of types in which every name means the type, with
    its fields and alignment, and the GLSL name, from which all other properties start; other names mean nothing. *)
Lemma C94_module_proof : forall l doc, exists bs,
  let ts := module_toks l doc (vectors l) (matrices l) in
  read_module l (length ts) ts = Some bs /\ length bs = 21%nat
  /\ forall n, builtin_type l bs 2 n = find_std l n /\ builtin_glsl bs n = std_glsl_name l n.
Proof.
  intros l doc. exists (map builtin_of_vec (vectors l) ++ map builtin_of_mat (matrices l))%list. cbv zeta.
  split; [|split].
  - apply module_ok; [|apply module_length]. destruct l; repeat (constructor; [repeat (constructor; [try exact I; reflexivity|]); constructor|]); constructor.
  - destruct l; reflexivity.
  - intros n. unfold find_std, std_glsl_name, builtin_glsl. destruct l; cbn [builtin_type vectors matrices vectors140 vectors430 matrices140 matrices430 map app find builtin_of_vec builtin_of_mat b_name vr_name mr_name];
      repeat match goal with |- context [String.eqb n ?x] => destruct (String.eqb n x); [split; reflexivity|] end; (split; reflexivity).
Qed.

Lemma C94_ex_proof :
  (exists r, nth_error (matrices L140) 0 = Some r /\ Forall (fun f => match snd f with MVec n => known n = None | _ => True end) (mr_fields r))
  /\ option_map fst (read_builtin L140 (matrix_toks L140 "d" (MatRow 16 "mat2" "Mat2" [("x", MVec "Vec2"); ("_pad_x", MArr PF32 2)])))
     = Some (Builtin "Mat2" [("x", WName "Vec2"); ("_pad_x", WArr PF32 2)] 16 "mat2")
  (* the expansion for the other layout is not accepted *)
  /\ read_builtin L430 (matrix_toks L140 "d" (MatRow 16 "mat2" "Mat2" [("x", MVec "Vec2")])) = None
  /\ find_std L140 "Vec5" = None.
Proof.
  split. { eexists. split; [reflexivity|]. repeat (constructor; [try exact I; reflexivity|]). constructor. }
  split; [vm_compute; reflexivity|]. split; vm_compute; reflexivity.
Qed.
