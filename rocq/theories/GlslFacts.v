(** * Relation with the GLSL layout rules *)

From Coq Require Import NArith String Bool List Lia ZArith.
From Coq Require Import ZifyBool ZifyN ZifyNat.
From Coq Require Import Strings.Byte.
From Verif Require Import Rust Internal Prims Derive Host SpecGlsl SpecHost Arith RustFacts DeriveFacts TypeFacts HostFacts.
Import ListNotations.
Local Open Scope string_scope.
Local Open Scope N_scope.

(** ** read_at *)

Lemma read_at_iff buf off n c :
  read_at buf off n = Some c <-> exists A B, buf = (A ++ c ++ B)%list /\ len A = off /\ len c = n.
Proof.
  unfold read_at. split.
  - destruct (N.leb_spec (off + n) (len buf)) as [H|H]; [|discriminate]. intros E. injection E as <-.
    exists (firstn (N.to_nat off) buf), (skipn (N.to_nat n) (skipn (N.to_nat off) buf)).
    rewrite firstn_skipn, firstn_skipn. split; [reflexivity|]. split.
    + apply len_firstn. lia.
    + apply len_firstn. rewrite len_skipn. lia.
  - intros [A [B [-> [<- <-]]]]. rewrite !len_app.
    destruct (N.leb_spec (len A + len c) (len A + (len c + len B))); [|lia].
    rewrite skipn_app_len, firstn_app_len by reflexivity. reflexivity.
Qed.

Lemma read_at_all bs : read_at bs 0 (len bs) = Some bs.
Proof. apply read_at_iff. exists [], []. now rewrite app_nil_r. Qed.

Lemma read_at_len buf off n c : read_at buf off n = Some c -> len c = n.
Proof. intros H. apply read_at_iff in H. destruct H as [A [B [_ [_ H]]]]. exact H. Qed.

Lemma read_at_split buf off n a b : read_at buf off n = Some (a ++ b)%list ->
  read_at buf off (len a) = Some a /\ read_at buf (off + len a) (len b) = Some b.
Proof.
  intros H. apply read_at_iff in H. destruct H as [A [B [-> [HA Hc]]]]. split; apply read_at_iff.
  - exists A, (b ++ B)%list. rewrite <- app_assoc. auto.
  - exists (A ++ a)%list, B. rewrite len_app, <- !app_assoc. subst off. auto.
Qed.

Lemma read_at_read_at buf off n c o m d : read_at buf off n = Some c -> read_at c o m = Some d ->
  read_at buf (off + o) m = Some d.
Proof.
  intros H1 H2. apply read_at_iff in H1, H2. destruct H1 as [A [B [-> [HA Hc]]]].
  destruct H2 as [A' [B' [-> [HA' Hd]]]]. apply read_at_iff.
  exists (A ++ A')%list, (B' ++ B)%list. rewrite len_app, <- !app_assoc. subst. auto.
Qed.

(** ** positions of fields in a packed struct *)

Fixpoint field_pos (tg : target) (cur : N) (fs : list (string * sty)) (f : string) : option N :=
  match fs with
  | [] => None
  | (g, t) :: r => if String.eqb f g then Some cur else field_pos tg (cur + size_of tg t) r f
  end.

Definition all_nopad (tg : target) (fs : list (string * sty)) : Prop :=
  Forall (fun f => nopad tg (snd f) = true) fs.

Lemma nopad_fields_all tg al fs : forall cur, nopad_fields tg al cur fs = true -> all_nopad tg fs.
Proof.
  induction fs as [|[f t] fs IH]; intros cur H; [constructor|].
  cbn [nopad_fields] in H. rewrite !andb_true_iff in H. destruct H as [[_ H2] H3].
  constructor; [exact H2|eapply IH; exact H3].
Qed.

Lemma nopad_all tg l n al fs : nopad tg (TStruct l n al fs) = true -> all_nopad tg fs.
Proof. rewrite nopad_struct. apply nopad_fields_all. Qed.

Lemma len_flat_fields tg fs : forall ss, all_nopad tg fs -> fields_ok fs ss = true ->
  len (flat_fields tg fs ss) = sizes tg fs.
Proof.
  induction fs as [|[f t] fs IH]; intros [|[g s] ss] Hn Hok; try discriminate Hok; [reflexivity|].
  cbn [fields_ok] in Hok. rewrite !andb_true_iff in Hok. destruct Hok as [[_ H2] H3].
  inversion Hn; subst. cbn [flat_fields sizes]. rewrite len_app, len_flat, IH by assumption. reflexivity.
Qed.

Lemma field_at tg decl : forall ss cur f o,
  field_pos tg cur decl f = Some o -> all_nopad tg decl -> fields_ok decl ss = true ->
  exists ft s, assoc f decl = Some ft /\ assoc f ss = Some s /\ has_sty ft s = true
  /\ cur <= o /\ o + size_of tg ft <= cur + sizes tg decl
  /\ forall buf base, read_at buf (base + cur) (sizes tg decl) = Some (flat_fields tg decl ss) ->
       read_at buf (base + o) (size_of tg ft) = Some (flat tg ft s).
Proof.
  induction decl as [|[g t] decl IH]; intros [|[g' s] ss] cur f o Hp Hn Hok; try discriminate Hok; [discriminate Hp|].
  cbn [fields_ok] in Hok. rewrite !andb_true_iff in Hok. destruct Hok as [[H1 H2] H3].
  apply String.eqb_eq in H1. subst g'. inversion Hn as [|? ? Hn1 Hn2]; subst. cbn [snd] in Hn1.
  cbn [field_pos] in Hp. rewrite !assoc_cons.
  assert (L : len (flat tg t s) = size_of tg t) by (now apply len_flat).
  destruct (String.eqb f g) eqn:E.
  - injection Hp as <-. exists t, s. cbn [sizes flat_fields].
    repeat (split; [reflexivity || assumption || lia|]).
    intros buf base H. apply read_at_split in H. destruct H as [H _]. rewrite L in H. exact H.
  - destruct (IH ss (cur + size_of tg t) f o Hp Hn2 H3) as [ft [s' [A1 [A2 [A3 [A4 [A5 A6]]]]]]].
    exists ft, s'. cbn [sizes flat_fields]. repeat (split; [assumption || lia|]).
    intros buf base H. apply A6. apply read_at_split in H. destruct H as [_ H].
    rewrite L, (len_flat_fields tg decl ss) in H by assumption.
    now rewrite N.add_assoc.
Qed.

Lemma field_pos_offsets tg al fs f : forall cur, nopad_fields tg al cur fs = true ->
  assoc f (combine (map fst fs) (repr_c_offsets cur (map (fun nf => layout_of tg (snd nf)) fs)))
  = field_pos tg cur fs f.
Proof.
  induction fs as [|[g t] fs IH]; intros cur H; [reflexivity|].
  cbn [nopad_fields] in H. rewrite !andb_true_iff in H. destruct H as [[H1 H2] H3].
  apply N.eqb_eq in H1.
  cbn [map fst snd repr_c_offsets]. rewrite layout_of_eq, H1, N.add_0_r.
  cbn [combine field_pos]. rewrite assoc_cons. destruct (String.eqb f g); [reflexivity|].
  now apply IH.
Qed.

Lemma field_offsets_pos tg l n al fs f : nopad tg (TStruct l n al fs) = true ->
  assoc f (field_offsets tg (TStruct l n al fs)) = field_pos tg 0 fs f.
Proof. rewrite nopad_struct. intros H. cbn [field_offsets]. eapply field_pos_offsets. exact H. Qed.

(** ** component structure of vectors and matrices *)

Definition cgty (g : gty) : gty :=
  match g with
  | GVec s _ => GScalar s
  | GMat s _ r => GVec s r
  | _ => g
  end.

Definition cstride (l : lay) (g : gty) : N :=
  match g with
  | GVec s _ => scalar_size s
  | GMat s _ r => col_stride l s r
  | _ => 0
  end.

Definition is_vecmat (g : gty) : bool := match g with GVec _ _ | GMat _ _ _ => true | _ => false end.

Definition gwrap (g : gty) (xs : list gval) : gval :=
  match g with GVec _ _ => GVVec xs | _ => GVMat xs end.

Lemma gscalar_eqb_eq a b : gscalar_eqb a b = true -> a = b.
Proof. destruct a, b; cbn; congruence. Qed.

Lemma is_comp_eq g c : is_comp g c = true -> c = cgty g /\ is_vecmat g = true.
Proof.
  destruct g as [| s n | s co r | |]; destruct c; try discriminate; cbn [is_comp cgty].
  - intros H. apply gscalar_eqb_eq in H. subst. auto.
  - rewrite andb_true_iff. intros [H1 H2]. apply gscalar_eqb_eq in H1. apply Nat.eqb_eq in H2.
    subst. auto.
Qed.

Lemma gread_comps tg l g buf off : is_vecmat g = true ->
  gread tg l g buf off =
  match gread_strided (gread tg l (cgty g) buf) off (cstride l g) (ncomps g) with
  | Some vs => Some (gwrap g vs) | None => None end.
Proof. destruct g; try discriminate; reflexivity. Qed.

Lemma gcovers_comps l g i : is_vecmat g = true ->
  gcovers l g i = strided_covers (gcovers l (cgty g)) (cstride l g) (ncomps g) i.
Proof. destruct g; try discriminate; reflexivity. Qed.

Lemma gread_strided_spec rd stride : forall xs off,
  (forall k x, nth_error xs k = Some x -> rd (off + N.of_nat k * stride) = Some x) ->
  gread_strided rd off stride (length xs) = Some xs.
Proof.
  induction xs as [|x xs IH]; intros off H; [reflexivity|]. cbn [length gread_strided].
  pose proof (H 0%nat x eq_refl) as H0. replace (off + N.of_nat 0 * stride) with off in H0 by lia.
  rewrite H0, IH; [reflexivity|].
  intros k y Hk. replace (off + stride + N.of_nat k * stride) with (off + N.of_nat (S k) * stride) by lia.
  now apply H.
Qed.

(** the table types have the shape their GLSL counterpart prescribes *)
Definition table_shape_b (tg : target) (l : lay) (e : string * gty) : bool :=
  let g := snd e in
  match find_std l (fst e) with
  | Some (TStruct ln n al decl) =>
    lay_eqb ln l
    && (al =? base_align l g) && (size_of tg (TStruct ln n al decl) =? gsize l g)
    && is_vecmat g && (Nat.leb (ncomps g) 4)
    && existsb (N.eqb (base_align l g)) [1;2;4;8;16;32;64;128;256]
    && forallb (fun kc => match field_pos tg 0 decl (snd kc) with
                          | Some o => o =? N.of_nat (fst kc) * cstride l g
                          | None => false end)
               (combine (seq 0 (ncomps g)) (firstn (ncomps g) comp_names))
  | _ => false
  end.

Lemma table_shape_all tg l : target_ok tg = true -> forallb (table_shape_b tg l) std_names = true.
Proof.
  intros Htg. all_targets tg Htg; destruct l; vm_compute; reflexivity.
Qed.

Lemma table_shape tg l name g t : target_ok tg = true ->
  assoc name std_names = Some g -> find_std l name = Some t ->
  exists n al decl, t = TStruct l n al decl /\ al = base_align l g /\ size_of tg t = gsize l g
  /\ is_vecmat g = true /\ (ncomps g <= 4)%nat /\ pow2 (base_align l g)
  /\ forall k c, nth_error (firstn (ncomps g) comp_names) k = Some c ->
       field_pos tg 0 decl c = Some (N.of_nat k * cstride l g).
Proof.
  intros Htg Ha Hf. pose proof (table_shape_all tg l Htg) as Hall.
  rewrite forallb_forall in Hall. specialize (Hall _ (assoc_in _ _ _ Ha)).
  unfold table_shape_b in Hall. cbn [fst snd] in Hall. rewrite Hf in Hall.
  destruct t as [| |ln n al decl|]; try discriminate.
  rewrite !andb_true_iff in Hall. destruct Hall as [[[[[[H1 H2] H3] H4] H5] H6] H7].
  apply lay_eqb_eq in H1. apply N.eqb_eq in H2, H3. apply Nat.leb_le in H5. apply pow2_dec_small in H6. subst ln.
  exists n, al, decl. repeat (split; [reflexivity || assumption|]).
  intros k c Hk. rewrite forallb_forall in H7.
  specialize (H7 (k, c)). cbn [fst snd] in H7.
  destruct (field_pos tg 0 decl c) as [o|].
  - apply N.eqb_eq in H7; [now subst|].
    clear -Hk H5. set (n := ncomps g) in *. assert (Hl : length (firstn n comp_names) = n).
    { rewrite firstn_length. cbn [comp_names length]. lia. }
    assert (G : forall (xs : list string) j k, nth_error xs k = Some c -> In ((j + k)%nat, c) (combine (seq j (length xs)) xs)).
    { induction xs as [|x xs IH]; intros j [|k'] H; cbn in H; try discriminate.
      - injection H as ->. cbn [length seq combine]. left. f_equal. lia.
      - cbn [length seq combine]. right. replace (j + S k')%nat with (S j + k')%nat by lia. now apply IH. }
    specialize (G _ 0%nat _ Hk). rewrite Hl in G. exact G.
  - exfalso. cut (false = true); [discriminate|]. apply H7.
    clear -Hk H5. set (n := ncomps g) in *. assert (Hl : length (firstn n comp_names) = n).
    { rewrite firstn_length. cbn [comp_names length]. lia. }
    assert (G : forall (xs : list string) j k, nth_error xs k = Some c -> In ((j + k)%nat, c) (combine (seq j (length xs)) xs)).
    { induction xs as [|x xs IH]; intros j [|k'] H; cbn in H; try discriminate.
      - injection H as ->. cbn [length seq combine]. left. f_equal. lia.
      - cbn [length seq combine]. right. replace (j + S k')%nat with (S j + k')%nat by lia. now apply IH. }
    specialize (G _ 0%nat _ Hk). rewrite Hl in G. exact G.
Qed.

(** ** GLSL types of field lists *)

Definition gfields_of (fs : list (string * hty)) : option (list (string * gty)) :=
  map_opt (fun nf => match gty_of (snd nf) with
                     | Some g => Some (fst nf, g) | None => None end) fs.

Lemma gfields_Forall2 fs gs :
  gfields_of fs = Some gs <->
  Forall2 (fun nf ng => fst nf = fst ng /\ gty_of (snd nf) = Some (snd ng)) fs gs.
Proof.
  unfold gfields_of. rewrite map_opt_Forall2. split; intros H.
  - induction H as [|[f h] [g t] fs outs E _ IH]; constructor; [|assumption].
    cbn [fst snd] in *. destruct (gty_of h) as [u|]; [|discriminate]. injection E as -> ->.
    split; reflexivity.
  - induction H as [|[f h] [g t] fs outs [E1 E2] _ IH]; constructor; [|assumption].
    cbn [fst snd] in *. rewrite E2, E1. reflexivity.
Qed.

Lemma gty_of_HStruct name fs g : gty_of (HStruct name fs) = Some g ->
  exists gs, fs <> [] /\ gfields_of fs = Some gs /\ g = GStruct name gs.
Proof.
  cbn [gty_of]. destruct fs as [|f fs]; [discriminate|]. fold (gfields_of (f :: fs)).
  destruct (gfields_of (f :: fs)) as [gs|]; [|discriminate]. intros H. injection H as <-.
  exists gs. split; [discriminate|auto].
Qed.

Lemma gty_of_HEasy r std fs g : gty_of (HEasy r std fs) = Some g ->
  exists gs, assoc std std_names = Some g /\ gfields_of fs = Some gs
  /\ (forall c, In c (firstn (ncomps g) comp_names) -> exists gc, assoc c gs = Some gc /\ is_comp g gc = true)
  /\ (forall f, In f (map fst fs) -> In f (firstn (ncomps g) comp_names)).
Proof.
  cbn [gty_of]. fold (gfields_of fs). destruct (assoc std std_names) as [g0|]; [|discriminate].
  destruct (gfields_of fs) as [gs|]; [|discriminate].
  destruct (_ && _) eqn:E; [|discriminate]. intros H. injection H as ->.
  apply andb_true_iff in E. destruct E as [E1 E2]. rewrite forallb_forall in E1, E2.
  exists gs. split; [reflexivity|]. split; [reflexivity|]. split.
  - intros c Hc. specialize (E1 c Hc). destruct (assoc c gs) as [gc|]; [|discriminate]. eauto.
  - intros f Hf. apply in_map_iff in Hf. destruct Hf as [[f' h] [<- Hf]].
    specialize (E2 _ Hf). now apply existsb_eqb_in in E2.
Qed.

(** ** Sizes and alignments *)

Definition sz_al (tg : target) (l : lay) (outs : list (string * sty)) (gs : list (string * gty)) : Prop :=
  Forall2 (fun o g => fst o = fst g /\ alN l (snd o) = base_align l (snd g)
                      /\ size_of tg (snd o) = gsize l (snd g) /\ pow2 (base_align l (snd g))) outs gs.

Lemma struct_al_glsl tg l outs gs name : outs <> [] -> sz_al tg l outs gs ->
  struct_al l outs = base_align l (GStruct name gs) /\ pow2 (base_align l (GStruct name gs)).
Proof.
  intros Hne H. cbn [base_align]. unfold struct_al.
  set (M := fold_right N.max 0 (map (fun nf => base_align l (snd nf)) gs)).
  assert (E : fold_right N.max 0 (map (fun f => alN l (snd f)) outs) = M).
  { unfold M. clear Hne M. induction H as [|o g outs gs [_ [E _]] _ IH]; [reflexivity|].
    cbn [map fold_right]. now rewrite E, IH. }
  assert (P : pow2 M).
  { assert (P0 : pow2_0 M).
    { apply fold_max_pow2. clear -H. induction H as [|o g outs gs [_ [_ [_ P]]] _ IH]; cbn [map]; constructor; [now right|assumption]. }
    destruct P0 as [E0|P0]; [|exact P0]. exfalso.
    destruct H as [|o g outs gs [_ [_ [_ P]]] _]; [congruence|]. apply pow2_pos in P.
    unfold M in E0. cbn [map fold_right] in E0. lia. }
  cbn [fold_right]. rewrite E. destruct l; cbn [min_struct_alignment vec4_round].
  - rewrite round_up_pow2_16 by exact P. split; [reflexivity|]. apply pow2_max; [exists 4; reflexivity|exact P].
  - split; [lia|exact P].
Qed.

Definition gms (l : lay) (gs : list (string * gty)) : list (N * N) := gmembers l gs.

Lemma gen_size_glsl tg l fin outs gs : 0 < fin -> sz_al tg l outs gs -> forall idx cur,
  head_aligned l fin cur outs ->
  cur + sizes tg (gen_fields tg l fin idx cur outs) = round_up (members_end cur (gmembers l gs)) fin.
Proof.
  intros Hf H. induction H as [|[f t] [f' g] outs gs [E1 [E2 [E3 P]]] H IH]; intros idx cur Hh.
  - cbn [gen_fields sizes gmembers map members_end]. rewrite N.add_0_r. symmetry.
    apply round_up_aligned; [assumption|]. destruct Hh as [Hh|Hh]; [lia|exact Hh].
  - cbn [fst snd] in *. cbn [gen_fields sizes gmembers map members_end snd].
    rewrite size_pad.
    pose proof (pow2_pos _ P) as Hp.
    assert (Hr : round_up cur (base_align l g) = cur).
    { apply round_up_aligned; [assumption|]. cbn [head_aligned] in Hh. rewrite E2 in Hh. destruct Hh as [Hh|Hh]; [lia|exact Hh]. }
    rewrite Hr, <- E3.
    set (e := cur + size_of tg t) in *.
    set (p := align_offset e match outs with [] => fin | (_, u) :: _ => alN l u end).
    pose proof (head_aligned_next l fin e outs) as Hh'. fold p in Hh'.
    specialize (IH (S idx) (e + p) Hh').
    fold (gmembers l gs).
    replace (cur + (size_of tg t + (p + sizes tg (gen_fields tg l fin (S idx) (e + p) outs))))
      with (e + p + sizes tg (gen_fields tg l fin (S idx) (e + p) outs)) by (unfold e; lia).
    rewrite IH.
    destruct H as [|[f2 t2] [f2' g2] outs gs [F1 [F2 [F3 F4]]] H].
    + cbn [gmembers map members_end]. unfold p. rewrite <- round_up_align_offset by assumption.
      apply round_up_aligned; [assumption|]. now apply round_up_divide.
    + cbn [fst snd] in *. cbn [gmembers map members_end snd]. do 2 f_equal. f_equal.
      pose proof (pow2_pos _ F4). unfold p. rewrite F2. rewrite <- round_up_align_offset by assumption.
      apply round_up_aligned; [assumption|]. now apply round_up_divide.
Qed.

Theorem size_align_glsl tg : target_ok tg = true -> forall h l t g,
  out_ty tg l h = Some t -> gty_of h = Some g ->
  alN l t = base_align l g /\ size_of tg t = gsize l g /\ pow2 (base_align l g).
Proof.
  intros Htg. induction h as [p| |r s fs IH|r m IH|h IH|n fs IH|l' h IH] using hty_ind'; intros l t g Ho Hg.
  - cbn [out_ty gty_of] in *. destruct (std_align l (TPrim p)) eqn:E; [|discriminate]. injection Ho as <-.
    destruct l, p; cbn in Hg; try discriminate; injection Hg as <-; cbn;
      (split; [reflexivity|split; [reflexivity|]]); (exists 2; reflexivity) || (exists 3; reflexivity).
  - cbn [out_ty gty_of] in *. injection Ho as <-. injection Hg as <-. destruct l; cbn;
      (split; [reflexivity|split; [reflexivity|]]); exists 2; reflexivity.
  - destruct (easy_facts _ _ _ _ _ _ Ho) as [outs [ln [n [al [decl [E1 [E2 [-> _]]]]]]]].
    destruct (gty_of_HEasy _ _ _ _ Hg) as [gs [G1 _]].
    destruct (table_shape tg l s g _ Htg G1 E1) as [n' [al' [decl' [T1 [T2 [T3 [T4 [_ [T5 _]]]]]]]]].
    injection T1 as -> <- <- <-. split; [|split; assumption].
    unfold alN. cbn [std_align]. now rewrite lay_eqb_refl.
  - cbn [out_ty gty_of] in *. eauto.
  - discriminate.
  - destruct (struct_facts _ _ _ _ _ Htg Ho) as [outs [E [_ [_ [_ [HG ->]]]]]].
    destruct (gty_of_HStruct _ _ _ Hg) as [gs [Hne [Hgs ->]]].
    assert (Hsz : sz_al tg l outs gs).
    { apply out_fields_Forall2 in E. apply gfields_Forall2 in Hgs. clear -IH E Hgs.
      revert gs Hgs IH. induction E as [|[f h] [f' t] fs outs [E1 E2] _ IHE]; intros gs Hgs IH.
      - inversion Hgs; subst. constructor.
      - inversion Hgs as [|? [f'' g] ? gs' [G1 G2] Hgs']; subst. cbn [fst snd] in *.
        inversion IH as [|? ? IH1 IH2]; subst. cbn [snd] in IH1.
        constructor; [|now apply IHE]. cbn [fst snd].
        destruct (IH1 l t g E2 G2) as [A1 [A2 A3]]. split; [congruence|auto]. }
    assert (Hne' : outs <> []).
    { intros ->. apply out_fields_Forall2 in E. inversion E; subst. congruence. }
    destruct (struct_al_glsl tg l outs gs n Hne' Hsz) as [A1 A2].
    destruct (derived_props tg l n outs HG) as [G [S1 S2]].
    split; [|split; [|exact A2]].
    + unfold alN, derived. cbn [std_align]. rewrite lay_eqb_refl. exact A1.
    + rewrite S1. unfold derived_fields.
      pose proof (pow2_pos _ A2) as Hp. rewrite <- A1 in Hp.
      pose proof (gen_size_glsl tg l (struct_al l outs) outs gs Hp Hsz 0 0 (head_aligned_0 _ _ _)) as E3.
      rewrite N.add_0_l in E3. rewrite E3. cbn [gsize]. rewrite A1. reflexivity.
  - destruct (out_ty_HOut _ _ _ _ _ Ho) as [E _]. cbn [gty_of] in Hg. eauto.
Qed.

(** ** Member offsets *)

Lemma gen_pos_glsl tg l fin outs gs : sz_al tg l outs gs -> forall idx cur,
  head_aligned l fin cur outs -> NoDup (map fst (gen_fields tg l fin idx cur outs)) ->
  Forall2 (fun g o => field_pos tg cur (gen_fields tg l fin idx cur outs) (fst g) = Some o)
          gs (member_offsets cur (gmembers l gs)).
Proof.
  intros H. induction H as [|[f t] [f' g] outs gs [E1 [E2 [E3 P]]] H IH]; intros idx cur Hh Hnd.
  - constructor.
  - cbn [fst snd] in *. subst f'. cbn [gmembers map member_offsets snd]. fold (gmembers l gs).
    pose proof (pow2_pos _ P) as Hp.
    assert (Hr : round_up cur (base_align l g) = cur).
    { apply round_up_aligned; [assumption|]. cbn [head_aligned] in Hh. rewrite E2 in Hh. destruct Hh as [Hh|Hh]; [lia|exact Hh]. }
    rewrite Hr, <- E3. cbn [gen_fields] in *.
    set (e := cur + size_of tg t) in *.
    set (p := align_offset e match outs with [] => fin | (_, u) :: _ => alN l u end) in *.
    pose proof (head_aligned_next l fin e outs) as Hh'. fold p in Hh'.
    cbn [map fst] in Hnd. inversion Hnd as [|? ? N1 N2]; subst. inversion N2 as [|? ? N3 N4]; subst.
    specialize (IH (S idx) (e + p) Hh' N4).
    constructor.
    + cbn [field_pos fst]. now rewrite String.eqb_refl.
    + assert (Hmo : member_offsets e (gmembers l gs) = member_offsets (e + p) (gmembers l gs)).
      { destruct H as [|[f2 t2] [f2' g2] outs gs [F1 [F2 [F3 F4]]] H]; [reflexivity|].
        cbn [fst snd] in *. cbn [gmembers map member_offsets snd].
        pose proof (pow2_pos _ F4).
        assert (Hrr : round_up e (base_align l g2) = round_up (e + p) (base_align l g2)).
        { unfold p. rewrite F2. rewrite <- round_up_align_offset by assumption. symmetry.
          apply round_up_aligned; [assumption|]. now apply round_up_divide. }
        now rewrite Hrr. }
      rewrite Hmo.
      assert (Hnames : forall g', In g' gs -> In (fst g') (map fst (gen_fields tg l fin (S idx) (e + p) outs))).
      { intros g' Hin. assert (Hn : map fst gs = map fst outs).
        { clear -H. induction H as [|? ? ? ? [E _] _ IH]; [reflexivity|]. cbn [map]. now rewrite E, IH. }
        assert (Hin2 : In (fst g') (map fst outs)) by (rewrite <- Hn; now apply in_map).
        apply in_map_iff in Hin2. destruct Hin2 as [[f2 t2] [Ef Hin2]].
        apply in_map_iff. exists (f2, t2). split; [exact Ef|]. now apply gen_fields_sub. }
      revert Hnames IH. generalize (member_offsets (e + p) (gmembers l gs)) as os. clear Hmo H.
      induction gs as [|g' gs IHg]; intros os Hnames IH; inversion IH as [|? o ? os' I1 I2]; subst; constructor.
      * cbn [field_pos]. rewrite size_pad.
        destruct (String.eqb_spec (fst g') f) as [E|Hne].
        { exfalso. apply N1. right. rewrite <- E. apply Hnames. now left. }
        destruct (String.eqb_spec (fst g') (pad_field_name idx)) as [E|Hne2].
        { exfalso. apply N3. rewrite <- E. apply Hnames. now left. }
        exact I1.
      * apply IHg; [|assumption]. intros g2 Hg2. apply Hnames. now right.
Qed.

(** members of a derived struct *)
Lemma struct_members tg l name fs t g : target_ok tg = true ->
  out_ty tg l (HStruct name fs) = Some t -> gty_of (HStruct name fs) = Some g ->
  exists outs gs, out_fields tg l fs = Some outs /\ gfields_of fs = Some gs /\ g = GStruct name gs
  /\ t = derived tg l name outs
  /\ NoDup (map fst fs)
  /\ NoDup (map fst (derived_fields tg l outs))
  /\ (forall f u, In (f, u) outs -> assoc f (derived_fields tg l outs) = Some u)
  /\ Forall (fun f => good tg l (snd f)) outs
  /\ sz_al tg l outs gs
  /\ Forall2 (fun g o => field_pos tg 0 (derived_fields tg l outs) (fst g) = Some o) gs (goffsets l gs).
Proof.
  intros Htg Ho Hg.
  destruct (struct_facts _ _ _ _ _ Htg Ho) as [outs [E [Hn [Hnd [Hd [HG ->]]]]]].
  destruct (gty_of_HStruct _ _ _ Hg) as [gs [Hne [Hgs ->]]].
  assert (Hsz : sz_al tg l outs gs).
  { apply out_fields_Forall2 in E. apply gfields_Forall2 in Hgs. clear -E Hgs Htg.
    revert gs Hgs. induction E as [|[f h] [f' t] fs outs [E1 E2] _ IHE]; intros gs Hgs.
    - inversion Hgs; subst. constructor.
    - inversion Hgs as [|? [f'' g] ? gs' [G1 G2] Hgs']; subst. cbn [fst snd] in *.
      constructor; [|now apply IHE]. cbn [fst snd].
      destruct (size_align_glsl tg Htg h l t g E2 G2) as [A1 [A2 A3]]. split; [congruence|auto]. }
  exists outs, gs. repeat (split; [assumption || reflexivity|]).
  apply gen_pos_glsl; [assumption|apply head_aligned_0|assumption].
Qed.

(** ** Shaders read what was written *)

Fixpoint gread_fields (tg : target) (l : lay) (buf : list byte) (off cur : N) (fs : list (string * gty))
  : option (list (string * gval)) :=
  match fs with
  | [] => Some []
  | (f, ft) :: fs' =>
    let o := round_up cur (base_align l ft) in
    match gread tg l ft buf (off + o), gread_fields tg l buf off (o + gsize l ft) fs' with
    | Some v, Some vs => Some ((f, v) :: vs)
    | _, _ => None
    end
  end.

Lemma gread_struct tg l n gs buf off :
  gread tg l (GStruct n gs) buf off
  = match gread_fields tg l buf off 0 gs with Some vs => Some (GVStruct vs) | None => None end.
Proof.
  cbn [gread].
  match goal with |- match ?a with _ => _ end = match ?b with _ => _ end => assert (E : a = b); [|now rewrite E] end.
  generalize 0 as cur. induction gs as [|[f g] gs IH]; intros cur; [reflexivity|].
  cbn [gread_fields]. rewrite <- IH. reflexivity.
Qed.

Lemma gread_fields_spec tg l buf off gs : forall cur xs,
  Forall2 (fun go x => fst (fst go) = fst x /\ gread tg l (snd (fst go)) buf (off + snd go) = Some (snd x))
          (combine gs (member_offsets cur (gmembers l gs))) xs ->
  gread_fields tg l buf off cur gs = Some xs.
Proof.
  induction gs as [|[f g] gs IH]; intros cur xs H.
  - inversion H; subst. reflexivity.
  - cbn [gmembers map member_offsets snd combine] in H. fold (gmembers l gs) in H.
    inversion H as [|? [f' x] ? xs' [E1 E2] H']; subst. cbn [fst snd] in *. subst f'.
    cbn [gread_fields]. rewrite E2. rewrite (IH _ _ H'). reflexivity.
Qed.

Fixpoint gval_fields (tg : target) (fs : list (string * hty)) (vs : list (string * hval))
  : option (list (string * gval)) :=
  match fs, vs with
  | [], [] => Some []
  | (f, hf) :: fs', (_, w) :: vs' =>
    match gval_of tg hf w, gval_fields tg fs' vs' with
    | Some x, Some xs => Some ((f, x) :: xs)
    | _, _ => None
    end
  | _, _ => None
  end.

Lemma gval_struct tg n fs vs :
  gval_of tg (HStruct n fs) (HVRec vs)
  = match gval_fields tg fs vs with Some xs => Some (GVStruct xs) | None => None end.
Proof.
  cbn [gval_of].
  match goal with |- match ?a with _ => _ end = match ?b with _ => _ end => assert (E : a = b); [|now rewrite E] end.
  revert vs. induction fs as [|[f h] fs IH]; intros [|[g w] vs]; try reflexivity.
  cbn [gval_fields]. rewrite <- IH. reflexivity.
Qed.

Definition read_ok (tg : target) (h : hty) : Prop := forall l t g s v buf off,
  out_ty tg l h = Some t -> gty_of h = Some g -> has_sty t s = true ->
  from_std tg l h s = Some v -> read_at buf off (size_of tg t) = Some (flat tg t s) ->
  exists x, gread tg l g buf off = Some x /\ gval_of tg h v = Some x.

Lemma from_inits_Forall2 tg l fs s vs : from_inits tg l fs s = Some vs ->
  Forall2 (fun nf nv => fst nf = fst nv /\ exists w, sfield (fst nf) s = Some w
                        /\ from_std tg l (snd nf) w = Some (snd nv)) fs vs.
Proof.
  unfold from_inits. rewrite map_opt_Forall2. induction 1 as [|[f h] [g v] fs vs E _ IH]; constructor; [|assumption].
  cbn [fst snd] in *. destruct (sfield f s) as [w|] eqn:E1; [|discriminate].
  destruct (from_std tg l h w) as [v'|] eqn:E2; [|discriminate]. injection E as -> ->.
  split; [reflexivity|]. exists w. auto.
Qed.

Lemma Forall2_assoc {A B} (R : A -> B -> Prop) (xs : list (string * A)) (ys : list (string * B)) f a :
  Forall2 (fun x y => fst x = fst y /\ R (snd x) (snd y)) xs ys -> assoc f xs = Some a ->
  exists b, assoc f ys = Some b /\ R a b.
Proof.
  induction 1 as [|[f1 a1] [f2 b1] xs ys [E HR] _ IH]; [discriminate|]. cbn [fst snd] in *. subst f2.
  rewrite !assoc_cons. destruct (String.eqb f f1); [|exact IH].
  intros H. injection H as <-. eauto.
Qed.
Lemma Forall2_assoc_r {A B} (R : A -> B -> Prop) (xs : list (string * A)) (ys : list (string * B)) f b :
  Forall2 (fun x y => fst x = fst y /\ R (snd x) (snd y)) xs ys -> assoc f ys = Some b ->
  exists a, assoc f xs = Some a /\ R a b.
Proof.
  induction 1 as [|[f1 a1] [f2 b1] xs ys [E HR] _ IH]; [discriminate|]. cbn [fst snd] in *. subst f2.
  rewrite !assoc_cons. destruct (String.eqb f f1); [|exact IH].
  intros H. injection H as <-. eauto.
Qed.

Lemma map_opt_map_Some {A B} (f : A -> option B) l (g : A -> B) :
  (forall x, In x l -> f x = Some (g x)) -> map_opt f l = Some (map g l).
Proof.
  induction l as [|x l IH]; intros H; [reflexivity|]. rewrite map_opt_cons, (H x), IH; [reflexivity| |now left].
  intros y Hy. apply H. now right.
Qed.

Lemma comp_names_NoDup n : NoDup (firstn n comp_names).
Proof.
  apply nodupb_NoDup. unfold comp_names.
  do 5 (destruct n as [|n]; [reflexivity|]). reflexivity.
Qed.

Lemma read_easy tg r std fs : target_ok tg = true ->
  Forall (fun nf => read_ok tg (snd nf)) fs -> read_ok tg (HEasy r std fs).
Proof.
  intros Htg IH l t g s v buf off Ho Hg Hs Hv Hr.
  destruct (easy_facts _ _ _ _ _ _ Ho) as [outs [ln [n [al [decl [E1 [E2 [Et [Hn [Hnd Hd]]]]]]]]]].
  destruct (gty_of_HEasy _ _ _ _ Hg) as [gs [G1 [G2 [G3 G4]]]].
  destruct (table_shape tg l std g t Htg G1 E1) as [n' [al' [decl' [T1 [T2 [T3 [T4 [T5 [_ T6]]]]]]]]].
  rewrite T1 in Et. injection Et as <- <- <- <-. subst al' t.
  rewrite from_std_HEasy in Hv. destruct (from_inits tg l fs s) as [vs|] eqn:Ef; [|discriminate].
  injection Hv as <-.
  destruct s as [| |ss|]; try discriminate Hs. rewrite has_sty_struct in Hs.
  assert (Hgood : good tg l (TStruct l n' (base_align l g) decl')) by (eapply table_good; eassumption).
  pose proof (nopad_all _ _ _ _ _ (good_nopad _ _ _ Hgood)) as Hnp.
  rewrite flat_struct, (nopad_size_of tg l n' (base_align l g) decl') in Hr by (eapply good_nopad; eassumption).
  apply from_inits_Forall2 in Ef. apply out_fields_Forall2 in E2. apply gfields_Forall2 in G2.
  set (cs := firstn (ncomps g) comp_names) in *.
  (* every host field *)
  assert (HF : forall f hf, assoc f fs = Some hf ->
    forall k, nth_error cs k = Some f ->
    exists w x, assoc f vs = Some w /\ gval_of tg hf w = Some x
      /\ gread tg l (cgty g) buf (off + N.of_nat k * cstride l g) = Some x).
  { intros f hf Hf k Hk.
    assert (exists ct, assoc f outs = Some ct /\ out_ty tg l hf = Some ct) as [ct [C1 C2]].
    { eapply (Forall2_assoc (fun h t => out_ty tg l h = Some t)); [exact E2|exact Hf]. }
    assert (exists gc, assoc f gs = Some gc /\ gty_of hf = Some gc) as [gc [D1 D2]].
    { eapply (Forall2_assoc (fun h g => gty_of h = Some g)); [exact G2|exact Hf]. }
    destruct (G3 f (nth_error_In _ _ Hk)) as [gc' [D3 D4]]. rewrite D1 in D3. injection D3 as <-.
    apply is_comp_eq in D4. destruct D4 as [-> _].
    destruct (field_at tg decl' ss 0 f _ (T6 k f Hk) Hnp Hs) as [ft [sf [P1 [P2 [P3 [_ [_ P6]]]]]]].
    rewrite (Hd f ct) in P1 by (now apply assoc_in). injection P1 as <-.
    assert (exists w, assoc f vs = Some w /\ from_std tg l hf sf = Some w) as [w [W1 W2]].
    { clear -Ef Hf P2. induction Ef as [|[f1 h1] [f2 v2] fs vs [Q1 [w0 [Q2 Q3]]] _ IHE]; [discriminate|].
      cbn [fst snd] in *. subst f2. rewrite assoc_cons. rewrite (@assoc_cons hty) in Hf. destruct (String.eqb_spec f f1) as [->|]; [|auto].
      injection Hf as ->. change (sfield f1 (SRec ss)) with (assoc f1 ss) in Q2. rewrite P2 in Q2. injection Q2 as <-. eauto. }
    pose proof (proj1 (Forall_forall _ _) IH _ (assoc_in _ _ _ Hf)) as IHf. cbn [snd] in IHf.
    destruct (IHf l ct (cgty g) sf w buf (off + N.of_nat k * cstride l g) C2 D2 P3 W2) as [x [X1 X2]].
    { apply P6. rewrite N.add_0_r. exact Hr. }
    exists w, x. auto. }
  (* the list of component values *)
  assert (Hxs : exists xs, length xs = length cs /\ forall k c, nth_error cs k = Some c ->
     exists hf w x, assoc c fs = Some hf /\ assoc c vs = Some w /\ gval_of tg hf w = Some x
       /\ nth_error xs k = Some x
       /\ gread tg l (cgty g) buf (off + N.of_nat k * cstride l g) = Some x).
  { assert (G : forall m, (m <= length cs)%nat -> exists xs, length xs = m /\ forall k c, (k < m)%nat -> nth_error cs k = Some c ->
     exists hf w x, assoc c fs = Some hf /\ assoc c vs = Some w /\ gval_of tg hf w = Some x
       /\ nth_error xs k = Some x
       /\ gread tg l (cgty g) buf (off + N.of_nat k * cstride l g) = Some x).
    { induction m as [|m IHm]; intros Hm.
      - exists []. split; [reflexivity|]. intros. lia.
      - destruct (IHm ltac:(lia)) as [xs [L1 L2]].
        destruct (nth_error cs m) as [c|] eqn:Ec.
        2:{ apply nth_error_None in Ec. lia. }
        destruct (G3 c (nth_error_In _ _ Ec)) as [gc [D3 _]].
        assert (exists hf, assoc c fs = Some hf) as [hf Hf].
        { destruct (Forall2_assoc_r (fun h g => gty_of h = Some g) fs gs c gc G2 D3) as [hf [Q _]]. eauto. }
        destruct (HF c hf Hf m Ec) as [w [x [X1 [X2 X3]]]].
        exists (xs ++ [x])%list. split; [rewrite app_length; cbn; lia|].
        intros k c' Hk Hc'. destruct (Nat.eq_dec k m) as [->|].
        + rewrite Ec in Hc'. injection Hc' as <-. exists hf, w, x.
          rewrite nth_error_app2, L1, Nat.sub_diag by lia. cbn. auto.
        + destruct (L2 k c' ltac:(lia) Hc') as [hf' [w' [x' [Y1 [Y2 [Y3 [Y4 Y5]]]]]]].
          exists hf', w', x'. rewrite nth_error_app1 by lia. auto. }
    destruct (G (length cs) ltac:(lia)) as [xs [L1 L2]]. exists xs. split; [assumption|].
    intros k c Hk. apply L2; [|assumption]. apply nth_error_Some. congruence. }
  destruct Hxs as [xs [L1 L2]].
  assert (Hlen : length cs = ncomps g).
  { unfold cs. rewrite firstn_length. cbn [comp_names length]. lia. }
  exists (gwrap g xs). split.
  - rewrite gread_comps by assumption.
    rewrite <- Hlen, <- L1. rewrite (gread_strided_spec _ _ xs); [reflexivity|].
    intros k x Hk. assert (Hlt : (k < length cs)%nat) by (rewrite <- L1; apply nth_error_Some; congruence).
    destruct (nth_error cs k) as [c|] eqn:Ec; [|apply nth_error_None in Ec; lia].
    destruct (L2 k c Ec) as [hf [w [x' [_ [_ [_ [Y4 Y5]]]]]]]. rewrite Hk in Y4. injection Y4 as <-. exact Y5.
  - cbn [gval_of]. rewrite G1.
    (* gval of every field *)
    assert (Hnames : forall f hf, In (f, hf) fs -> exists w x, assoc f vs = Some w /\ gval_of tg hf w = Some x).
    { intros f hf Hin. assert (Hf : assoc f fs = Some hf) by (now apply assoc_nodup).
      assert (In f cs) by (apply G4; apply in_map_iff; exists (f, hf); auto).
      apply In_nth_error in H. destruct H as [k Hk].
      destruct (HF f hf Hf k Hk) as [w [x [X1 [X2 _]]]]. eauto. }
    match goal with |- context [map_opt ?F fs] => set (FF := F) end.
    assert (exists ys, map_opt FF fs = Some ys /\ Forall2 (fun nf y => fst nf = fst y /\ exists w, assoc (fst nf) vs = Some w /\ gval_of tg (snd nf) w = Some (snd y)) fs ys) as [ys [Y1 Y2]].
    { clear -Hnames. induction fs as [|[f hf] fs IHfs]; [exists []; split; [reflexivity|constructor]|].
      destruct (Hnames f hf (or_introl eq_refl)) as [w [x [X1 X2]]].
      destruct IHfs as [ys [Y1 Y2]]; [intros; apply Hnames; now right|].
      exists ((f, x) :: ys). split.
      - rewrite map_opt_cons, Y1. unfold FF. cbn [fst snd]. rewrite X1, X2. reflexivity.
      - constructor; [|assumption]. cbn [fst snd]. eauto. }
    rewrite Y1. fold cs.
    assert (Hmo : map_opt (fun c => assoc c ys) cs = Some xs).
    { apply map_opt_Forall2.
      assert (Hk : forall k c, nth_error cs k = Some c -> exists x, nth_error xs k = Some x /\ assoc c ys = Some x).
      { intros k c Hc. destruct (L2 k c Hc) as [hf [w [x [Z1 [Z2 [Z3 [Z4 _]]]]]]]. exists x. split; [assumption|].
        destruct (Forall2_assoc (fun h y => exists w, assoc c vs = Some w /\ gval_of tg h w = Some y) 
                    (filter (fun nf => String.eqb c (fst nf)) fs) (filter (fun nf => String.eqb c (fst nf)) ys) c hf) as [y [W1 [w' [W2 W3]]]].
        - clear -Y2. induction Y2 as [|[f h] [f' y] fs ys [Q1 Q2] _ IHq]; [constructor|].
          cbn [fst snd filter] in *. subst f'. destruct (String.eqb_spec c f) as [->|]; [|assumption].
          constructor; [|assumption]. cbn [fst snd]. auto.
        - clear -Z1. induction fs as [|[f h] fs IHf]; [discriminate|]. rewrite assoc_cons in Z1.
          cbn [filter fst]. destruct (String.eqb c f) eqn:E; [|auto]. rewrite assoc_cons, E. exact Z1.
        - rewrite Z2 in W2. injection W2 as <-. rewrite Z3 in W3. injection W3 as <-.
          clear -W1. induction ys as [|[f h] ys IHf]; [discriminate|]. cbn [filter fst] in W1.
          rewrite assoc_cons. destruct (String.eqb c f) eqn:E; [|auto]. rewrite assoc_cons, E in W1. exact W1. }
      clear -Hk L1. revert xs L1 Hk. induction cs as [|c cs IHc]; intros [|x xs] L1 Hk; try discriminate; constructor.
      - destruct (Hk 0%nat c eq_refl) as [x' [E1 E2]]. cbn in E1. injection E1 as <-. exact E2.
      - apply IHc; [now injection L1|]. intros k c' Hc'. apply (Hk (S k) c' Hc'). }
    rewrite Hmo. destruct g; try discriminate; reflexivity.
Qed.

Theorem read_all tg : target_ok tg = true -> forall h, read_ok tg h.
Proof.
  intros Htg. induction h as [p| |r s fs IH|r m IH|h IH|n fs IH|l' h IH] using hty_ind'.
  - intros l t g s v buf off Ho Hg Hs Hv Hr.
    cbn [out_ty gty_of from_std] in *. destruct (std_align l (TPrim p)); [|discriminate]. injection Ho as <-.
    destruct s as [x| | |]; try discriminate. injection Hv as <-. cbn [has_sty] in Hs.
    unfold size_of in Hr. cbn [layout_of fst flat] in Hr.
    destruct p; cbn in Hg; try discriminate; injection Hg as <-;
      cbn [gread gval_of]; unfold gread_scalar; cbn [scalar_size]; cbn [psize] in Hr; rewrite Hr, dec_enc by assumption; eauto.
  - intros l t g s v buf off Ho Hg Hs Hv Hr.
    cbn [out_ty gty_of from_std] in *. injection Ho as <-. injection Hg as <-.
    destruct s as [x| | |]; try discriminate. injection Hv as <-. cbn [has_sty] in Hs.
    unfold size_of in Hr. cbn [layout_of fst flat psize] in Hr.
    cbn [gread gval_of]. unfold gread_scalar. cbn [scalar_size]. rewrite Hr, dec_enc by assumption. eauto.
  - now apply read_easy.
  - intros l t g s v buf off Ho Hg Hs Hv Hr. cbn [out_ty gty_of from_std] in *.
    destruct (from_std tg l m s) as [w|] eqn:E; [|discriminate]. injection Hv as <-.
    cbn [gval_of]. eapply IH; eassumption.
  - intros l t g s v buf off Ho Hg. discriminate.
  - intros l t g s v buf off Ho Hg Hs Hv Hr.
    destruct (struct_members _ _ _ _ _ _ Htg Ho Hg) as [outs [gs [E1 [E2 [-> [-> [Hn [Hnd [Hd [HG [Hsz Hpos]]]]]]]]]]].
    rewrite (from_std_HStruct _ _ _ _ _ _ Hn E1) in Hv.
    destruct (from_inits tg l fs s) as [vs|] eqn:Ef; [|discriminate]. injection Hv as <-.
    destruct s as [| |ss|]; try discriminate Hs. unfold derived in Hs, Hr. rewrite has_sty_struct in Hs.
    destruct (derived_props tg l n outs HG) as [Hgd [Hsize _]]. unfold derived in Hgd, Hsize.
    pose proof (nopad_all _ _ _ _ _ (good_nopad _ _ _ Hgd)) as Hnp.
    rewrite flat_struct, Hsize in Hr.
    apply from_inits_Forall2 in Ef. apply out_fields_Forall2 in E1. apply gfields_Forall2 in E2.
    assert (Hx : exists xs,
      Forall2 (fun go x => fst (fst go) = fst x /\ gread tg l (snd (fst go)) buf (off + snd go) = Some (snd x))
          (combine gs (goffsets l gs)) xs /\ gval_fields tg fs vs = Some xs).
    { revert Hpos. generalize (goffsets l gs) as os. clear Hsz Hg Ho Hn HG.
      revert outs E1 gs E2 vs Ef Hd Hnd Hs Hr Hgd Hsize Hnp.
      intros outs E1. generalize (derived_fields tg l outs) as decl. intros decl gs E2 vs Ef Hd Hnd Hs Hr Hgd Hsize Hnp. clear Hgd Hsize.
      revert gs E2 vs Ef Hd IH.
      induction E1 as [|[f h] [f' t] fs outs [A1 A2] _ IHE]; intros gs E2 vs Ef Hd IH os Hpos.
      - inversion E2; subst. inversion Ef; subst. inversion Hpos; subst. exists []. split; [constructor|reflexivity].
      - inversion E2 as [|? [f'' g] ? gs' [B1 B2] E2']; subst. inversion Ef as [|? [f3 w] ? vs' [C1 [sw [C2 C3]]] Ef']; subst.
        inversion Hpos as [|? o ? os' P1 P2]; subst. cbn [fst snd] in *. subst f'' f3 f'.
        inversion IH as [|? ? IH1 IH2]; subst. cbn [snd] in IH1.
        destruct (IHE gs' E2' vs' Ef') with (os := os') as [xs [X1 X2]].
        { intros f0 u0 H0. apply Hd. now right. }
        { assumption. }
        { assumption. }
        destruct (field_at tg decl ss 0 f o P1 Hnp Hs) as [ft [sf [Q1 [Q2 [Q3 [_ [_ Q6]]]]]]].
        rewrite (Hd f t) in Q1 by (now left). injection Q1 as <-.
        change (sfield f (SRec ss)) with (assoc f ss) in C2. rewrite Q2 in C2. injection C2 as <-.
        destruct (IH1 l t g sf w buf (off + o) A2 B2 Q3 C3) as [x [X3 X4]].
        { apply Q6. rewrite N.add_0_r. exact Hr. }
        exists ((f, x) :: xs). split.
        + cbn [combine]. constructor; [|assumption]. cbn [fst snd]. auto.
        + cbn [gval_fields]. rewrite X4, X2. reflexivity. }
    destruct Hx as [xs [X1 X2]].
    exists (GVStruct xs). rewrite gread_struct, gval_struct, X2, (gread_fields_spec tg l buf off gs 0 xs) by exact X1. auto.
  - intros l t g s v buf off Ho Hg Hs Hv Hr.
    destruct (out_ty_HOut _ _ _ _ _ Ho) as [E1 [E2 E3]]. cbn [gty_of from_std] in *. injection Hv as <-.
    cbn [gval_of].
    destruct (conv_total tg Htg h l t E1) as [_ Hb]. destruct (Hb s Hs) as [w [W1 W2]].
    destruct (IH l t g s w buf off E1 Hg Hs W1 Hr) as [x [X1 X2]].
    assert (E : from_std tg l' h s = Some w).
    { destruct E3 as [->|[p ->]]; [exact W1|].
      clear -Htg E1 E2 W1 Hs. revert w W1 Hs E1 E2.
      induction h as [q| |r0 s0 fs0 _|r0 m IHm|h IHh|n0 fs0 _|l0 h IHh] using hty_ind'; intros w W1 Hs E1 E2; try exact W1.
      - destruct (easy_facts _ _ _ _ _ _ E1) as [? [? [? [? [? [_ [_ [E _]]]]]]]]. discriminate.
      - cbn [from_std out_ty] in *. destruct (from_std tg l m s) as [u|] eqn:E; [|discriminate]. injection W1 as <-.
        now rewrite (IHm u).
      - cbn [out_ty] in E1. destruct l; [|discriminate]. destruct (out_ty tg L140 h); discriminate.
      - destruct (struct_facts _ _ _ _ _ Htg E1) as [? [_ [_ [_ [_ [_ E]]]]]]. discriminate. }
    rewrite E. eauto.
Qed.
