(** * C41: debug_metrics *)

From Coq Require Import NArith String Ascii Bool List Lia DecimalString DecimalN DecimalPos.
From Verif Require Import Rust Internal Prims Derive Host Rows DebugMetrics SpecGlsl SpecHost SpecTypes SpecNumeral SpecDebug NumeralFacts
  RustFacts DeriveFacts TypeFacts Samples Proofs_Types.
Import ListNotations.
Local Open Scope string_scope.
Local Open Scope N_scope.

(** C41.  [debug_metrics()] reports the size and ALIGNMENT of the generated struct and the
    names (as written, with the prefix of raw identifiers) and offsets of its fields in it, in order; as the size of a field it reports
    [size_of] of the *host* type (not of the field of the generated struct), and nonsense,
    namely the size of four words, if that type is a struct called [Field]. *)
Lemma C41_debug_metrics_proof : forall raw host_size tg l name fs t,
  target_ok tg = true -> out_ty tg l (HStruct name fs) = Some t ->
  exists m ms, debug_metrics raw host_size tg l name fs = Some m /\ field_metrics tg l fs = Some ms
    /\ dm_size m = size_of tg t /\ std_align l t = Some (dm_align m)
    /\ map df_name (dm_fields m) = map (fun nf => if raw (fst nf) then "r#" ++ fst nf else fst nf) fs
    /\ map df_offset (dm_fields m) = starts 0 ms
    /\ Forall2 (fun nf d => ((forall gs, snd nf <> HStruct "Field" gs) -> df_size d = host_size (snd nf))
                           /\ (forall gs, snd nf = HStruct "Field" gs -> df_size d = 4 * (t_bits tg / 8)))
               fs (dm_fields m)
    /\ ((forall f gs, ~ In (f, HStruct "Field" gs) fs) ->
        (map df_size (dm_fields m) = map snd ms <->
         Forall (fun nf => std_size_static tg l (snd nf) = Some (host_size (snd nf))) fs)).
Proof.
  intros raw hs tg l name fs t Htg H.
  destruct (C17_size_and_alignment_proof tg l name fs t Htg H) as [ms [Hm [A1 [A2 _]]]].
  unfold debug_metrics. rewrite H, A1. cbv zeta in A2.
  set (P := fold_right N.max match l with L140 => 16 | L430 => 0 end (map fst ms)).
  assert (L : length ms = length fs) by (unfold field_metrics in Hm; now apply map_opt_Some_length in Hm).
  assert (X : forall os, length os = length fs ->
     map (fun nf : string * hty => assoc (fst nf) (field_offsets tg t)) fs = map Some os ->
     exists dfs, map_opt (fun nf : string * hty => match assoc (fst nf) (field_offsets tg t) with
            | Some o => Some (DbgField (stringify_ident raw (fst nf)) o (size_in_body hs tg (snd nf))) | None => None end) fs = Some dfs
       /\ map df_name dfs = map (fun nf => stringify_ident raw (fst nf)) fs /\ map df_offset dfs = os /\ map df_size dfs = map (fun nf => size_in_body hs tg (snd nf)) fs).
  { clear. induction fs as [|[f h] fs IH]; intros [|o os] L E; try discriminate.
    - exists []. repeat split; reflexivity.
    - cbn [map fst] in E. injection E as E1 E2. cbn in L. destruct (IH os ltac:(lia) E2) as [dfs [B1 [B2 [B3 B4]]]].
      exists (DbgField (stringify_ident raw f) o (size_in_body hs tg h) :: dfs). cbn [map_opt fst snd]. rewrite E1, B1. split; [reflexivity|].
      cbn [map df_name df_offset df_size fst snd]. rewrite B2, B3, B4. repeat split; reflexivity. }
  assert (Lst : forall xs cur, length (starts cur xs) = length xs).
  { clear. induction xs as [|[a s] xs IH]; intros cur; cbn; [reflexivity|now rewrite IH]. }
  destruct (X (starts 0 ms)) as [dfs [B1 [B2 [B3 B4]]]]; [rewrite Lst; assumption|exact A2|].
  rewrite B1. exists (DbgMetrics (size_of tg t) P dfs), ms. split; [reflexivity|]. split; [assumption|].
  cbn [dm_size dm_align dm_fields]. split; [reflexivity|]. split; [reflexivity|]. split; [assumption|]. split; [assumption|].
  split.
  { clear - B4. revert dfs B4. induction fs as [|[f h] fs IH]; intros [|d dfs] B; try discriminate; constructor.
    - cbn [map snd] in B. injection B as B1 _. rewrite B1. cbn [snd]. split.
      + intros N. destruct h; try reflexivity. cbn [size_in_body].
        destruct (String.eqb name "Field") eqn:E; [|reflexivity]. apply String.eqb_eq in E. subst. now destruct (N fs0).
      + intros gs ->. reflexivity.
    - cbn [map] in B. injection B as _ B. auto. }
  intros NF. rewrite B4.
  replace (map (fun nf => size_in_body hs tg (snd nf)) fs) with (map (fun nf : string * hty => hs (snd nf)) fs).
  2:{ apply map_ext_in. intros [f h] Hin. cbn [snd]. destruct h; try reflexivity. cbn [size_in_body].
      destruct (String.eqb name0 "Field") eqn:E; [|reflexivity]. apply String.eqb_eq in E. subst. now apply NF in Hin. }
  unfold field_metrics in Hm. clear - Hm.
  revert ms Hm. induction fs as [|[f h] fs IH]; intros ms Hm; cbn [map_opt snd] in Hm.
  - injection Hm as <-. split; [constructor|reflexivity].
  - destruct (out_align tg l h) as [a|]; [|discriminate]. destruct (std_size_static tg l h) as [s|] eqn:Es; [|discriminate].
    destruct (map_opt _ fs) as [ms'|]; [|discriminate]. injection Hm as <-. specialize (IH ms' eq_refl). cbn [map snd]. split.
    + intros E. injection E as E1 E2. constructor; [cbn [snd]; congruence|]. now apply IH.
    + intros F. inversion F as [|? ? F1 F2]; subst. cbn [snd] in F1. f_equal; [congruence|]. now apply IH.
Qed.

(** C41.  "Reports for each field its size in the generated layout" is false: for a [bool]
    field (one byte on the host, four in the layout), and for a [mat3] (36 against 48). *)
Lemma C41_field_sizes_refuted_proof : forall raw host_size tg, target_ok tg = true -> 64 < t_obj tg -> host_size_ok tg host_size ->
  (exists m, debug_metrics raw host_size tg L140 "Flag" [("on", HBool)] = Some m
     /\ map df_size (dm_fields m) = [1] /\ std_size_static tg L140 HBool = Some 4)
  /\ (exists m, debug_metrics raw host_size tg L140 "Mat3Padding" [("one", mat3f); ("two", HPrim PF32)] = Some m
     /\ map df_size (dm_fields m) = [36; 4] /\ std_size_static tg L140 mat3f = Some 48).
Proof.
  intros raw hs tg Htg Hobj Hk.
  assert (Ex : forall name fs ms, field_metrics tg L140 fs = Some ms ->
     next_aligned (extent 0 ms) (fold_right N.max 16 (map fst ms)) <= 64 -> nodupb (map fst fs) = true ->
     forallb (fun i => negb (existsb (String.eqb ("_pad" ++ dec i)) (map fst fs))) (seq 0 (length fs)) = true ->
     (forall f h t, In (f, h) fs -> out_ty tg L140 h <> Some (TDyn t)) ->
     exists t, out_ty tg L140 (HStruct name fs) = Some t).
  { intros name fs ms F1 F2 F3 F4 F5. apply (HStruct_iff tg L140 name fs Htg). split; [exists ms; split; [assumption|lia]|].
    split; [now apply nodupb_NoDup|]. split; [|assumption]. intros i Hi Hin. rewrite forallb_forall in F4.
    specialize (F4 i ltac:(apply in_seq; lia)). apply negb_true_iff in F4.
    enough (existsb (String.eqb ("_pad" ++ dec i)) (map fst fs) = true) by congruence.
    apply existsb_exists. eexists. split; [eassumption|]. apply String.eqb_refl. }
  assert (M3 : field_metrics tg L140 [("one", mat3f); ("two", HPrim PF32)] = Some [(16, 48); (4, 4)]).
  { clear - Htg. all_targets tg Htg; vm_compute; reflexivity. }
  assert (O3 : std_size_static tg L140 mat3f = Some 48).
  { clear - Htg. all_targets tg Htg; vm_compute; reflexivity. }
  assert (D3 : forall t, out_ty tg L140 mat3f <> Some (TDyn t)).
  { clear - Htg. intros t. all_targets tg Htg; vm_compute; discriminate. }
  assert (A : forall name fs, (exists t, out_ty tg L140 (HStruct name fs) = Some t) -> (forall f gs, ~ In (f, HStruct "Field" gs) fs) ->
     exists m, debug_metrics raw hs tg L140 name fs = Some m /\ map df_size (dm_fields m) = map (fun nf => hs (snd nf)) fs).
  { intros name fs [t H] NF. destruct (C41_debug_metrics_proof raw hs tg L140 name fs t Htg H) as [m [ms [M1 [_ [_ [_ [_ [_ [M7 _]]]]]]]]].
    exists m. split; [assumption|]. clear - M7 NF. induction M7 as [|[f h] d fs ds [H1 _] F IH]; [reflexivity|].
    cbn [map snd]. f_equal; [|apply IH; intros g gs Hin; apply (NF g gs); now right].
    apply H1. intros gs E. cbn [snd] in E. subst. apply (NF f gs). now left. }
  split.
  - destruct (A "Flag" [("on", HBool)]) as [m [M1 M2]].
    { apply (Ex _ _ [(4, 4)]); try (vm_compute; congruence). intros f h t [E|[]]. injection E as <- <-. discriminate. }
    { intros f gs [E|[]]. discriminate. }
    exists m. split; [assumption|]. split; [|reflexivity]. rewrite M2. cbn [map snd]. now rewrite (Hk HBool 1).
  - destruct (A "Mat3Padding" [("one", mat3f); ("two", HPrim PF32)]) as [m [M1 M2]].
    { apply (Ex _ _ _ M3); try (vm_compute; congruence). intros f h t [E|[E|[]]]; injection E as <- <-; [apply D3|discriminate]. }
    { intros f gs [E|[E|[]]]; discriminate. }
    exists m. split; [assumption|]. split.
    + rewrite M2. cbn [map snd]. rewrite (Hk mat3f 36), (Hk (HPrim PF32) 4); reflexivity.
    + exact O3.
Qed.

(** C41.  "Reports the size of the field's Rust type" is false as well: a user's struct called
    [Field] is shadowed by the struct of that name inside [debug_metrics]; on x86-64 it is
    reported to have 32 bytes, whatever its real size. *)
Lemma C41_host_sizes_refuted_proof : forall raw host_size l,
  exists m, debug_metrics raw host_size x86_64 l "Holder" [("f", HStruct "Field" [("x", HPrim PF32)])] = Some m
    /\ map df_size (dm_fields m) = [32].
Proof. intros raw hs l. destruct l; eexists; (split; [vm_compute; reflexivity|reflexivity]). Qed.

(** ** The text *)

Fixpoint str_in (c : ascii) (s : string) : bool :=
  match s with EmptyString => false | String d r => Ascii.eqb c d || str_in c r end.

Lemma sapp_assoc (a b c : string) : (a ++ b) ++ c = a ++ (b ++ c).
Proof. induction a as [|x a IH]; cbn; [reflexivity|now rewrite IH]. Qed.

(** a token is delimited by the first character that cannot occur in it *)
Lemma token_inj d a : forall b r r', str_in d a = false -> str_in d b = false ->
  a ++ String d r = b ++ String d r' -> a = b /\ r = r'.
Proof.
  induction a as [|x a IH]; intros [|y b] r r' Ha Hb E; cbn in *.
  - injection E as ->. auto.
  - injection E as -> _. rewrite Ascii.eqb_refl in Hb. discriminate.
  - injection E as -> _. rewrite Ascii.eqb_refl in Ha. discriminate.
  - injection E as -> E. apply orb_false_elim in Ha, Hb. destruct (IH b r r' (proj2 Ha) (proj2 Hb) E) as [-> ->]. auto.
Qed.

Lemma digits_no_comma u : str_in "," (NilEmpty.string_of_uint u) = false.
Proof. induction u; cbn [NilEmpty.string_of_uint str_in]; [reflexivity|rewrite IHu; reflexivity..]. Qed.
Lemma decN_inj a b : decN a = decN b -> a = b.
Proof.
  unfold decN. intros H. apply DecimalN.Unsigned.to_uint_inj.
  assert (E : NilEmpty.uint_of_string (NilEmpty.string_of_uint (N.to_uint a)) = NilEmpty.uint_of_string (NilEmpty.string_of_uint (N.to_uint b)))
    by now rewrite H.
  rewrite !NilEmpty.usu in E. congruence.
Qed.
Lemma number_inj a b r r' : decN a ++ String "," r = decN b ++ String "," r' -> a = b /\ r = r'.
Proof.
  intros E. apply token_inj in E; try apply digits_no_comma. destruct E as [E ->]. apply decN_inj in E. auto.
Qed.

Lemma sapp_inj p : forall a b, p ++ a = p ++ b -> a = b.
Proof. induction p as [|x p IH]; intros a b E; cbn in E; [assumption|]. injection E as E. auto. Qed.

Lemma field_text_app f s : field_text f ++ s =
  ("    Field {" ++ nl1 ++ "        name: " ++ quote1) ++ (df_name f ++ String """"
    (("," ++ nl1 ++ "        offset: ") ++ (decN (df_offset f) ++ String ","
    ((nl1 ++ "        size: ") ++ (decN (df_size f) ++ String ","
    (nl1 ++ "    }," ++ nl1 ++ s)))))).
Proof. unfold field_text. rewrite !sapp_assoc. reflexivity. Qed.

Lemma fields_inj fs : forall gs,
  Forall (fun f => str_in """" (df_name f) = false) fs -> Forall (fun f => str_in """" (df_name f) = false) gs ->
  fold_right (fun f s => field_text f ++ s) "]" fs = fold_right (fun f s => field_text f ++ s) "]" gs -> fs = gs.
Proof.
  induction fs as [|f fs IH]; intros [|g gs] F G E; cbn [fold_right] in E.
  - reflexivity.
  - unfold field_text in E. cbn in E. discriminate.
  - unfold field_text in E. cbn in E. discriminate.
  - rewrite !field_text_app in E. apply sapp_inj in E.
    inversion F as [|? ? F1 F2]; subst. inversion G as [|? ? G1 G2]; subst.
    apply token_inj in E; try assumption. destruct E as [E1 E]. apply sapp_inj in E.
    apply number_inj in E. destruct E as [E2 E]. apply sapp_inj in E.
    apply number_inj in E. destruct E as [E3 E]. apply sapp_inj in E. apply sapp_inj in E. apply sapp_inj in E.
    f_equal; [destruct f, g; cbn in *; congruence|]. now apply IH.
Qed.

(** C41.  Nothing is lost in the text: two reports with the same text have the same size,
    alignment and fields (field names contain no quotation mark, being identifiers). *)
Lemma C41_text_is_faithful_proof : forall m m',
  (forall f, In f (dm_fields m ++ dm_fields m')%list -> ~ In """"%char (list_ascii_of_string (df_name f))) ->
  debug_metrics_text m = debug_metrics_text m' -> m = m'.
Proof.
  intros [s a fs] [s' a' fs'] H0 E. cbn [dm_fields] in H0.
  assert (H : forall f, In f (fs ++ fs')%list -> str_in """" (df_name f) = false).
  { intros f Hf. specialize (H0 f Hf). clear - H0. induction (df_name f) as [|c r IH]; [reflexivity|].
    cbn [list_ascii_of_string In str_in] in *. destruct (Ascii.eqb """" c) eqn:E.
    - apply Ascii.eqb_eq in E. subst. tauto.
    - cbn. apply IH. tauto. }
  unfold debug_metrics_text in E. cbn [dm_size dm_align dm_fields] in E.
  apply (sapp_inj "Size ") in E. apply number_inj in E. destruct E as [-> E]. apply (sapp_inj " Align ") in E.
  apply number_inj in E. destruct E as [-> E]. apply (sapp_inj " fields: ") in E. f_equal.
  assert (F : Forall (fun f => str_in """" (df_name f) = false) fs) by (apply Forall_forall; intros; apply H, in_or_app; auto).
  assert (G : Forall (fun f => str_in """" (df_name f) = false) fs') by (apply Forall_forall; intros; apply H, in_or_app; auto).
  destruct fs as [|f fs], fs' as [|g gs]; cbn [fields_text] in E.
  - reflexivity.
  - discriminate.
  - discriminate.
  - apply (sapp_inj "[") in E. apply sapp_inj in E. now apply fields_inj.
Qed.

Lemma scan_digits u : forall k r, scan (InNum k) (NilEmpty.string_of_uint u ++ r) = scan (InNum (udigits k u)) r.
Proof.
  induction u as [|u IH|u IH|u IH|u IH|u IH|u IH|u IH|u IH|u IH|u IH]; intros k r; [reflexivity|..];
    cbn [NilEmpty.string_of_uint append udigits]; rewrite <- IH; reflexivity.
Qed.

Lemma scan_decN n r : scan Outside (decN n ++ r) = scan (InNum n) r.
Proof.
  unfold decN. pose proof (to_uint_nonnil n) as H. pose proof (udigits_of (N.to_uint n)) as E.
  rewrite DecimalN.Unsigned.of_to in E. rewrite <- E at 2. clear E.
  destruct (N.to_uint n) as [|u|u|u|u|u|u|u|u|u|u]; [congruence|..];
    cbn [NilEmpty.string_of_uint append udigits]; rewrite <- scan_digits; reflexivity.
Qed.

Lemma scan_num_end n c r : digit c = None -> Ascii.eqb c """" = false -> scan (InNum n) (String c r) = TNum n :: scan Outside r.
Proof. intros H1 H2. cbn [scan]. rewrite H1, H2. reflexivity. Qed.

Lemma scan_name s : forall cs r, str_in """" s = false ->
  scan (InName cs) (s ++ String """" r) = TName (string_of_list_ascii (rev cs ++ list_ascii_of_string s)%list) :: scan Outside r.
Proof.
  induction s as [|c s IH]; intros cs r H; cbn [append list_ascii_of_string].
  - cbn [scan]. rewrite Ascii.eqb_refl, app_nil_r. reflexivity.
  - cbn [str_in] in H. apply orb_false_elim in H. destruct H as [H1 H2]. cbn [scan].
    rewrite Ascii.eqb_sym in H1. rewrite H1, (IH (c :: cs) r H2). cbn [rev]. now rewrite <- app_assoc.
Qed.

Lemma string_of_list s : string_of_list_ascii (list_ascii_of_string s) = s.
Proof. apply string_of_list_ascii_of_string. Qed.

Lemma scan_field f s : str_in """" (df_name f) = false ->
  scan Outside (field_text f ++ s) = TName (df_name f) :: TNum (df_offset f) :: TNum (df_size f) :: scan Outside s.
Proof.
  intros H. rewrite field_text_app.
  match goal with |- scan Outside (_ ++ ?x) = _ => change (scan (InName []) x = TName (df_name f) :: TNum (df_offset f) :: TNum (df_size f) :: scan Outside s) end.
  rewrite scan_name by assumption. cbn [rev app]. rewrite string_of_list. f_equal.
  match goal with |- scan Outside (_ ++ ?x) = _ => change (scan Outside x = TNum (df_offset f) :: TNum (df_size f) :: scan Outside s) end.
  rewrite scan_decN, scan_num_end by reflexivity. f_equal.
  match goal with |- scan Outside (_ ++ ?x) = _ => change (scan Outside x = TNum (df_size f) :: scan Outside s) end.
  rewrite scan_decN, scan_num_end by reflexivity. reflexivity.
Qed.

(** C41.  The numerals and names in the text are the reported data. *)
Lemma C41_text_content_proof : forall m,
  (forall f, In f (dm_fields m) -> ~ In """"%char (list_ascii_of_string (df_name f))) ->
  scan Outside (debug_metrics_text m)
  = TNum (dm_size m) :: TNum (dm_align m)
    :: flat_map (fun f => [TName (df_name f); TNum (df_offset f); TNum (df_size f)]) (dm_fields m).
Proof.
  intros [s a fs] H0. cbn [dm_fields dm_size dm_align] in *.
  assert (H : forall f, In f fs -> str_in """" (df_name f) = false).
  { intros f Hf. specialize (H0 f Hf). clear - H0. induction (df_name f) as [|c r IH]; [reflexivity|].
    cbn [list_ascii_of_string In str_in] in *. destruct (Ascii.eqb """" c) eqn:E.
    - apply Ascii.eqb_eq in E. subst. tauto.
    - cbn. apply IH. tauto. }
  unfold debug_metrics_text. cbn [dm_size dm_align dm_fields].
  match goal with |- scan Outside ("Size " ++ ?x) = _ => change (scan Outside ("Size " ++ x)) with (scan Outside x) end.
  rewrite scan_decN.
  match goal with |- scan (InNum s) (", Align " ++ ?x) = _ => change (scan (InNum s) (", Align " ++ x)) with (TNum s :: scan Outside x) end. f_equal.
  rewrite scan_decN.
  match goal with |- scan (InNum a) (", fields: " ++ ?x) = _ => change (scan (InNum a) (", fields: " ++ x)) with (TNum a :: scan Outside x) end. f_equal.
  destruct fs as [|f fs]; [reflexivity|]. unfold fields_text.
  match goal with |- scan Outside ("[" ++ nl1 ++ ?x) = _ => change (scan Outside ("[" ++ nl1 ++ x)) with (scan Outside x) end.
  induction (f :: fs) as [|g gs IH]; [reflexivity|]. cbn [fold_right flat_map]. rewrite scan_field by (apply H; now left).
  cbn [app]. rewrite IH; [reflexivity|..]; intros x Hx; [apply H0|apply H]; now right.
Qed.

(** The text for the README struct. *)
Lemma C41_text_ex_proof :
  debug_metrics_text (DbgMetrics 64 16 [DbgField "orientation" 0 36; DbgField "scale" 60 4])
  = "Size 64, Align 16, fields: [
    Field {
        name: ""orientation"",
        offset: 0,
        size: 36,
    },
    Field {
        name: ""scale"",
        offset: 60,
        size: 4,
    },
]"
  /\ debug_metrics_text (DbgMetrics 0 16 []) = "Size 0, Align 16, fields: []".
Proof. split; reflexivity. Qed.

(** [host_size_ok] is satisfiable, and here is what it reports for the README struct. *)
Lemma C41_ex_proof :
  let host_size := fun h => match known_host_size x86_64 h with Some n => n | None => 0 end in
  host_size_ok x86_64 host_size
  /\ (exists m, debug_metrics (fun _ => false) host_size x86_64 L430 "MainUniform" [("orientation", mat3f); ("position", vec3f); ("scale", HPrim PF32)] = Some m
       /\ m = DbgMetrics 64 16 [DbgField "orientation" 0 36; DbgField "position" 48 12; DbgField "scale" 60 4])
  /\ (exists m, debug_metrics (String.eqb "type") host_size x86_64 L140 "Light" [("type", HPrim PU32); ("on", HBool)] = Some m
       /\ m = DbgMetrics 16 16 [DbgField "r#type" 0 4; DbgField "on" 4 1]).
Proof.
  split; [|split].
  - intros h n E. now rewrite E.
  - eexists. split; vm_compute; reflexivity.
  - eexists. split; vm_compute; reflexivity.
Qed.
