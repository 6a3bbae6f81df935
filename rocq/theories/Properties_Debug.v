(** * Property theorems (generated from Proofs_Debug.v by tools/genprops.py; statements only) *)

From Coq Require Import NArith String Ascii Bool List Lia DecimalString DecimalN DecimalPos.
From Verif Require Import Proofs_Debug Rust Internal Prims Derive Host Rows DebugMetrics SpecGlsl SpecHost SpecTypes SpecNumeral SpecDebug NumeralFacts
  RustFacts DeriveFacts TypeFacts Samples Proofs_Types.
Import ListNotations.
Local Open Scope string_scope.
Local Open Scope N_scope.


(** C41.  [debug_metrics()] reports the size and ALIGNMENT of the generated struct and the
    names (as written, with the prefix of raw identifiers) and offsets of its fields in it, in order; as the size of a field it reports
    [size_of] of the *host* type (not of the field of the generated struct), and nonsense,
    namely the size of four words, if that type is a struct called [Field]. *)
Theorem C41_debug_metrics : forall raw host_size tg l name fs t,
  target_ok tg = true -> out_ty tg l (HStruct name fs) = Some t ->
  exists m ms, debug_metrics raw host_size tg l name fs = Some m /\ field_metrics tg l fs = Some ms
    /\ dm_size m = size_of tg t /\ std_align l t = Some (dm_align m)
    /\ map df_name (dm_fields m) = map (fun nf => if raw (fst nf) then "r#" ++ fst nf else fst nf) fs
    /\ map df_offset (dm_fields m) = starts 0 ms
    /\ Forall2 (fun nf d => ((forall gs, snd nf <> HStruct "Field" gs) -> df_size d = host_size (snd nf))
                           /\ (forall gs, snd nf = HStruct "Field" gs -> df_size d = 4 * (t_bits tg / 8)))
               fs (dm_fields m)
    /\ ((forall f gs, ~ In (f, HStruct "Field" gs) fs) ->
        (map df_size (dm_fields m) = map snd ms <->
         Forall (fun nf => std_size_static tg l (snd nf) = Some (host_size (snd nf))) fs)).
Proof. exact C41_debug_metrics_proof. Qed.
Print Assumptions C41_debug_metrics.

(** C41.  "Reports for each field its size in the generated layout" is false: for a [bool]
    field (one byte on the host, four in the layout), and for a [mat3] (36 against 48). *)
Theorem C41_field_sizes_refuted : forall raw host_size tg, target_ok tg = true -> 64 < t_obj tg -> host_size_ok tg host_size ->
  (exists m, debug_metrics raw host_size tg L140 "Flag" [("on", HBool)] = Some m
     /\ map df_size (dm_fields m) = [1] /\ std_size_static tg L140 HBool = Some 4)
  /\ (exists m, debug_metrics raw host_size tg L140 "Mat3Padding" [("one", mat3f); ("two", HPrim PF32)] = Some m
     /\ map df_size (dm_fields m) = [36; 4] /\ std_size_static tg L140 mat3f = Some 48).
Proof. exact C41_field_sizes_refuted_proof. Qed.
Print Assumptions C41_field_sizes_refuted.

(** C41.  "Reports the size of the field's Rust type" is false as well: a user's struct called
    [Field] is shadowed by the struct of that name inside [debug_metrics]; on x86-64 it is
    reported to have 32 bytes, whatever its real size. *)
Theorem C41_host_sizes_refuted : forall raw host_size l,
  exists m, debug_metrics raw host_size x86_64 l "Holder" [("f", HStruct "Field" [("x", HPrim PF32)])] = Some m
    /\ map df_size (dm_fields m) = [32].
Proof. exact C41_host_sizes_refuted_proof. Qed.
Print Assumptions C41_host_sizes_refuted.

(** C41.  Nothing is lost in the text: two reports with the same text have the same size,
    alignment and fields (field names contain no quotation mark, being identifiers). *)
Theorem C41_text_is_faithful : forall m m',
  (forall f, In f (dm_fields m ++ dm_fields m')%list -> ~ In """"%char (list_ascii_of_string (df_name f))) ->
  debug_metrics_text m = debug_metrics_text m' -> m = m'.
Proof. exact C41_text_is_faithful_proof. Qed.
Print Assumptions C41_text_is_faithful.

(** C41.  The numerals and names in the text are the reported data. *)
Theorem C41_text_content : forall m,
  (forall f, In f (dm_fields m) -> ~ In """"%char (list_ascii_of_string (df_name f))) ->
  scan Outside (debug_metrics_text m)
  = TNum (dm_size m) :: TNum (dm_align m)
    :: flat_map (fun f => [TName (df_name f); TNum (df_offset f); TNum (df_size f)]) (dm_fields m).
Proof. exact C41_text_content_proof. Qed.
Print Assumptions C41_text_content.

(** The text for the README struct. *)
Example C41_text_ex :
  debug_metrics_text (DbgMetrics 64 16 [DbgField "orientation" 0 36; DbgField "scale" 60 4])
  = "Size 64, Align 16, fields: [
    Field {
        name: ""orientation"",
        offset: 0,
        size: 36,
    },
    Field {
        name: ""scale"",
        offset: 60,
        size: 4,
    },
]"
  /\ debug_metrics_text (DbgMetrics 0 16 []) = "Size 0, Align 16, fields: []".
Proof. exact C41_text_ex_proof. Qed.

(** [host_size_ok] is satisfiable, and here is what it reports for the README struct. *)
Example C41_ex :
  let host_size := fun h => match known_host_size x86_64 h with Some n => n | None => 0 end in
  host_size_ok x86_64 host_size
  /\ (exists m, debug_metrics (fun _ => false) host_size x86_64 L430 "MainUniform" [("orientation", mat3f); ("position", vec3f); ("scale", HPrim PF32)] = Some m
       /\ m = DbgMetrics 64 16 [DbgField "orientation" 0 36; DbgField "position" 48 12; DbgField "scale" 60 4])
  /\ (exists m, debug_metrics (String.eqb "type") host_size x86_64 L140 "Light" [("type", HPrim PU32); ("on", HBool)] = Some m
       /\ m = DbgMetrics 16 16 [DbgField "r#type" 0 4; DbgField "on" 4 1]).
Proof. exact C41_ex_proof. Qed.
