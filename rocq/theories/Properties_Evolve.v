(** * Property theorems (generated from Proofs_Evolve.v by tools/genprops.py; statements only) *)

From Coq Require Import NArith String Bool List Lia ZArith.
From Coq Require Import ZifyBool ZifyN ZifyNat.
From Coq Require Import Strings.Byte.
From Verif Require Import Proofs_Evolve Rust Internal Prims Derive Host Rows Buffer SpecBuf SpecGlsl SpecHost SpecTypes SpecEvolve
  Arith RustFacts DeriveFacts TypeFacts HostFacts GlslFacts PadFacts BufferFacts WriterFacts Samples
  Proofs_Buffer Proofs_Types Proofs_Struct.
Import ListNotations.
Local Open Scope string_scope.
Local Open Scope N_scope.


(** C53.  The layout of a derived struct is the smallest possible: its fields do not overlap
    and are aligned, and in any placement of the fields in declaration order with these
    properties every field is at the same or a larger offset and the struct (whose size
    must be a multiple of ALIGNMENT) is at least as large. *)
Theorem C53_struct_layout_minimal : forall tg l name fs t,
  target_ok tg = true -> out_ty tg l (HStruct name fs) = Some t ->
  exists ms offs A, field_metrics tg l fs = Some ms
    /\ map (fun nf => assoc (fst nf) (field_offsets tg t)) fs = map Some offs
    /\ std_align l t = Some A
    /\ placed 0 ms offs (size_of tg t) /\ aligned A (size_of tg t)
    /\ (forall qs total, placed 0 ms qs total -> aligned A total ->
          Forall2 N.le offs qs /\ size_of tg t <= total).
Proof. exact C53_struct_layout_minimal_proof. Qed.
Print Assumptions C53_struct_layout_minimal.

(** C53.  The same for the offsets a [Sizer] (and, by C02, a [Writer]) hands out. *)
Theorem C53_sizer_minimal : forall tg l hs ms os s,
  target_ok tg = true ->
  map_opt (fun h => match out_align tg l h, std_size_static tg l h with
                    | Some a, Some n => Some (a, n) | _, _ => None end) hs = Some ms ->
  sizer_run tg l hs sizer_new = Some (Done (os, s)) ->
  (t_checks tg = true \/ extent 0 ms < umod tg) ->
  placed 0 ms os (sizer_len s)
  /\ (forall qs total, placed 0 ms qs total -> Forall2 N.le os qs /\ sizer_len s <= total).
Proof. exact C53_sizer_minimal_proof. Qed.
Print Assumptions C53_sizer_minimal.

(** C51.  Appending fields to a struct does not move the existing fields or change their
    bytes, and never makes the struct smaller or less aligned: up to the end of the last
    old field the bytes of the two structs are the same. *)
Theorem C51_appending_fields : forall tg l name name' fs gs t t' ms,
  target_ok tg = true ->
  out_ty tg l (HStruct name fs) = Some t -> out_ty tg l (HStruct name' (fs ++ gs)) = Some t' ->
  field_metrics tg l fs = Some ms ->
  (forall f, In f (map fst fs) -> assoc f (field_offsets tg t') = assoc f (field_offsets tg t))
  /\ size_of tg t <= size_of tg t'
  /\ (exists A A', std_align l t = Some A /\ std_align l t' = Some A' /\ A <= A')
  /\ (forall vs ws bs bs', as_std_bytes tg l (HStruct name fs) (HVRec vs) = Some bs ->
        as_std_bytes tg l (HStruct name' (fs ++ gs)) (HVRec (vs ++ ws)) = Some bs' ->
        hval_ok tg (HStruct name fs) (HVRec vs) = true ->
        hval_ok tg (HStruct name' (fs ++ gs)) (HVRec (vs ++ ws)) = true ->
        forall i, i < extent 0 ms -> byte_at bs' i = byte_at bs i).
Proof. exact C51_appending_fields_proof. Qed.
Print Assumptions C51_appending_fields.

(** C52.  Names do not matter for bytes: renaming structs and fields, at any depth, in a type
    that stays acceptable changes neither ALIGNMENT nor size nor any byte of any value. *)
Theorem C52_names_are_irrelevant : forall tg l h h' t t',
  target_ok tg = true -> renamed h h' -> out_ty tg l h = Some t -> out_ty tg l h' = Some t' ->
  out_align tg l h = out_align tg l h' /\ std_size_static tg l h = std_size_static tg l h'
  /\ forall v v', renamed_val v v' -> hval_ok tg h v = true -> hval_ok tg h' v' = true ->
       as_std_bytes tg l h v = as_std_bytes tg l h' v'.
Proof. exact C52_names_are_irrelevant_proof. Qed.
Print Assumptions C52_names_are_irrelevant.

(** C52.  ... nor the offset of any field. *)
Theorem C52_offsets_by_position : forall tg l n n' fs fs' t t',
  target_ok tg = true -> Forall2 (fun a b => renamed (snd a) (snd b)) fs fs' ->
  out_ty tg l (HStruct n fs) = Some t -> out_ty tg l (HStruct n' fs') = Some t' ->
  map (fun nf => assoc (fst nf) (field_offsets tg t)) fs = map (fun nf => assoc (fst nf) (field_offsets tg t')) fs'.
Proof. exact C52_offsets_by_position_proof. Qed.
Print Assumptions C52_offsets_by_position.

(** [C51]: [PointLight] with a [bool] and a matrix appended; the struct grows from 32 to 80 bytes. *)
Example C51_ex :
  exists t t' ms bs bs', out_ty x86_64 L140 point_light = Some t
  /\ out_ty x86_64 L140 (HStruct "PointLight2" ([("position", vec3f); ("color", vec3f); ("brightness", HPrim PF32)] ++ [("on", HBool); ("m", mat2f)])) = Some t'
  /\ field_metrics x86_64 L140 [("position", vec3f); ("color", vec3f); ("brightness", HPrim PF32)] = Some ms
  /\ extent 0 ms = 32 /\ size_of x86_64 t = 32 /\ size_of x86_64 t' = 80
  /\ as_std_bytes x86_64 L140 point_light light1 = Some bs
  /\ as_std_bytes x86_64 L140 (HStruct "PointLight2" ([("position", vec3f); ("color", vec3f); ("brightness", HPrim PF32)] ++ [("on", HBool); ("m", mat2f)]))
       (HVRec ([("position", v3 f1_0 2 3); ("color", v3 4 5 6); ("brightness", bits f1_0)] ++ [("on", HVBool true); ("m", HVRec [("x", v2 1 2); ("y", v2 3 4)])])) = Some bs'
  /\ firstn 32 bs' = bs.
Proof. exact C51_ex_proof. Qed.

Example C52_ex :
  renamed scene scene_renamed /\ renamed_val scene1 scene1_renamed
  /\ out_ty x86_64 L140 scene <> None /\ out_ty x86_64 L140 scene_renamed <> None
  /\ hval_ok x86_64 scene scene1 = true /\ hval_ok x86_64 scene_renamed scene1_renamed = true
  /\ scene1 <> scene1_renamed
  /\ as_std_bytes x86_64 L140 scene scene1 = as_std_bytes x86_64 L140 scene_renamed scene1_renamed.
Proof. exact C52_ex_proof. Qed.

(** [C53]: the hypotheses met by [Scene]; moving a field down is not possible, moving it up is. *)
Example C53_ex :
  exists t ms, out_ty x86_64 L140 point_light = Some t
  /\ field_metrics x86_64 L140 [("position", vec3f); ("color", vec3f); ("brightness", HPrim PF32)] = Some ms
  /\ starts 0 ms = [0; 16; 28] /\ size_of x86_64 t = 32
  /\ sizer_run x86_64 L140 [vec3f; vec3f; HPrim PF32] sizer_new = Some (Done ([0; 16; 28], Sizer 32)).
Proof. exact C53_ex_proof. Qed.

Example C53_ex2 : placed 0 [(16, 12); (16, 12); (4, 4)] [0; 16; 28] 32 /\ placed 0 [(16, 12); (16, 12); (4, 4)] [0; 32; 44] 48
  /\ ~ placed 0 [(16, 12); (16, 12); (4, 4)] [0; 12; 24] 32.
Proof. exact C53_ex2_proof. Qed.
