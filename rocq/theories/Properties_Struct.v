(** * Property theorems (generated from Proofs_Struct.v by tools/genprops.py; statements only) *)

From Coq Require Import NArith String Bool List Lia ZArith.
From Coq Require Import ZifyBool ZifyN ZifyNat.
From Coq Require Import Strings.Byte.
From Verif Require Import Proofs_Struct Rust Internal Prims Derive Host Rows Buffer SpecBuf SpecGlsl SpecHost SpecTypes
  Arith RustFacts DeriveFacts TypeFacts HostFacts GlslFacts PadFacts BufferFacts WriterFacts Samples
  Proofs_Buffer Proofs_Types.
Import ListNotations.
Local Open Scope string_scope.
Local Open Scope N_scope.


(** C49.  Writing the fields of a derived struct one by one through a fresh [Writer] puts
    each at its offset in the generated struct and produces the struct's [as_bytes()]
    without the trailing padding, which is zero; the bytes of the struct at a field's
    offset are the field's own [as_stdN().as_bytes()]. *)
Theorem C49_fieldwise_writing : forall tg l name fs t vs bs,
  target_ok tg = true -> out_ty tg l (HStruct name fs) = Some t ->
  hval_ok tg (HStruct name fs) (HVRec vs) = true ->
  as_std_bytes tg l (HStruct name fs) (HVRec vs) = Some bs ->
  exists w offs,
    write_vals tg l vec_sink (map leaf (combine (map snd fs) (map snd vs))) (writer_new []) = (w, (offs, None))
    /\ map (fun nf => assoc (fst nf) (field_offsets tg t)) fs = map Some offs
    /\ bs = (w_inner w ++ repeat x00 (N.to_nat (size_of tg t - len (w_inner w))))%list
    /\ (forall i f h v o, nth_error fs i = Some (f, h) -> nth_error (map snd vs) i = Some v -> nth_error offs i = Some o ->
          exists b, as_std_bytes tg l h v = Some b /\ read_at bs o (len b) = Some b).
Proof. exact C49_fieldwise_writing_proof. Qed.
Print Assumptions C49_fieldwise_writing.

(** [C49]: a struct with trailing padding (std140) *)
Example C49_ex :
  out_ty x86_64 L140 scene <> None /\ hval_ok x86_64 scene scene1 = true
  /\ (exists fs vs w offs, scene = HStruct "Scene" fs /\ scene1 = HVRec vs
       /\ write_vals x86_64 L140 vec_sink (map leaf (combine (map snd fs) (map snd vs))) (writer_new []) = (w, (offs, None))
       /\ length offs = length fs).
Proof. exact C49_ex_proof. Qed.
