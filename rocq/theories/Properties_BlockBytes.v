(** * Property theorems (generated from Proofs_BlockBytes.v by tools/genprops.py; statements only) *)

From Coq Require Import NArith String Bool List Lia ZArith PeanoNat.
From Coq Require Import ZifyBool ZifyN ZifyNat.
From Coq Require Import Strings.Byte.
From Verif Require Import Proofs_BlockBytes Rust Internal Prims Derive Host Rows Buffer SpecGlsl SpecHost SpecTypes SpecBuf SpecBlock SpecUse SpecGpu SpecBytes SpecValues
  Arith RustFacts DeriveFacts TypeFacts HostFacts GlslFacts PadFacts BufferFacts WriterFacts Proofs_Types Proofs_Use Proofs_Slices GpuFacts Proofs_Gpu Proofs_Bytes Proofs_Values Samples.
Import ListNotations.
Local Open Scope string_scope.
Local Open Scope N_scope.


(** C73.  A block written member by member through a fresh [Writer] (single values and
    slices, under the conditions of C39): the bytes delivered are exactly the GLSL image of
    the whole block, except that zero bytes at its end may be missing: those that pad its
    size to a multiple of its base alignment, and no others. *)
Theorem C73_block_bytes : forall W tg l (wi : write_impl W) delivered inner b gs w os,
  target_ok tg = true -> lawful wi delivered ->
  block_ok tg l b -> block_plain b = true -> slices_ok l b -> gaps_ok l b -> block_gty b = Some gs ->
  write_vals tg l wi (block_wvals b) (writer_new inner) = (w, (os, None)) ->
  (t_checks tg = true \/ members_end 0 (gmembers l gs) < umod tg) ->
  exists img xs k, delivered (w_inner w) = (delivered inner ++ img)%list
    /\ block_gval tg b = Some xs
    /\ glsl_image tg l (GStruct "" gs) (GVStruct xs) (img ++ repeat x00 k)%list
    /\ gsize l (GStruct "" gs) = round_up (len img) (base_align l (GStruct "" gs)).
Proof. exact C73_block_bytes_proof. Qed.
Print Assumptions C73_block_bytes.

Example C73_ex :
  (block_plain lights_block = true /\ block_ok x86_64 L140 lights_block /\ slices_ok L140 lights_block /\ gaps_ok L140 lights_block
   /\ exists gs w, block_gty lights_block = Some gs
      /\ write_vals x86_64 L140 vec_sink (block_wvals lights_block) (writer_new []) = (w, ([0; 16], None))
      /\ len (w_inner w) = 80 /\ gsize L140 (GStruct "" gs) = 80)
  /\ (block_plain tail_block = true /\ block_ok x86_64 L430 tail_block /\ slices_ok L430 tail_block /\ gaps_ok L430 tail_block
   /\ exists gs w, block_gty tail_block = Some gs
      /\ write_vals x86_64 L430 vec_sink (block_wvals tail_block) (writer_new []) = (w, ([0; 16], None))
      /\ len (w_inner w) = 44 /\ gsize L430 (GStruct "" gs) = 48).
Proof. exact C73_ex_proof. Qed.
