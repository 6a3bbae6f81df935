(** * Property theorems (generated from Proofs_Vulkan.v by tools/genprops.py; statements only) *)

From Coq Require Import NArith String Bool List Lia ZArith PeanoNat.
From Coq Require Import ZifyBool ZifyN ZifyNat.
From Coq Require Import Strings.Byte.
From Verif Require Import Proofs_Vulkan Rust Internal Prims Derive Host Rows Buffer SpecGlsl SpecHost SpecTypes SpecBuf SpecBlock SpecVulkan
  Arith RustFacts DeriveFacts TypeFacts HostFacts GlslFacts BufferFacts WriterFacts Proofs_Types Proofs_Slices GpuFacts Proofs_RowMajor Samples.
Import ListNotations.
Local Open Scope string_scope.
Local Open Scope N_scope.


Theorem C81_derived_layout_valid : forall tg l h t g c,
  target_ok tg = true -> out_ty tg l h = Some t -> gty_of h = Some g ->
  (c = Uniform -> l = L140) ->
  exists V, rust_layout tg t g = Some V /\ vk_valid c V.
Proof. exact C81_derived_layout_valid_proof. Qed.
Print Assumptions C81_derived_layout_valid.

Theorem C81_decorated_shader_reads : forall tg l h t g v bs buf off,
  target_ok tg = true -> out_ty tg l h = Some t -> gty_of h = Some g -> hval_ok tg h v = true ->
  as_std_bytes tg l h v = Some bs -> read_at buf off (len bs) = Some bs ->
  exists V x, rust_layout tg t g = Some V /\ gval_of tg h v = Some x /\ vread tg V buf off = Some x.
Proof. exact C81_decorated_shader_reads_proof. Qed.
Print Assumptions C81_decorated_shader_reads.

Theorem C81_writer_block_valid : forall W tg l (wi : write_impl W) delivered inner b gs w os c,
  target_ok tg = true -> lawful wi delivered ->
  block_ok tg l b -> slices_ok l b -> gaps_ok l b -> no_empty_slice b -> b <> [] -> block_gty b = Some gs ->
  write_vals tg l wi (block_wvals b) (writer_new inner) = (w, (os, None)) ->
  (t_checks tg = true \/ members_end 0 (gmembers l gs) < umod tg) ->
  (c = Uniform -> l = L140) ->
  exists img xs, delivered (w_inner w) = (delivered inner ++ img)%list /\ block_gval tg b = Some xs
    /\ let V := VStruct (map fst b) (combine os (map (fun nf => decorate l (snd nf)) gs)) in
       vk_valid c V /\ vread tg V img 0 = Some (GVStruct xs).
Proof. exact C81_writer_block_valid_proof. Qed.
Print Assumptions C81_writer_block_valid.

(** examples *)
Example C81_ex :
  exists t g, out_ty x86_64 L140 main_uniform = Some t /\ gty_of main_uniform = Some g
  /\ rust_layout x86_64 t g
     = Some (VStruct ["orientation"; "position"; "scale"] [(0, VMat GFloat 3 3 16); (48, VVec GFloat 3); (60, VScalar GFloat)]).
Proof. exact C81_ex_proof. Qed.

(** the std430 layout of a struct need not be a valid uniform buffer *)
Theorem C81_std430_as_uniform_refuted :
  exists t g V, out_ty x86_64 L430 outer_s = Some t /\ gty_of outer_s = Some g
  /\ rust_layout x86_64 t g = Some V /\ vk_valid StorageBuffer V /\ ~ vk_valid Uniform V.
Proof. exact C81_std430_as_uniform_refuted_proof. Qed.
Print Assumptions C81_std430_as_uniform_refuted.

(** a value written after a slice of vec3 is where Vulkan allows no member *)
Theorem C81_after_vec3_slice_refuted :
  let b := [("a", MSlice vec3f [v3 1 2 3]); ("b", MVal (HPrim PF32) (bits 1))] in
  exists w os gs, write_vals x86_64 L430 vec_sink (block_wvals b) (writer_new []) = (w, (os, None))
  /\ block_gty b = Some gs /\ os = [0; 12]
  /\ ~ vk_valid StorageBuffer (VStruct (map fst b) (combine os (map (fun nf => decorate L430 (snd nf)) gs))).
Proof. exact C81_after_vec3_slice_refuted_proof. Qed.
Print Assumptions C81_after_vec3_slice_refuted.

(** a slice of scalars written in std140 has no valid stride in a uniform buffer *)
Theorem C81_std140_scalar_slice_refuted :
  exists w, write_vals x86_64 L140 vec_sink [WSeq [WLeaf (HPrim PF32) (bits 1); WLeaf (HPrim PF32) (bits 2)]] (writer_new []) = (w, ([0], None))
  /\ vread x86_64 (VArr (VScalar GFloat) 2 4) (w_inner w) 0 = Some (GVArr [GVBits 1; GVBits 2])
  /\ (forall st, vread x86_64 (VArr (VScalar GFloat) 2 st) (w_inner w) 0 = Some (GVArr [GVBits 1; GVBits 2]) ->
        ~ vk_valid Uniform (VStruct ["a"] [(0, VArr (VScalar GFloat) 2 st)])).
Proof. exact C81_std140_scalar_slice_refuted_proof. Qed.
Print Assumptions C81_std140_scalar_slice_refuted.

(** the block of the documentation of [Writer], as a storage buffer *)
Example C81_ex_writer :
  let b := [("count", MVal (HPrim PU32) (bits 2)); ("lights", MSlice point_light [light1; light2])] in
  exists w gs, write_vals x86_64 L430 vec_sink (block_wvals b) (writer_new []) = (w, ([0; 16], None))
  /\ block_gty b = Some gs /\ gaps_ok L430 b
  /\ VStruct (map fst b) (combine [0; 16] (map (fun nf => decorate L430 (snd nf)) gs))
     = VStruct ["count"; "lights"] [(0, VScalar GUint);
         (16, VArr (VStruct ["position"; "color"; "brightness"] [(0, VVec GFloat 3); (16, VVec GFloat 3); (28, VScalar GFloat)]) 2 32)].
Proof. exact C81_ex_writer_proof. Qed.
