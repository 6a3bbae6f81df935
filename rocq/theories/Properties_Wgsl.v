(** * Property theorems (generated from Proofs_Wgsl.v by tools/genprops.py; statements only) *)

From Coq Require Import NArith String Bool List Lia ZArith PeanoNat.
From Coq Require Import ZifyBool ZifyN ZifyNat.
From Coq Require Import Strings.Byte.
From Verif Require Import Proofs_Wgsl Rust Internal Prims Derive Host Rows Buffer SpecGlsl SpecHost SpecTypes SpecBuf SpecBytes SpecBlock SpecUse SpecGpu SpecWgsl
  Arith RustFacts DeriveFacts TypeFacts HostFacts GlslFacts BufferFacts WriterFacts Proofs_Types Proofs_Slices GpuFacts Proofs_RowMajor
  Proofs_Use Proofs_Vulkan Proofs_Gpu Proofs_Bytes Samples.
Import ListNotations.
Local Open Scope string_scope.
Local Open Scope N_scope.


(** C84.  A GLSL type has a WGSL counterpart that may be shared with the host if and only if
    it contains neither [bool] nor [double]. *)
Theorem C84_which_types : forall g,
  (exists w, glsl_of w = g /\ no_attrs w = true) <-> shareable g = true.
Proof. exact C84_which_types_proof. Qed.
Print Assumptions C84_which_types.

(** C84.  std430 is the layout of a WGSL declaration without attributes. *)
Theorem C84_storage : forall tg h t g w,
  target_ok tg = true -> t_big tg = false -> out_ty tg L430 h = Some t -> gty_of h = Some g ->
  glsl_of w = g -> no_attrs w = true ->
  w_valid WStorage w /\ size_of tg t = w_size w /\ std_align L430 t = Some (w_align w)
  /\ (forall n ms i m o, w = WStruct n ms -> nth_error ms i = Some m -> nth_error (w_offsets ms) i = Some o ->
        exists u, path_offset tg t [m_name m] = Some (o, u))
  /\ (forall v bs buf off, hval_ok tg h v = true -> as_std_bytes tg L430 h v = Some bs -> read_at buf off (len bs) = Some bs ->
        exists x, gval_of tg h v = Some x /\ wread w buf off = Some x)
  /\ (forall buf off bs, read_at buf off (size_of tg t) = Some bs ->
        exists s v x, from_bytes tg t bs = Some s /\ from_std tg L430 h s = Some v
          /\ gval_of tg h v = Some x /\ wread w buf off = Some x).
Proof. exact C84_storage_proof. Qed.
Print Assumptions C84_storage.

(** C84.  std140 is the layout of the declaration with [@align(16)] and [@size] on members
    that are structures, and this declaration is valid in a uniform buffer. *)
Theorem C84_uniform : forall tg h t g w,
  target_ok tg = true -> t_big tg = false -> out_ty tg L140 h = Some t -> gty_of h = Some g ->
  glsl_of w = g -> no_attrs w = true -> has_mat2 g = false ->
  w_valid WUniform (std140_attrs w) /\ w_size (std140_attrs w) <= size_of tg t
  /\ (forall n ms i m o, std140_attrs w = WStruct n ms -> nth_error ms i = Some m -> nth_error (w_offsets ms) i = Some o ->
        exists u, path_offset tg t [m_name m] = Some (o, u))
  /\ (forall v bs buf off, hval_ok tg h v = true -> as_std_bytes tg L140 h v = Some bs -> read_at buf off (len bs) = Some bs ->
        exists x, gval_of tg h v = Some x /\ wread (std140_attrs w) buf off = Some x)
  /\ (forall buf off bs, read_at buf off (size_of tg t) = Some bs ->
        exists s v x, from_bytes tg t bs = Some s /\ from_std tg L140 h s = Some v
          /\ gval_of tg h v = Some x /\ wread (std140_attrs w) buf off = Some x).
Proof. exact C84_uniform_proof. Qed.
Print Assumptions C84_uniform.

(** C84.  A declaration without attributes shows std140 values exactly when a compiler
    accepts it for a uniform buffer. *)
Theorem C84_plain_uniform : forall tg h t g w,
  target_ok tg = true -> t_big tg = false -> out_ty tg L140 h = Some t -> gty_of h = Some g -> plain h = true ->
  glsl_of w = g -> no_attrs w = true -> has_mat2 g = false ->
  ((forall v bs x, hval_ok tg h v = true -> as_std_bytes tg L140 h v = Some bs -> gval_of tg h v = Some x -> wread w bs 0 = Some x)
   <-> w_valid WUniform w).
Proof. exact C84_plain_uniform_proof. Qed.
Print Assumptions C84_plain_uniform.

(** C84.  Blocks written member by member in std430, with slices as arrays. *)
Theorem C84_storage_block : forall W tg (wi : write_impl W) delivered inner b gs w os n ms,
  target_ok tg = true -> t_big tg = false -> lawful wi delivered ->
  block_ok tg L430 b -> slices_ok L430 b -> gaps_ok L430 b -> no_empty_slice b -> b <> [] -> block_gty b = Some gs ->
  write_vals tg L430 wi (block_wvals b) (writer_new inner) = (w, (os, None)) ->
  (t_checks tg = true \/ members_end 0 (gmembers L430 gs) < umod tg) ->
  glsl_of (WStruct n ms) = GStruct n gs -> no_attrs (WStruct n ms) = true -> NoDup (map m_name ms) ->
  w_valid WStorage (WStruct n ms) /\ os = w_offsets ms
  /\ exists img xs, delivered (w_inner w) = (delivered inner ++ img)%list /\ block_gval tg b = Some xs
     /\ wread (WStruct n ms) img 0 = Some (GVStruct xs).
Proof. exact C84_storage_block_proof. Qed.
Print Assumptions C84_storage_block.

(** C84.  std140 puts the columns of a [mat2] 16 bytes apart; no WGSL declaration does. *)
Theorem C84_std140_mat2_refuted :
  exists bs, as_std_bytes x86_64 L140 mat2f (HVRec [("x", v2 1 2); ("y", v2 3 4)]) = Some bs
  /\ gread x86_64 L140 (GMat GFloat 2 2) bs 0 = Some (GVMat [GVVec [GVBits 1; GVBits 2]; GVVec [GVBits 3; GVBits 4]])
  /\ forall w, glsl_of w = GMat GFloat 2 2 -> wread w bs 0 = Some (GVMat [GVVec [GVBits 1; GVBits 2]; GVVec [GVBits 0; GVBits 0]]).
Proof. exact C84_std140_mat2_refuted_proof. Qed.
Print Assumptions C84_std140_mat2_refuted.

Theorem C84_plain_uniform_refuted :
  exists bs, as_std_bytes x86_64 L140 tight_h tight_v = Some bs
  /\ gty_of tight_h = Some (glsl_of tight_w) /\ no_attrs tight_w = true
  /\ wread tight_w bs 0 = Some (GVStruct [("a", GVStruct [("x", GVBits 1)]); ("b", GVBits 0)])
  /\ ~ w_valid WUniform tight_w.
Proof. exact C84_plain_uniform_refuted_proof. Qed.
Print Assumptions C84_plain_uniform_refuted.

(** WGSL is little-endian: on a big-endian host the values are garbled. *)
Theorem C84_big_endian_refuted :
  exists bs, as_std_bytes powerpc64 L430 (HPrim PU32) (bits 1) = Some bs
  /\ target_ok powerpc64 = true /\ wread (WScalar WU32) bs 0 = Some (GVBits 16777216).
Proof. exact C84_big_endian_refuted_proof. Qed.
Print Assumptions C84_big_endian_refuted.

(** examples: attributes, a plain declaration that is valid, a block *)
Example C84_ex_attrs :
  std140_attrs tight_w = WStruct "Tight" [("a", (Some 16, Some 16), WStruct "One" [("x", (None, None), WScalar WF32)]); ("b", (None, None), WScalar WF32)]
  /\ (exists t, out_ty x86_64 L140 tight_h = Some t) /\ gty_of tight_h = Some (glsl_of tight_w) /\ plain tight_h = true
  /\ has_mat2 (glsl_of tight_w) = false /\ hval_ok x86_64 tight_h tight_v = true
  /\ exists bs, as_std_bytes x86_64 L140 tight_h tight_v = Some bs
     /\ wread (std140_attrs tight_w) bs 0 = Some (GVStruct [("a", GVStruct [("x", GVBits 1)]); ("b", GVBits 2)]).
Proof. exact C84_ex_attrs_proof. Qed.

Example C84_ex_plain :
  gty_of point_light = Some (glsl_of light_w) /\ no_attrs light_w = true /\ w_valid WUniform light_w
  /\ (exists t, out_ty x86_64 L140 point_light = Some t /\ size_of x86_64 t = 32) /\ w_size light_w = 32.
Proof. exact C84_ex_plain_proof. Qed.

Example C84_ex_block :
  let b := [("count", MVal (HPrim PU32) (bits 2)); ("lights", MSlice point_light [light1; light2])] in
  let ms := [("count", (None, None), WScalar WU32); ("lights", (None, None), WArr light_w 2)] in
  exists w gs, write_vals x86_64 L430 vec_sink (block_wvals b) (writer_new []) = (w, ([0; 16], None))
  /\ block_gty b = Some gs /\ glsl_of (WStruct "Lights" ms) = GStruct "Lights" gs
  /\ no_attrs (WStruct "Lights" ms) = true /\ w_offsets ms = [0; 16] /\ gaps_ok L430 b /\ no_empty_slice b.
Proof. exact C84_ex_block_proof. Qed.
