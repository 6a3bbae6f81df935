(** * Property theorems (generated from Proofs_Runtime.v by tools/genprops.py; statements only) *)

From Coq Require Import NArith String Bool List Lia ZArith PeanoNat.
From Coq Require Import ZifyBool ZifyN ZifyNat.
From Coq Require Import Strings.Byte.
From Verif Require Import Proofs_Runtime Rust Internal Prims Derive Host Rows Buffer SpecGlsl SpecHost SpecTypes SpecBuf SpecBlock SpecRuntime
  Arith RustFacts DeriveFacts TypeFacts HostFacts GlslFacts BufferFacts WriterFacts Proofs_Types Proofs_Slices GpuFacts Proofs_Evolve Samples.
Import ListNotations.
Local Open Scope string_scope.
Local Open Scope N_scope.


(** C79.  Members written one after the other through a fresh [Writer], the last of them a
    non-empty slice [vs], into a shader storage buffer to which [pad] is appended: the shader's
    [length()] of the runtime-sized array is the number of elements written if and only if the
    appended bytes are at least the array stride minus the element size, and fewer than one
    stride more than that.  Then the shader sees exactly the elements written. *)
Theorem C79_length_iff : forall W tg l (wi : write_impl W) delivered inner b hdr f h g vs gs w os,
  target_ok tg = true -> lawful wi delivered ->
  b = (hdr ++ [(f, MSlice h vs)])%list -> vs <> [] ->
  block_ok tg l b -> slices_ok l b -> gaps_ok l b -> block_gty b = Some gs -> gty_of h = Some g ->
  write_vals tg l wi (block_wvals b) (writer_new inner) = (w, (os, None)) ->
  (t_checks tg = true \/ members_end 0 (gmembers l gs) < umod tg) ->
  exists img xs, delivered (w_inner w) = (delivered inner ++ img)%list
    /\ map_opt (gval_of tg h) vs = Some xs
    /\ forall pad, let off := last_offset l gs in let stride := array_stride l g in let slack := stride - gsize l g in
       (runtime_length (len (img ++ pad)%list) off stride = len vs <-> slack <= len pad < slack + stride)
       /\ (slack <= len pad < slack + stride -> gread_runtime tg l g (img ++ pad)%list off = Some (GVArr xs)).
Proof. exact C79_length_iff_proof. Qed.
Print Assumptions C79_length_iff.

(** C79.  With exactly the bytes [Writer] delivers: the shader's [length()] is the number of
    elements written, but one less if the elements are three-component vectors, whose last
    padding [Writer] does not write; and 0 if the slice was empty.  Extending the buffer to a
    multiple of the alignment of the {e element} type always makes it the number written. *)
Theorem C79_length : forall W tg l (wi : write_impl W) delivered inner b hdr f h g vs gs w os,
  target_ok tg = true -> lawful wi delivered ->
  b = (hdr ++ [(f, MSlice h vs)])%list ->
  block_ok tg l b -> slices_ok l b -> gaps_ok l b -> block_gty b = Some gs -> gty_of h = Some g ->
  write_vals tg l wi (block_wvals b) (writer_new inner) = (w, (os, None)) ->
  (t_checks tg = true \/ members_end 0 (gmembers l gs) < umod tg) ->
  exists img, delivered (w_inner w) = (delivered inner ++ img)%list
    /\ runtime_length (len img) (last_offset l gs) (array_stride l g)
       = (if is_vec3 g then len vs - 1 else len vs)
    /\ (vs <> [] -> runtime_length (round_up (len img) (base_align l g)) (last_offset l gs) (array_stride l g) = len vs).
Proof. exact C79_length_proof. Qed.
Print Assumptions C79_length.

(** the README's count and lights: the shader's [length()] is 2 *)
Example C79_ex :
  lights_block = ([("count", MVal (HPrim PU32) (bits 2))] ++ [("lights", MSlice point_light [light1; light2])])%list
  /\ block_ok x86_64 L140 lights_block /\ slices_ok L140 lights_block /\ gaps_ok L140 lights_block
  /\ block_ok x86_64 L430 points_block /\ slices_ok L430 points_block /\ gaps_ok L430 points_block
  /\ exists gs g w, block_gty lights_block = Some gs /\ gty_of point_light = Some g
     /\ write_vals x86_64 L140 vec_sink (block_wvals lights_block) (writer_new []) = (w, ([0; 16], None))
     /\ last_offset L140 gs = 16 /\ array_stride L140 g = 32 /\ is_vec3 g = false
     /\ len (w_inner w) = 80 /\ runtime_length 80 16 32 = 2.
Proof. exact C79_ex_proof. Qed.

(** a count and two [vec3]: the buffer has 44 bytes, the shader's [length()] is 1; with
    four more bytes it is 2 *)
Theorem C79_length_is_count_refuted : forall l,
  exists gs w, block_gty points_block = Some gs
  /\ write_vals x86_64 l vec_sink (block_wvals points_block) (writer_new []) = (w, ([0; 16], None))
  /\ last_offset l gs = 16 /\ array_stride l (GVec GFloat 3) = 16
  /\ len (w_inner w) = 44
  /\ runtime_length 44 16 16 = 1 /\ runtime_length 48 16 16 = 2.
Proof. exact C79_length_is_count_refuted_proof. Qed.
Print Assumptions C79_length_is_count_refuted.

Theorem C79_block_size_refuted :
  exists gs w, block_gty tail_floats = Some gs
  /\ write_vals x86_64 L430 vec_sink (block_wvals tail_floats) (writer_new []) = (w, ([0; 16], None))
  /\ last_offset L430 gs = 16 /\ array_stride L430 (GScalar GFloat) = 4
  /\ len (w_inner w) = 20 /\ runtime_length 20 16 4 = 1
  /\ gsize L430 (GStruct "" gs) = 32 /\ runtime_length 32 16 4 = 4.
Proof. exact C79_block_size_refuted_proof. Qed.
Print Assumptions C79_block_size_refuted.
