(** * Property theorems (generated from Proofs_Slices.v by tools/genprops.py; statements only) *)

From Coq Require Import NArith String Bool List Lia ZArith.
From Coq Require Import ZifyBool ZifyN ZifyNat.
From Coq Require Import Strings.Byte.
From Verif Require Import Proofs_Slices Rust Internal Prims Derive Host Rows Buffer SpecBuf SpecGlsl SpecHost SpecBlock
  Arith RustFacts DeriveFacts TypeFacts HostFacts GlslFacts BufferFacts WriterFacts Samples Proofs_Buffer.
Import ListNotations.
Local Open Scope string_scope.
Local Open Scope N_scope.


(** C39.  A buffer block whose members are written one after the other through a
    fresh [Writer]: each member, slices included, is where GLSL puts it, and a
    shader that declares the block reads the values that were written, provided
    slices have array-compatible elements ([slices_ok]) and what follows a slice
    is aligned beyond the padding after its last element ([gaps_ok]). *)
Theorem C39_block_with_slices : forall W tg l (wi : write_impl W) delivered inner b gs w os,
  target_ok tg = true -> lawful wi delivered ->
  block_ok tg l b -> slices_ok l b -> gaps_ok l b -> block_gty b = Some gs ->
  write_vals tg l wi (block_wvals b) (writer_new inner) = (w, (os, None)) ->
  (t_checks tg = true \/ members_end 0 (gmembers l gs) < umod tg) ->
  exists img xs, delivered (w_inner w) = (delivered inner ++ img)%list
    /\ block_gval tg b = Some xs
    /\ gread tg l (GStruct "" gs) img 0 = Some (GVStruct xs)
    /\ (no_empty_slice b -> os = goffsets l gs).
Proof. exact C39_block_with_slices_proof. Qed.
Print Assumptions C39_block_with_slices.

(** C38.  Members written one after the other, the last of which may be a slice
    (a runtime-sized array): a shader that declares the block reads the values
    that were written, and each value is at the offset GLSL assigns. *)
Theorem C38_block : forall W tg l (wi : write_impl W) delivered inner b gs w os,
  target_ok tg = true -> lawful wi delivered ->
  block_ok tg l b ->
  (forall f h vs, ~ In (f, MSlice h vs) (removelast b)) ->
  slices_ok l b ->
  block_gty b = Some gs ->
  write_vals tg l wi (block_wvals b) (writer_new inner) = (w, (os, None)) ->
  (t_checks tg = true \/ members_end 0 (gmembers l gs) < umod tg) ->
  exists img xs, delivered (w_inner w) = (delivered inner ++ img)%list
    /\ block_gval tg b = Some xs
    /\ gread tg l (GStruct "" gs) img 0 = Some (GVStruct xs)
    /\ (no_empty_slice b -> os = goffsets l gs).
Proof. exact C38_block_proof. Qed.
Print Assumptions C38_block.

(** C36.  In std140, a slice whose elements have a base alignment of at least 16
    (structs, three- and four-component vectors, matrices, double vectors) is
    written as the GLSL array of that element type: a shader that declares the
    array at the returned offset reads the elements. *)
Theorem C36_std140_slice_is_array : forall W tg (wi : write_impl W) delivered start img h g t vs w w' o,
  target_ok tg = true -> lawful wi delivered ->
  out_ty tg L140 h = Some t -> gty_of h = Some g -> 16 <= base_align L140 g ->
  Forall (fun v => hval_ok tg h v = true) vs -> vs <> [] ->
  delivered (w_inner w) = (start ++ img)%list -> writer_len w = len img -> len img < umod tg ->
  writer_write tg L140 wi w (WSeq (map (WLeaf h) vs)) = (w', WOk o) ->
  (t_checks tg = true \/ round_up (len img) (base_align L140 g) + len vs * array_stride L140 g < umod tg) ->
  exists img' xs, delivered (w_inner w') = (start ++ img')%list
    /\ o = round_up (len img) (base_align L140 (GArr g (length vs)))
    /\ map_opt (gval_of tg h) vs = Some xs
    /\ gread tg L140 (GArr g (length vs)) img' o = Some (GVArr xs).
Proof. exact C36_std140_slice_is_array_proof. Qed.
Print Assumptions C36_std140_slice_is_array.

(** C37.  In std430, every slice is written as the GLSL array of its element type. *)
Theorem C37_std430_slice_is_array : forall W tg (wi : write_impl W) delivered start img h g t vs w w' o,
  target_ok tg = true -> lawful wi delivered ->
  out_ty tg L430 h = Some t -> gty_of h = Some g ->
  Forall (fun v => hval_ok tg h v = true) vs -> vs <> [] ->
  delivered (w_inner w) = (start ++ img)%list -> writer_len w = len img -> len img < umod tg ->
  writer_write tg L430 wi w (WSeq (map (WLeaf h) vs)) = (w', WOk o) ->
  (t_checks tg = true \/ round_up (len img) (base_align L430 g) + len vs * array_stride L430 g < umod tg) ->
  exists img' xs, delivered (w_inner w') = (start ++ img')%list
    /\ o = round_up (len img) (base_align L430 (GArr g (length vs)))
    /\ map_opt (gval_of tg h) vs = Some xs
    /\ gread tg L430 (GArr g (length vs)) img' o = Some (GVArr xs).
Proof. exact C37_std430_slice_is_array_proof. Qed.
Print Assumptions C37_std430_slice_is_array.

(** C36, exact: the offsets at which the elements of a slice are written, in both
    layouts. *)
Theorem C36_slice_offsets : forall W tg l (wi : write_impl W) h g t vs w w' os,
  target_ok tg = true -> infallible wi ->
  out_ty tg l h = Some t -> gty_of h = Some g ->
  Forall (fun v => hval_ok tg h v = true) vs ->
  writer_len w < umod tg ->
  round_up (writer_len w) (base_align l g) + len vs * round_up (gsize l g) (base_align l g) < umod tg ->
  write_vals tg l wi (map (WLeaf h) vs) w = (w', (os, None)) ->
  os = map (fun k => round_up (writer_len w) (base_align l g) + N.of_nat k * round_up (gsize l g) (base_align l g))
           (seq 0 (length vs)).
Proof. exact C36_slice_offsets_proof. Qed.
Print Assumptions C36_slice_offsets.

(** C36, exact: a slice of at least two elements is placed like a GLSL array if
    and only if the layout is std430 or the base alignment of the element type is
    at least 16; scalars and two-component vectors are not, in std140. *)
Theorem C36_slice_is_array_iff : forall W tg l (wi : write_impl W) h g t vs w w' os,
  target_ok tg = true -> infallible wi ->
  out_ty tg l h = Some t -> gty_of h = Some g ->
  Forall (fun v => hval_ok tg h v = true) vs -> (2 <= length vs)%nat ->
  writer_len w < umod tg ->
  round_up (writer_len w) (base_align l g) + len vs * round_up (gsize l g) (base_align l g) < umod tg ->
  write_vals tg l wi (map (WLeaf h) vs) w = (w', (os, None)) ->
  (os = map (fun k => round_up (writer_len w) (base_align l (GArr g (length vs))) + N.of_nat k * array_stride l g)
            (seq 0 (length vs))
   <-> (l = L430 \/ 16 <= base_align l g)).
Proof. exact C36_slice_is_array_iff_proof. Qed.
Print Assumptions C36_slice_is_array_iff.

(** C39, exact: the value written after a non-empty slice (of array-compatible
    elements) is where GLSL puts it if and only if its base alignment exceeds the
    padding GLSL adds after the last element. *)
Theorem C39_after_slice_iff : forall W tg l (wi : write_impl W) delivered inner h g vs h' g' v w o o',
  target_ok tg = true -> lawful wi delivered -> t_checks tg = true ->
  (exists t, out_ty tg l h = Some t) -> gty_of h = Some g ->
  (exists t, out_ty tg l h' = Some t) -> gty_of h' = Some g' ->
  Forall (fun v => hval_ok tg h v = true) vs -> vs <> [] -> hval_ok tg h' v = true ->
  array_elem l g ->
  write_vals tg l wi [WSeq (map (WLeaf h) vs); WLeaf h' v] (writer_new inner) = (w, ([o; o'], None)) ->
  ([o; o'] = goffsets l [("a", GArr g (length vs)); ("b", g')]
   <-> array_stride l g - gsize l g < base_align l g').
Proof. exact C39_after_slice_iff_proof. Qed.
Print Assumptions C39_after_slice_iff.

Example C38_ex :
  target_ok x86_64 = true /\ block_ok x86_64 L140 lights_block /\ slices_ok L140 lights_block
  /\ (forall f h vs, ~ In (f, MSlice h vs) (removelast lights_block))
  /\ no_empty_slice lights_block
  /\ (exists gs w, block_gty lights_block = Some gs
        /\ write_vals x86_64 L140 vec_sink (block_wvals lights_block) (writer_new []) = (w, ([0; 16], None))
        /\ goffsets L140 gs = [0; 16]).
Proof. exact C38_ex_proof. Qed.

Example C39_ex :
  block_ok x86_64 L430 mid_block /\ slices_ok L430 mid_block /\ gaps_ok L430 mid_block /\ no_empty_slice mid_block
  /\ (exists gs w, block_gty mid_block = Some gs
        /\ write_vals x86_64 L430 vec_sink (block_wvals mid_block) (writer_new []) = (w, ([0; 32; 44], None))
        /\ goffsets L430 gs = [0; 32; 44]).
Proof. exact C39_ex_proof. Qed.

(** the gap condition fails for a scalar after a slice of [vec3], in both layouts:
    the scalar is written at 12 where GLSL expects it at 16 *)
Theorem C39_value_after_vec3_slice_refuted :
  forall l, exists w gs,
  block_gty [("a", MSlice vec3f [v3 1 2 3]); ("b", MVal (HPrim PF32) (bits 1))] = Some gs
  /\ write_vals x86_64 l vec_sink (block_wvals [("a", MSlice vec3f [v3 1 2 3]); ("b", MVal (HPrim PF32) (bits 1))]) (writer_new [])
     = (w, ([0; 12], None))
  /\ goffsets l gs = [0; 16]
  /\ gread x86_64 l (GStruct "" gs) (w_inner w) 0 = None.
Proof. exact C39_value_after_vec3_slice_refuted_proof. Qed.
Print Assumptions C39_value_after_vec3_slice_refuted.

Theorem C36_std140_scalar_slice_refuted :
  exists w o,
  writer_write x86_64 L140 vec_sink (writer_new []) (WSeq (map (WLeaf (HPrim PF32)) five)) = (w, WOk o)
  /\ gread x86_64 L140 (GArr (GScalar GFloat) 2) (w_inner w) o = Some (GVArr [GVBits 1; GVBits 5])
  /\ gread x86_64 L140 (GArr (GScalar GFloat) 5) (w_inner w) o = None
  /\ len (w_inner w) = 20 /\ gsize L140 (GArr (GScalar GFloat) 5) = 80.
Proof. exact C36_std140_scalar_slice_refuted_proof. Qed.
Print Assumptions C36_std140_scalar_slice_refuted.

Example C36_ex :
  exists t g w, out_ty x86_64 L140 point_light = Some t /\ gty_of point_light = Some g /\ 16 <= base_align L140 g
  /\ array_stride L140 g = 32
  /\ writer_write x86_64 L140 vec_sink (Writer [x01; x02; x03; x04] 4) (WSeq (map (WLeaf point_light) [light1; light2])) = (w, WOk 16)
  /\ len (w_inner w) = 80.
Proof. exact C36_ex_proof. Qed.

Example C37_ex :
  exists t w, out_ty x86_64 L430 vec2f = Some t /\ gty_of vec2f = Some (GVec GFloat 2)
  /\ array_stride L430 (GVec GFloat 2) = 8
  /\ writer_write x86_64 L430 vec_sink (Writer [x01; x02; x03; x04] 4) (WSeq (map (WLeaf vec2f) [v2 1 2; v2 3 4])) = (w, WOk 8)
  /\ len (w_inner w) = 24.
Proof. exact C37_ex_proof. Qed.
