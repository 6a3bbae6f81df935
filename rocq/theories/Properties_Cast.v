(** * Property theorems (generated from Proofs_Cast.v by tools/genprops.py; statements only) *)

From Coq Require Import NArith String Bool List Lia ZArith PeanoNat.
From Coq Require Import ZifyBool ZifyN ZifyNat.
From Coq Require Import Strings.Byte.
From Verif Require Import Proofs_Cast Rust Internal Prims Derive Host Rows Buffer Cast SpecBuf SpecGlsl SpecHost SpecTypes SpecBlock
  Arith RustFacts DeriveFacts TypeFacts HostFacts GlslFacts PadFacts BufferFacts WriterFacts Samples
  Proofs_Buffer Proofs_Types Proofs_Slices.
Import ListNotations.
Local Open Scope string_scope.
Local Open Scope N_scope.


(** C61.  Adding the fields of a struct to a fresh [Sizer] one by one returns the offsets of the
    fields in the derived struct, and [len()] is where the last field ends; the size of the
    struct is [len()] rounded up to its ALIGNMENT, so [len()] may fall short of it, by less
    than ALIGNMENT, and equals it exactly when [len()] is aligned. *)
Theorem C61_sizer_of_fields : forall tg l name fs t a,
  target_ok tg = true -> out_ty tg l (HStruct name fs) = Some t -> std_align l t = Some a ->
  exists os s, sizer_run tg l (map snd fs) sizer_new = Some (Done (os, s))
    /\ map (fun nf => assoc (fst nf) (field_offsets tg t)) fs = map Some os
    /\ least_aligned a (sizer_len s) (size_of tg t)
    /\ (sizer_len s = size_of tg t <-> aligned a (sizer_len s))
    /\ (a = 0 \/ size_of tg t < sizer_len s + a).
Proof. exact C61_sizer_of_fields_proof. Qed.
Print Assumptions C61_sizer_of_fields.

(** C61.  A buffer of [Sizer::len()] bytes can be too small for the struct of the same fields (and
    for an API that wants the whole block): a struct with a single [vec3] needs 16 bytes, the
    [Sizer] says 12. *)
Theorem C61_sizer_covers_struct_refuted : forall l,
  exists t s, out_ty x86_64 l (HStruct "OnlyVec3" [("v", vec3f)]) = Some t
    /\ sizer_run x86_64 l [vec3f] sizer_new = Some (Done ([0], s))
    /\ sizer_len s = 12 /\ size_of x86_64 t = 16.
Proof. exact C61_sizer_covers_struct_refuted_proof. Qed.
Print Assumptions C61_sizer_covers_struct_refuted.

(** C62.  [bytemuck::cast_slice] of the [Output]s of several values gives the same bytes as
    writing the values with a fresh [Writer], exactly when the size of [Output] is a multiple
    of its ALIGNMENT (derived structs, matrices, scalars, two- and four-component vectors) or
    there are fewer than two values. *)
Theorem C62_cast_slice_vs_writer : forall tg l h t a vs,
  target_ok tg = true -> out_ty tg l h = Some t -> std_align l t = Some a ->
  Forall (fun v => hval_ok tg h v = true) vs ->
  len vs * next_aligned (size_of tg t) a < umod tg ->
  exists ss bs w o,
    map_opt (as_std tg l h) vs = Some ss /\ cast_slice tg t ss = Some bs
    /\ len bs = len vs * size_of tg t
    /\ writer_write tg l vec_sink (writer_new []) (WSeq (map (WLeaf h) vs)) = (w, WOk o)
    /\ (w_inner w = bs <-> aligned a (size_of tg t) \/ (length vs <= 1)%nat).
Proof. exact C62_cast_slice_vs_writer_proof. Qed.
Print Assumptions C62_cast_slice_vs_writer.

(** C62.  A shader that declares an array of the corresponding type over the bytes of
    [cast_slice] sees the values, exactly when the size of [Output] is the array stride of the
    layout (or there are fewer than two values). *)
Theorem C62_cast_slice_is_array : forall tg l h t g vs,
  target_ok tg = true -> out_ty tg l h = Some t -> gty_of h = Some g ->
  Forall (fun v => hval_ok tg h v = true) vs ->
  exists ss bs xs, map_opt (as_std tg l h) vs = Some ss /\ cast_slice tg t ss = Some bs
    /\ map_opt (gval_of tg h) vs = Some xs
    /\ (gread tg l (GArr g (length vs)) bs 0 = Some (GVArr xs)
        <-> size_of tg t = array_stride l g \/ (length vs <= 1)%nat).
Proof. exact C62_cast_slice_is_array_proof. Qed.
Print Assumptions C62_cast_slice_is_array.

(** C62.  Which types these are: every derived struct and every matrix in both layouts; in
    std430 also scalars and two- and four-component vectors, in std140 also [vec4], [ivec4],
    [uvec4], [bvec4], [dvec2] and [dvec4]; never a three-component vector. *)
Theorem C62_which_types : forall tg l h t g,
  target_ok tg = true -> out_ty tg l h = Some t -> gty_of h = Some g ->
  (size_of tg t = array_stride l g <->
   match g with
   | GScalar _ => l = L430
   | GVec s n => n <> 3%nat /\ (l = L430 \/ (16 | N.of_nat n * scalar_size s))
   | _ => True
   end).
Proof. exact C62_which_types_proof. Qed.
Print Assumptions C62_which_types.

(** C62.  Reading back: bytes whose number is a multiple of the (nonzero) size of [Output] are a
    slice of [Output]s, which cast back to the same bytes; if the size is the array stride,
    [from_stdN] of the elements are the values a shader reads from the array. *)
Theorem C62_read_back : forall tg l h t n bs,
  target_ok tg = true -> out_ty tg l h = Some t -> size_of tg t <> 0 ->
  len bs = N.of_nat n * size_of tg t ->
  exists ss, uncast_slice tg t bs = Some ss /\ length ss = n /\ cast_slice tg t ss = Some bs
    /\ forall g, gty_of h = Some g -> size_of tg t = array_stride l g ->
       exists vs xs, map_opt (from_std tg l h) ss = Some vs /\ Forall (fun v => hval_ok tg h v = true) vs
         /\ map_opt (gval_of tg h) vs = Some xs
         /\ gread tg l (GArr g n) bs 0 = Some (GVArr xs).
Proof. exact C62_read_back_proof. Qed.
Print Assumptions C62_read_back.

(** C62: lights cast as a slice are a GLSL array, [vec3]s are not. *)
Example C62_ex :
  (exists t g ss bs, out_ty x86_64 L140 point_light = Some t /\ gty_of point_light = Some g
     /\ size_of x86_64 t = 32 /\ array_stride L140 g = 32 /\ std_align L140 t = Some 16
     /\ map_opt (as_std x86_64 L140 point_light) [light1; light2] = Some ss
     /\ cast_slice x86_64 t ss = Some bs /\ len bs = 64 /\ uncast_slice x86_64 t bs = Some ss)
  /\ (exists t ss bs w, out_ty x86_64 L140 vec3f = Some t /\ size_of x86_64 t = 12 /\ std_align L140 t = Some 16
     /\ map_opt (as_std x86_64 L140 vec3f) [v3 1 2 3; v3 4 5 6] = Some ss
     /\ cast_slice x86_64 t ss = Some bs /\ len bs = 24
     /\ writer_write x86_64 L140 vec_sink (writer_new []) (WSeq (map (WLeaf vec3f) [v3 1 2 3; v3 4 5 6])) = (w, WOk 0)
     /\ len (w_inner w) = 28
     /\ gread x86_64 L140 (GArr (GVec GFloat 3) 2) bs 0 = None)
  /\ hval_ok x86_64 point_light light1 = true /\ hval_ok x86_64 point_light light2 = true.
Proof. exact C62_ex_proof. Qed.

(** C61: the README struct needs no rounding, a struct ending in a [vec3] does. *)
Example C61_ex :
  (exists t s, out_ty x86_64 L140 main_uniform = Some t /\ std_align L140 t = Some 16 /\ size_of x86_64 t = 64
     /\ sizer_run x86_64 L140 (match main_uniform with HStruct _ fs => map snd fs | _ => [] end) sizer_new = Some (Done ([0; 48; 60], s)) /\ sizer_len s = 64)
  /\ (exists t s, out_ty x86_64 L430 (HStruct "S" [("a", HPrim PF32); ("b", vec3f)]) = Some t
     /\ std_align L430 t = Some 16 /\ size_of x86_64 t = 32
     /\ sizer_run x86_64 L430 [HPrim PF32; vec3f] sizer_new = Some (Done ([0; 16], s)) /\ sizer_len s = 28).
Proof. exact C61_ex_proof. Qed.
