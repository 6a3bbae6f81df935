(** * Property theorems (generated from Proofs_Bytes.v by tools/genprops.py; statements only) *)

From Coq Require Import NArith String Bool List Lia ZArith PeanoNat.
From Coq Require Import ZifyBool ZifyN ZifyNat.
From Coq Require Import Strings.Byte.
From Verif Require Import Proofs_Bytes Rust Internal Prims Derive Host Rows Buffer SpecGlsl SpecHost SpecTypes SpecBuf SpecUse SpecGpu SpecBytes
  Arith RustFacts DeriveFacts TypeFacts HostFacts GlslFacts PadFacts Proofs_Types Proofs_Use GpuFacts Proofs_Gpu Samples.
Import ListNotations.
Local Open Scope string_scope.
Local Open Scope N_scope.


(** C70.  [v.as_stdN().as_bytes()] is completely determined by the GLSL value of [v]: it has
    the size of the GLSL type, holds the native-endian bytes of every scalar component at
    the place the layout prescribes (a [bool] as the word 0 or 1), and is zero elsewhere. *)
Theorem C70_exact_bytes : forall tg l h t g v bs,
  target_ok tg = true -> out_ty tg l h = Some t -> gty_of h = Some g -> plain h = true ->
  hval_ok tg h v = true -> as_std_bytes tg l h v = Some bs ->
  exists x, gval_of tg h v = Some x /\ glsl_image tg l g x bs.
Proof. exact C70_exact_bytes_proof. Qed.
Print Assumptions C70_exact_bytes.

(** C70.  So two Rust types for the same GLSL type (say, the vectors of two math libraries)
    give the same bytes for values that mean the same GLSL value. *)
Theorem C70_same_glsl_same_bytes : forall tg l h h' t t' g v v' x bs bs',
  target_ok tg = true -> out_ty tg l h = Some t -> out_ty tg l h' = Some t' ->
  gty_of h = Some g -> gty_of h' = Some g -> plain h = true -> plain h' = true ->
  hval_ok tg h v = true -> hval_ok tg h' v' = true ->
  gval_of tg h v = Some x -> gval_of tg h' v' = Some x ->
  as_std_bytes tg l h v = Some bs -> as_std_bytes tg l h' v' = Some bs' -> bs = bs'.
Proof. exact C70_same_glsl_same_bytes_proof. Qed.
Print Assumptions C70_same_glsl_same_bytes.

(** C71.  The std140 and the std430 bytes of a type are the same for every value if and only
    if the two layouts put every scalar component at the same place and have the same size. *)
Theorem C71_layouts_coincide : forall tg h t1 t2 g,
  target_ok tg = true -> out_ty tg L140 h = Some t1 -> out_ty tg L430 h = Some t2 -> gty_of h = Some g -> plain h = true ->
  ((forall v bs1 bs2, hval_ok tg h v = true -> as_std_bytes tg L140 h v = Some bs1 -> as_std_bytes tg L430 h v = Some bs2 -> bs1 = bs2)
   <-> gslots L140 g 0 = gslots L430 g 0 /\ gsize L140 g = gsize L430 g).
Proof. exact C71_layouts_coincide_proof. Qed.
Print Assumptions C71_layouts_coincide.

(** C71.  A condition that can be read off the declaration: if every matrix column and every
    structure in the type (the type itself included) has an std430 base alignment that is a
    multiple of 16, both layouts give the same bytes. *)
Theorem C71_vec4_aligned : forall tg h g v bs1 bs2,
  target_ok tg = true -> gty_of h = Some g -> plain h = true -> vec4_aligned g = true -> hval_ok tg h v = true ->
  as_std_bytes tg L140 h v = Some bs1 -> as_std_bytes tg L430 h v = Some bs2 -> bs1 = bs2.
Proof. exact C71_vec4_aligned_proof. Qed.
Print Assumptions C71_vec4_aligned.

(** C71.  For a struct all of whose members satisfy that condition (a struct without nested
    structs and without [mat2], for instance) the std140 bytes are the std430 bytes followed
    by fewer than 16 zero bytes. *)
Theorem C71_flat_struct : forall tg n fs gs v bs1 bs2,
  target_ok tg = true -> gty_of (HStruct n fs) = Some (GStruct n gs) -> plain (HStruct n fs) = true ->
  forallb (fun nf => vec4_aligned (snd nf)) gs = true -> hval_ok tg (HStruct n fs) v = true ->
  as_std_bytes tg L140 (HStruct n fs) v = Some bs1 -> as_std_bytes tg L430 (HStruct n fs) v = Some bs2 ->
  exists k, (k < 16)%nat /\ bs1 = (bs2 ++ repeat x00 k)%list.
Proof. exact C71_flat_struct_proof. Qed.
Print Assumptions C71_flat_struct.

Example C70_ex :
  exists t t' g bs, out_ty x86_64 L140 point_light = Some t /\ out_ty x86_64 L140 glam_light = Some t'
    /\ gty_of point_light = Some g /\ gty_of glam_light = Some g /\ plain point_light = true /\ plain glam_light = true
    /\ hval_ok x86_64 point_light light1 = true /\ hval_ok x86_64 glam_light glam_light1 = true
    /\ gval_of x86_64 point_light light1 = gval_of x86_64 glam_light glam_light1
    /\ as_std_bytes x86_64 L140 point_light light1 = Some bs /\ as_std_bytes x86_64 L140 glam_light glam_light1 = Some bs
    /\ len bs = 32
    /\ match gval_of x86_64 point_light light1 with
       | Some x => match gplaces x86_64 L140 g x 0 with
                   | Some ps => map fst ps = [0; 4; 8; 16; 20; 24; 28] /\ nth_error ps 0 = Some (0, [x00; x00; x80; x3f])
                   | None => False end
       | None => False end.
Proof. exact C70_ex_proof. Qed.

Example C71_ex :
  (exists t1 t2 g, out_ty x86_64 L140 point_light = Some t1 /\ out_ty x86_64 L430 point_light = Some t2
     /\ gty_of point_light = Some g /\ plain point_light = true /\ vec4_aligned g = true
     /\ gslots L140 g 0 = gslots L430 g 0 /\ gsize L140 g = gsize L430 g)
  /\ (exists gs, gty_of flat_s = Some (GStruct "Flat" gs) /\ plain flat_s = true
     /\ forallb (fun nf => vec4_aligned (snd nf)) gs = true /\ vec4_aligned (GStruct "Flat" gs) = false
     /\ exists b1 b2, as_std_bytes x86_64 L140 flat_s (HVRec [("a", v2 1 2); ("b", bits 3)]) = Some b1
        /\ as_std_bytes x86_64 L430 flat_s (HVRec [("a", v2 1 2); ("b", bits 3)]) = Some b2 /\ b1 = b2 /\ len b1 = 16)
  /\ (exists gs b1 b2, gty_of foo_s = Some (GStruct "Foo" gs) /\ forallb (fun nf => vec4_aligned (snd nf)) gs = true
        /\ as_std_bytes x86_64 L140 foo_s (HVRec [("x", bits 3)]) = Some b1
        /\ as_std_bytes x86_64 L430 foo_s (HVRec [("x", bits 3)]) = Some b2 /\ len b1 = 16 /\ len b2 = 4)
  /\ (exists g, gty_of mat2f = Some g /\ vec4_aligned g = false /\ gslots L140 g 0 = [(0,4);(4,4);(16,4);(20,4)]
        /\ gslots L430 g 0 = [(0,4);(4,4);(8,4);(12,4)]).
Proof. exact C71_ex_proof. Qed.
