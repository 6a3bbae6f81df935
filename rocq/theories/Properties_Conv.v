(** * Property theorems (generated from Proofs_Conv.v by tools/genprops.py; statements only) *)

From Coq Require Import NArith String Bool List Lia ZArith PeanoNat.
From Coq Require Import ZifyBool ZifyN ZifyNat.
From Coq Require Import Strings.Byte.
From Verif Require Import Proofs_Conv Rust Internal Prims Derive Host Rows Buffer SpecGlsl SpecHost SpecTypes SpecBuf SpecUse SpecGpu SpecConv
  Arith RustFacts DeriveFacts TypeFacts HostFacts GlslFacts PadFacts BufferFacts Proofs_Types Proofs_Use GpuFacts Proofs_Gpu Samples.
Import ListNotations.
Local Open Scope string_scope.
Local Open Scope N_scope.


(** C75.  A value some parts of which have already been converted (a field of type [Output]
    instead of the host type, say) can be used in place of the original: same [Output] type,
    same bytes, same offsets from a [Sizer], same effect on any [Writer], same GLSL value.
    [writer.write(&x)] and [writer.write_std140(&x.as_std140())] are the same operation. *)
Theorem C75_interchangeable : forall W tg l (wi : write_impl W) h v h' v' t,
  target_ok tg = true -> out_ty tg l h = Some t -> hval_ok tg h v = true -> converted tg l h v h' v' ->
  out_ty tg l h' = Some t /\ hval_ok tg h' v' = true
  /\ as_std_bytes tg l h' v' = as_std_bytes tg l h v
  /\ (forall s, sizer_add tg l h' s = sizer_add tg l h s)
  /\ (forall w, writer_write tg l wi w (WLeaf h' v') = writer_write tg l wi w (WLeaf h v))
  /\ (forall s, as_std tg l h v = Some s -> forall w, write_std tg l wi t s w = writer_write tg l wi w (WLeaf h v))
  /\ (forall g, gty_of h = Some g -> gty_of h' = Some g /\ gval_of tg h' v' = gval_of tg h v).
Proof. exact C75_interchangeable_proof. Qed.
Print Assumptions C75_interchangeable.

(** C75.  Outputs of the two layouts cannot be confused: an [Output] of one layout is accepted
    where the other layout is required only if it is a scalar. *)
Theorem C75_layouts_do_not_mix : forall tg l l' h t,
  target_ok tg = true -> l <> l' -> out_ty tg l' h = Some t ->
  (out_ty tg l (HOut l' h) = Some t <-> exists p, t = TPrim p)
  /\ (out_ty tg l (HOut l' h) = None <-> forall p, t <> TPrim p).
Proof. exact C75_layouts_do_not_mix_proof. Qed.
Print Assumptions C75_layouts_do_not_mix.

(** C75: [Scene]-like struct with the nested light given as its [Output], and the whole as its
    [Output]; a [Std430] vector in a std140 struct is rejected, a scalar is not. *)
Example C75_ex :
  exists s s2 t,
    as_std x86_64 L140 point_light light1 = Some s
    /\ converted x86_64 L140 (HStruct "S" [("n", HPrim PU32); ("p", point_light)]) (HVRec [("n", bits 7); ("p", light1)])
                             (HStruct "S" [("n", HPrim PU32); ("p", HOut L140 point_light)]) (HVRec [("n", bits 7); ("p", HVOut s)])
    /\ out_ty x86_64 L140 (HStruct "S" [("n", HPrim PU32); ("p", point_light)]) = Some t
    /\ hval_ok x86_64 (HStruct "S" [("n", HPrim PU32); ("p", point_light)]) (HVRec [("n", bits 7); ("p", light1)]) = true
    /\ size_of x86_64 t = 48
    /\ converted x86_64 L140 (HStruct "S" [("n", HPrim PU32); ("p", point_light)]) (HVRec [("n", bits 7); ("p", light1)])
         (HOut L140 (HStruct "S" [("n", HPrim PU32); ("p", HOut L140 point_light)])) (HVOut s2)
    /\ out_ty x86_64 L140 (HStruct "T" [("v", HOut L430 vec3f)]) = None
    /\ (exists u, out_ty x86_64 L430 vec3f = Some u /\ forall p, u <> TPrim p)
    /\ (exists u, out_ty x86_64 L140 (HStruct "T" [("v", HOut L430 (HPrim PF32))]) = Some u).
Proof. exact C75_ex_proof. Qed.
