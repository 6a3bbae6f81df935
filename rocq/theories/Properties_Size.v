(** * Property theorems (generated from Proofs_Size.v by tools/genprops.py; statements only) *)

From Coq Require Import NArith String Bool List Lia ZArith.
From Coq Require Import ZifyBool ZifyN ZifyNat.
From Coq Require Import Strings.Byte.
From Verif Require Import Proofs_Size Rust RustFacts Internal Prims Derive Host Buffer Samples.
From Verif Require Import SpecBuf SpecGlsl SpecHost SpecSize Arith DeriveFacts TypeFacts HostFacts GlslFacts BufferFacts WriterFacts GpuFacts Proofs_Buffer Proofs_RowMajor Proofs_Vulkan.
Import ListNotations.
Local Open Scope string_scope.
Local Open Scope N_scope.


Theorem C83_size_bounds : forall tg l h t g a,
  target_ok tg = true -> out_ty tg l h = Some t -> gty_of h = Some g -> std_align l t = Some a ->
  data_size g <= size_of tg t <= a * components g.
Proof. exact C83_size_bounds_proof. Qed.
Print Assumptions C83_size_bounds.

Theorem C83_sequence_bounds : forall tg l hs gs os s,
  target_ok tg = true -> map_opt gty_of hs = Some gs ->
  sizer_run tg l hs sizer_new = Some (Done (os, s)) ->
  let bound := largest (map (base_align l) gs) * sum (map components gs) in
  (t_checks tg = true \/ bound < umod tg) ->
  sum (map data_size gs) <= sizer_len s <= bound.
Proof. exact C83_sequence_bounds_proof. Qed.
Print Assumptions C83_sequence_bounds.

(** the bounds are reached *)
Example C83_ex :
  (exists t g, out_ty x86_64 L140 (HStruct "S" [("x", HPrim PF32)]) = Some t
     /\ gty_of (HStruct "S" [("x", HPrim PF32)]) = Some g /\ std_align L140 t = Some 16
     /\ size_of x86_64 t = 16 /\ components g = 1 /\ data_size g = 4)
  /\ (exists t g, out_ty x86_64 L430 point_light = Some t /\ gty_of point_light = Some g
     /\ std_align L430 t = Some 16 /\ size_of x86_64 t = 32 /\ components g = 7 /\ data_size g = 28)
  /\ (exists gs os s, map_opt gty_of [HPrim PU32; point_light; HBool; vec3f] = Some gs
     /\ sizer_run x86_64 L140 [HPrim PU32; point_light; HBool; vec3f] sizer_new = Some (Done (os, s))
     /\ sizer_len s = 76 /\ sum (map data_size gs) = 48 /\ largest (map (base_align L140) gs) = 16 /\ sum (map components gs) = 12).
Proof. exact C83_ex_proof. Qed.
