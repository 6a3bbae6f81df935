(** * Property theorems (generated from Proofs_Portable.v by tools/genprops.py; statements only) *)

From Coq Require Import NArith String Bool List Lia ZArith.
From Coq Require Import ZifyBool ZifyN ZifyNat.
From Coq Require Import Strings.Byte.
From Verif Require Import Proofs_Portable Rust Internal Prims Derive Host Rows SpecBuf SpecGlsl SpecHost SpecTypes
  Arith RustFacts DeriveFacts TypeFacts HostFacts GlslFacts PadFacts Samples Proofs_Types.
Import ListNotations.
Local Open Scope string_scope.
Local Open Scope N_scope.


(** C50.  Size, ALIGNMENT and every (nested) field offset of [Output] are the same on all
    targets. *)
Theorem C50_layout_portable : forall tg1 tg2 l h t1 t2,
  target_ok tg1 = true -> target_ok tg2 = true ->
  out_ty tg1 l h = Some t1 -> out_ty tg2 l h = Some t2 ->
  std_size_static tg1 l h = std_size_static tg2 l h
  /\ out_align tg1 l h = out_align tg2 l h
  /\ field_offsets tg1 t1 = field_offsets tg2 t2
  /\ (forall path, path_offset tg1 t1 path = path_offset tg2 t2 path).
Proof. exact C50_layout_portable_proof. Qed.
Print Assumptions C50_layout_portable.

(** C50.  A type that has a layout version on one target has one on every target on which
    types may be at least as large; the build mode does not matter. *)
Theorem C50_acceptance_portable : forall tg1 tg2 l h t1,
  target_ok tg1 = true -> target_ok tg2 = true -> t_obj tg1 <= t_obj tg2 ->
  out_ty tg1 l h = Some t1 -> exists t2, out_ty tg2 l h = Some t2.
Proof. exact C50_acceptance_portable_proof. Qed.
Print Assumptions C50_acceptance_portable.

(** C50.  Targets of the same endianness produce the same bytes, and bytes produced on one
    are read back as the same value on the other. *)
Theorem C50_bytes_portable : forall tg1 tg2 l h t1 t2 v,
  target_ok tg1 = true -> target_ok tg2 = true -> t_big tg1 = t_big tg2 ->
  out_ty tg1 l h = Some t1 -> out_ty tg2 l h = Some t2 -> hval_ok tg1 h v = true ->
  exists bs s, as_std_bytes tg1 l h v = Some bs /\ as_std_bytes tg2 l h v = Some bs
    /\ from_bytes tg2 t2 bs = Some s /\ from_std tg2 l h s = Some v.
Proof. exact C50_bytes_portable_proof. Qed.
Print Assumptions C50_bytes_portable.

(** C50.  Without the assumption on endianness this is false: a big-endian host produces bytes
    a little-endian reader (every common GPU) misreads. *)
Theorem C50_endianness_matters_refuted :
  ~ (forall tg1 tg2 l h t1 t2 v bs1 bs2,
       target_ok tg1 = true -> target_ok tg2 = true ->
       out_ty tg1 l h = Some t1 -> out_ty tg2 l h = Some t2 -> hval_ok tg1 h v = true ->
       as_std_bytes tg1 l h v = Some bs1 -> as_std_bytes tg2 l h v = Some bs2 -> bs1 = bs2).
Proof. exact C50_endianness_matters_refuted_proof. Qed.
Print Assumptions C50_endianness_matters_refuted.

(** [C50]: four targets; on i686 and avr an [f64] has a smaller Rust alignment. *)
Example C50_ex :
  (forall tg, In tg [x86_64; i686; i686_release; avr_release] ->
     target_ok tg = true /\ t_big tg = t_big x86_64 /\ hval_ok tg scene scene1 = true
     /\ (exists t, out_ty tg L140 scene = Some t /\ size_of tg t = 160)
     /\ as_std_bytes tg L140 scene scene1 = as_std_bytes x86_64 L140 scene scene1)
  /\ palign x86_64 PF64 = 8 /\ palign i686 PF64 = 4 /\ palign avr_release PF64 = 1.
Proof. exact C50_ex_proof. Qed.
