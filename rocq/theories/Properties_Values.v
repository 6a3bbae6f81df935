(** * Property theorems (generated from Proofs_Values.v by tools/genprops.py; statements only) *)

From Coq Require Import NArith String Bool List Lia ZArith PeanoNat.
From Coq Require Import ZifyBool ZifyN ZifyNat.
From Coq Require Import Strings.Byte.
From Verif Require Import Proofs_Values Rust Internal Prims Derive Host Rows Buffer SpecGlsl SpecHost SpecTypes SpecBuf SpecUse SpecGpu SpecBytes SpecValues
  Arith RustFacts DeriveFacts TypeFacts HostFacts GlslFacts PadFacts Proofs_Types Proofs_Use GpuFacts Proofs_Gpu Proofs_Bytes Samples.
Import ListNotations.
Local Open Scope string_scope.
Local Open Scope N_scope.


(** C72.  The values of a Rust type and the values of its GLSL type correspond one to one:
    every Rust value stands for a GLSL value of the type, and every GLSL value of the type
    is stood for by exactly one Rust value. *)
Theorem C72_one_to_one : forall tg l h t g,
  target_ok tg = true -> out_ty tg l h = Some t -> gty_of h = Some g -> plain h = true ->
  (forall v, hval_ok tg h v = true -> exists x, gval_of tg h v = Some x /\ gval_has g x)
  /\ (forall x, gval_has g x -> exists! v, hval_ok tg h v = true /\ gval_of tg h v = Some x).
Proof. exact C72_one_to_one_proof. Qed.
Print Assumptions C72_one_to_one.

(** C72.  So a byte string is [v.as_stdN().as_bytes()] for some Rust value [v] if and only if
    it is the image of some GLSL value of the type, and every such value has exactly one
    image. *)
Theorem C72_which_bytes : forall tg l h t g,
  target_ok tg = true -> out_ty tg l h = Some t -> gty_of h = Some g -> plain h = true ->
  (forall bs, (exists v, hval_ok tg h v = true /\ as_std_bytes tg l h v = Some bs)
              <-> (exists x, gval_has g x /\ glsl_image tg l g x bs))
  /\ (forall x, gval_has g x -> exists! bs, glsl_image tg l g x bs).
Proof. exact C72_which_bytes_proof. Qed.
Print Assumptions C72_which_bytes.

(** C72.  Whatever a shader stores into a block, the host reads a Rust value with exactly that
    meaning; writing it back gives a block in which the shader reads the same value again. *)
Theorem C72_any_shader_value : forall tg l h t g x off buf buf',
  target_ok tg = true -> out_ty tg l h = Some t -> gty_of h = Some g -> plain h = true ->
  off + gsize l g <= len buf -> gval_has g x -> stored tg l g x off buf buf' ->
  exists v bs, host_reads tg l h buf' off v /\ gval_of tg h v = Some x
    /\ (forall v', host_reads tg l h buf' off v' -> v' = v)
    /\ as_std_bytes tg l h v = Some bs /\ gread tg l g bs 0 = Some x.
Proof. exact C72_any_shader_value_proof. Qed.
Print Assumptions C72_any_shader_value.

(** a GLSL value of [struct ContainsBools { bool x; bvec2 y; }] and the Rust value for it; a
    word other than 0 or 1 is read as [true] and written back as 1 *)
Example C72_ex :
  exists t g, out_ty x86_64 L430 contains_bools = Some t /\ gty_of contains_bools = Some g /\ plain contains_bools = true
    /\ gval_has g (GVStruct [("x", GVBool true); ("y", GVVec [GVBool false; GVBool true])])
    /\ gval_of x86_64 contains_bools (HVRec [("x", HVBool true); ("y", HVRec [("x", HVBool false); ("y", HVBool true)])])
       = Some (GVStruct [("x", GVBool true); ("y", GVVec [GVBool false; GVBool true])])
    /\ as_std_bytes x86_64 L430 contains_bools (HVRec [("x", HVBool true); ("y", HVRec [("x", HVBool false); ("y", HVBool true)])])
       = Some [x01;x00;x00;x00; x00;x00;x00;x00; x00;x00;x00;x00; x01;x00;x00;x00]
    /\ stored x86_64 L430 g (GVStruct [("x", GVBool true); ("y", GVVec [GVBool false; GVBool true])]) 0 (repeat x00 16)
         [xff;x00;x00;x00; x00;x00;x00;x00; x00;x00;x00;x00; x00;x02;x00;x00]
    /\ ~ gval_has g (GVStruct [("x", GVBool true); ("y", GVVec [GVBool false])])
    /\ ~ gval_has (GScalar GUint) (GVBits (2 ^ 32)).
Proof. exact C72_ex_proof. Qed.
