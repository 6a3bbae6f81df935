(** * Property theorems (generated from Proofs_PrimTokens.v by tools/genprops.py; statements only) *)

From Coq Require Import NArith String Bool List Lia ZArith PeanoNat.
From Coq Require Import ZifyBool ZifyN ZifyNat.
From Verif Require Import Proofs_PrimTokens Rust Internal Prims Derive GlslGen Tokens SpecTokens PrimTokens SpecPrimTokens.
Import ListNotations.
Local Open Scope string_scope.


(** C94.  Whatever a row of [vectors!] is, its expansion, read as Rust, is a [repr(C)] struct with the row's name, fields of
    the row's primitive, the row's alignment and GLSL name. *)
Theorem C94_vector : forall l doc r rest,
  read_builtin l (vector_toks l doc r ++ rest)%list
    = Some (Builtin (vr_name r) (map (fun f => (f, WPrim (vr_prim r))) (vr_fields r)) (vr_align r) (vr_glsl r), rest).
Proof. exact C94_vector_proof. Qed.
Print Assumptions C94_vector.

(** C94.  The same for [matrices!]; a vector is not named like a primitive. *)
Theorem C94_matrix : forall l doc r rest, Forall (fun f => match snd f with MVec n => known n = None | _ => True end) (mr_fields r) ->
  read_builtin l (matrix_toks l doc r ++ rest)%list
    = Some (Builtin (mr_name r)
              (map (fun f => (fst f, match snd f with MVec n => WName n | MPrim p => WPrim p | MArr p n => WArr p n end)) (mr_fields r))
              (mr_align r) (mr_glsl r), rest).
Proof. exact C94_matrix_proof. Qed.
Print Assumptions C94_matrix.

(** C94.  So what both invocations add to the module, read as Rust, is a list of types in which every name means the type, with
    its fields and alignment, and the GLSL name, from which all other properties start; other names mean nothing. *)
Theorem C94_module : forall l doc, exists bs,
  let ts := module_toks l doc (vectors l) (matrices l) in
  read_module l (length ts) ts = Some bs /\ length bs = 21%nat
  /\ forall n, builtin_type l bs 2 n = find_std l n /\ builtin_glsl bs n = std_glsl_name l n.
Proof. exact C94_module_proof. Qed.
Print Assumptions C94_module.

Example C94_ex :
  (exists r, nth_error (matrices L140) 0 = Some r /\ Forall (fun f => match snd f with MVec n => known n = None | _ => True end) (mr_fields r))
  /\ option_map fst (read_builtin L140 (matrix_toks L140 "d" (MatRow 16 "mat2" "Mat2" [("x", MVec "Vec2"); ("_pad_x", MArr PF32 2)])))
     = Some (Builtin "Mat2" [("x", WName "Vec2"); ("_pad_x", WArr PF32 2)] 16 "mat2")
  (* the expansion for the other layout is not accepted *)
  /\ read_builtin L430 (matrix_toks L140 "d" (MatRow 16 "mat2" "Mat2" [("x", MVec "Vec2")])) = None
  /\ find_std L140 "Vec5" = None.
Proof. exact C94_ex_proof. Qed.
