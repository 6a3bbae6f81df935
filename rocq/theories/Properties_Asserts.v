(** * Property theorems (generated from Proofs_Asserts.v by tools/genprops.py; statements only) *)

From Coq Require Import NArith String Ascii Bool List Lia ZArith PeanoNat.
From Coq Require Import ZifyBool ZifyN ZifyNat.
From Coq Require Import Strings.Byte.
From Verif Require Import Proofs_Asserts Rust Internal Prims Derive Host Rows GlslGen DebugMetrics SpecGlsl SpecHost SpecTypes SpecNumeral SpecText SpecFields SpecProgram SpecHarness
  Asserts SpecAsserts
  Arith RustFacts DeriveFacts TypeFacts HostFacts GlslFacts NumeralFacts Proofs_Types Proofs_Portable Samples.
Import ListNotations.
Local Open Scope string_scope.
Local Open Scope N_scope.


(** C90.  Which assertions compile: the type is not called [Target], the numbers can be written
    as literals of types [usize] and [i32], the type has a layout version, and all listed fields
    are fields of it. *)
Theorem C90_compiles : forall tg l name h size align fields,
  target_ok tg = true ->
  (assert_std tg l name h size align fields <> None <->
   name <> "Target" /\ Forall (fun n => n < 2 ^ 31 /\ n < 2 ^ t_bits tg) (size :: align :: map snd fields)
   /\ exists t, out_ty tg l h = Some t /\ forall f o, In (f, o) fields -> path_offset tg t [f] <> None).
Proof. exact C90_compiles_proof. Qed.
Print Assumptions C90_compiles.

(** C90.  An assertion that compiles panics unless the size and ALIGNMENT of [Output] and the
    offsets of all listed fields are as asserted; if it does not panic, it prints nothing. *)
Theorem C90_verdict : forall tg l name h t size align fields printed panic,
  target_ok tg = true -> out_ty tg l h = Some t ->
  assert_std tg l name h size align fields = Some (printed, panic) ->
  (panic = None <->
   size_of tg t = size /\ std_align l t = Some align
   /\ forall f o, In (f, o) fields -> exists u, path_offset tg t [f] = Some (o, u))
  /\ (panic = None <-> printed = "")
  /\ (panic = None \/ panic = Some ("Invalid " ++ (match l with L140 => "std140" | L430 => "std430" end) ++ " result for " ++ name)).
Proof. exact C90_verdict_proof. Qed.
Print Assumptions C90_verdict.

(** C90.  For a type that is a GLSL type: the assertion passes exactly if it states the size, base
    alignment and offsets of the GLSL rules; the printed report, read line by line, is the list of
    the numbers that are wrong, in order, with the right ones. *)
Theorem C90_glsl : forall tg l name h t g size align fields,
  target_ok tg = true -> out_ty tg l h = Some t -> gty_of h = Some g ->
  rust_name_text name = true -> name <> "Target" ->
  Forall (fun n => n < 2 ^ 31 /\ n < 2 ^ t_bits tg) (size :: align :: map snd fields) ->
  (forall f o, In (f, o) fields -> rust_name_text f = true /\ gpath_offset l g [f] <> None) ->
  exists printed panic, assert_std tg l name h size align fields = Some (printed, panic)
    /\ read_report l printed = Some (wrong_numbers l g name size align fields)
    /\ (panic = None <->
        size = gsize l g /\ align = base_align l g
        /\ forall f o, In (f, o) fields -> exists g', gpath_offset l g [f] = Some (o, g')).
Proof. exact C90_glsl_proof. Qed.
Print Assumptions C90_glsl.

(** C90.  What is printed and whether it panics does not depend on the target (where it compiles). *)
Theorem C90_portable : forall tg1 tg2 l name h size align fields r1 r2,
  target_ok tg1 = true -> target_ok tg2 = true ->
  assert_std tg1 l name h size align fields = Some r1 -> assert_std tg2 l name h size align fields = Some r2 -> r1 = r2.
Proof. exact C90_portable_proof. Qed.
Print Assumptions C90_portable.

Theorem C90_field_types_refuted :
  (forall l name size align fields, assert_std x86_64 l name two_ab size align fields = assert_std x86_64 l name two_ba size align fields)
  /\ (forall l, exists g g', gty_of two_ab = Some g /\ gty_of two_ba = Some g' /\ gpath_offset l g ["a"] = Some (0, GScalar GFloat)
       /\ gpath_offset l g' ["a"] = Some (0, GScalar GUint)).
Proof. exact C90_field_types_refuted_proof. Qed.
Print Assumptions C90_field_types_refuted.

(** An assertion of the crate's tests, and the same with two wrong numbers. *)
Example C90_ex :
  assert_std x86_64 L140 "Mat3Padding" mat3_padding 64 16 [("one", 0); ("two", 48)] = Some ("", None)
  /\ assert_std x86_64 L140 "Mat3Padding" mat3_padding 52 16 [("one", 0); ("two", 36)]
     = Some ("Invalid size for std140 struct Mat3Padding
Expected: 52
Actual:   64

Invalid offset for field two
Expected: 36
Actual:   48

", Some "Invalid std140 result for Mat3Padding")
  /\ (exists g, gty_of mat3_padding = Some g
        /\ wrong_numbers L140 g "Mat3Padding" 52 16 [("one", 0); ("two", 36)]
           = [Finding (SizeOf "Mat3Padding") 52 64; Finding (OffsetOf "two") 36 48])
  /\ assert_std x86_64 L430 "Mat2" mat2f 16 8 [("x", 0); ("y", 8)] = Some ("", None)
  /\ assert_std x86_64 L430 "Mat2" mat2f 16 8 [("z", 16)] = None
  /\ assert_std x86_64 L430 "Target" mat2f 16 8 [] = None.
Proof. exact C90_ex_proof. Qed.
