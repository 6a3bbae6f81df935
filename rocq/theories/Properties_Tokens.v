(** * Property theorems (generated from Proofs_Tokens.v by tools/genprops.py; statements only) *)

From Coq Require Import NArith String Bool List Lia ZArith PeanoNat.
From Coq Require Import ZifyBool ZifyN ZifyNat.
From Verif Require Import Proofs_Tokens Rust Internal Prims Derive GlslGen Tokens SpecTokens SpecTypes RustFacts DeriveFacts.
Import ListNotations.
Local Open Scope string_scope.
Local Open Scope N_scope.


(** C92.  The macro generates code for exactly the structs with named fields, generic or not. *)
Theorem C92_emits : forall l input, emit_toks l input <> None <-> exists fields, ti_data input = Tokens.TNamed fields.
Proof. exact C92_emits_proof. Qed.
Print Assumptions C92_emits.

(** C92.  The generated tokens, read as Rust, are the padding functions, the struct, the impls and the conversions of
    Derive.v, from which every other theorem starts; identifiers written with [r#], a visibility and a where clause
    make no difference. *)
Theorem C92_code : forall l R input fields fs ts,
  plain_struct input -> ti_data input = Tokens.TNamed fields ->
  Forall2 (fun f nt => fst nt = id_name (fst f) /\ balanced 0 (snd f) = true /\ R (snd f) = Some (snd nt)) fields fs ->
  emit_toks l input = Some ts ->
  exists g, emit l (DeriveInput (id_name (ti_ident input)) [] (DNamed fs)) = Some g
    /\ read_code l R ts = Some (id_name (ti_ident input), g)
    /\ forall tg, compile tg l g = derive_output tg l (id_name (ti_ident input)) fs.
Proof. exact C92_code_proof. Qed.
Print Assumptions C92_code.

(** C92.  What [debug_definitions] prints declares the same struct and the same functions. *)
Theorem C92_definitions : forall l R input fields fs ts,
  plain_struct input -> ti_data input = Tokens.TNamed fields ->
  Forall2 (fun f nt => fst nt = id_name (fst f) /\ balanced 0 (snd f) = true /\ R (snd f) = Some (snd nt)) fields fs ->
  debug_definitions l input = Some ts ->
  exists g, emit l (DeriveInput (id_name (ti_ident input)) [] (DNamed fs)) = Some g
    /\ read_definitions l R ts = Some (g_pads g, g_name g, g_fields g).
Proof. exact C92_definitions_proof. Qed.
Print Assumptions C92_definitions.

Example C92_ex :
  plain_struct raw_input
  /\ Forall2 (fun f nt => fst nt = id_name (fst f) /\ balanced 0 (snd f) = true /\ raw_types (snd f) = Some (snd nt))
       [(Ident true "type", proj); (Ident false "w", same64)] [("type", TPrim PF32); ("w", TPrim PF64)]
  /\ (Nat.ltb 100 (length (raw_ts L140)) = true
        /\ option_map fst (read_code L140 raw_types (raw_ts L140)) = Some "fn"
        /\ option_map (fun r => map fst (g_pads (snd r))) (read_code L140 raw_types (raw_ts L140)) = Some ["_fn__Std140Pad0"; "_fn__Std140Pad1"]
        /\ option_map (fun r => map fst (g_fields (snd r))) (read_code L140 raw_types (raw_ts L140)) = Some ["type"; "_pad0"; "w"; "_pad1"])
  /\ read_definitions L430 raw_types (raw_defs L430) = Some
       ([("_fn__Std430Pad0", CAlignOffset (CAdd (CLit 0) (CSizeOf (TPrim PF32))) (CAlignOf (TPrim PF64)));
         ("_fn__Std430Pad1",
          CAlignOffset (CAdd (CAdd (CAdd (CLit 0) (CSizeOf (TPrim PF32))) (CCall "_fn__Std430Pad0")) (CSizeOf (TPrim PF64)))
            (CMaxArr [CLit 0; CAlignOf (TPrim PF32); CAlignOf (TPrim PF64)]))],
        "Std430fn",
        [("type", GOut (TPrim PF32)); ("_pad0", GPad (CCall "_fn__Std430Pad0"));
         ("w", GOut (TPrim PF64)); ("_pad1", GPad (CCall "_fn__Std430Pad1"))])
  (* a type such as [T as U] would not be read as one; other data is rejected by the macro *)
  /\ balanced 0 [kw "T"; kw "as"; kw "U"] = false
  /\ emit_toks L140 (TokInput [] (Ident false "E") [] [] [] Tokens.TEnum) = None
  (* tokens that are not the derive's are not accepted *)
  /\ read_code L430 raw_types (raw_ts L140) = None
  /\ read_code L140 raw_types (drop_head (raw_ts L140)) = None.
Proof. exact C92_ex_proof. Qed.
