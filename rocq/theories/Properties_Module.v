(** * Property theorems (generated from Proofs_Module.v by tools/genprops.py; statements only) *)

From Coq Require Import NArith String Bool List.
From Verif Require Import Proofs_Module Rust Internal Prims Derive Host
  RustFacts DeriveFacts Proofs_Types.
Import ListNotations.
Local Open Scope string_scope.
Local Open Scope N_scope.


(** C35.  A module declares the structs [users]; [ds] are the derives on them, with their
    fields.  The generated structs live in the same module, so it compiles only if all type
    names are distinct; they are exactly if no user struct is itself called [Std140X] or
    [Std430X] for a struct [X] deriving that layout. *)
Theorem C35_module_types : forall users ds fields gs,
  NoDup users -> NoDup ds -> (forall l n, In (l, n) ds -> In n users) ->
  map_opt (fun d => emit (fst d) (DeriveInput (snd d) [] (DNamed (fields d)))) ds = Some gs ->
  (NoDup (users ++ map g_name gs)%list <->
   forall l n, In (l, n) ds -> ~ In ((match l with L140 => "Std140" | L430 => "Std430" end) ++ n) users).
Proof. exact C35_module_types_proof. Qed.
Print Assumptions C35_module_types.

(** C35.  The padding functions of all derives of a module never clash with each other. *)
Theorem C35_module_functions : forall ds fields gs,
  NoDup ds ->
  map_opt (fun d => emit (fst d) (DeriveInput (snd d) [] (DNamed (fields d)))) ds = Some gs ->
  NoDup (concat (map (fun g => map fst (g_pads g)) gs)).
Proof. exact C35_module_functions_proof. Qed.
Print Assumptions C35_module_functions.

(** C35.  A clash: a module with the user's own structs [Foo] and [Std140Foo] cannot derive
    [AsStd140] on [Foo]. *)
Theorem C35_user_names_refuted :
  exists g, emit L140 (DeriveInput "Foo" [] (DNamed [("x", TPrim PF32)])) = Some g
    /\ In (g_name g) ["Foo"; "Std140Foo"].
Proof. exact C35_user_names_refuted_proof. Qed.
Print Assumptions C35_user_names_refuted.

(** C35: a module with two structs, one of which derives both layouts. *)
Example C35_module_ex :
  exists gs, map_opt (fun d => emit (fst d) (DeriveInput (snd d) [] (DNamed [("x", TPrim PF32); ("y", TPrim PF32)])))
     [(L140, "Foo"); (L430, "Foo"); (L140, "Std140Bar")] = Some gs
    /\ map g_name gs = ["Std140Foo"; "Std430Foo"; "Std140Std140Bar"]
    /\ concat (map (fun g => map fst (g_pads g)) gs)
       = ["_Foo__Std140Pad0"; "_Foo__Std140Pad1"; "_Foo__Std430Pad0"; "_Foo__Std430Pad1"; "_Std140Bar__Std140Pad0"; "_Std140Bar__Std140Pad1"].
Proof. exact C35_module_ex_proof. Qed.
