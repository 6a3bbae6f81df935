(** * Property theorems (generated from Proofs_Shader.v by tools/genprops.py; statements only) *)

From Coq Require Import NArith String Ascii Bool List Lia ZArith PeanoNat.
From Coq Require Import ZifyBool ZifyN ZifyNat.
From Coq Require Import Strings.Byte.
From Verif Require Import Proofs_Shader Rust Internal Prims Derive Host Rows Buffer GlslGen SpecGlsl SpecHost SpecTypes SpecText SpecBuf SpecGpu SpecShader
  Arith RustFacts DeriveFacts TypeFacts HostFacts GlslFacts Proofs_Types Proofs_Text Proofs_Gpu Samples.
Import ListNotations.
Local Open Scope string_scope.
Local Open Scope N_scope.


(** C74.  If it compiles, it is right.  Let [hs] be structs deriving [GlslStruct], in any
    order, containing every struct their fields use.  Whenever a GLSL compiler accepts the
    concatenation of their [glsl_definition]s, the [NAME] of each struct denotes exactly the
    GLSL type whose layouts crevice uses for it. *)
Theorem C74_if_it_compiles : forall hs texts gs ds e,
  forallb is_struct hs = true -> uses_closed hs ->
  (forall h, In h hs -> rust_ident_text (struct_ident h) = true
     /\ forall f, In f (map fst (SpecTypes.struct_members h)) -> rust_ident_text f = true) ->
  map_opt struct_glsl hs = Some texts -> map_opt gty_of hs = Some gs ->
  parse (program texts) = Some ds -> elaborate [] ds = Some e ->
  map_opt (fun h => match glsl_name h with Some n => denotes e n | None => None end) hs = Some gs.
Proof. exact C74_if_it_compiles_proof. Qed.
Print Assumptions C74_if_it_compiles.

(** C74.  So, end to end: in a program that a GLSL compiler accepts, a variable declared with
    the [NAME] of a struct has the size crevice says, reads from the bytes of
    [v.as_stdN()] the value [v] stands for, and whatever it holds is what the host reads
    with [from_stdN]. *)
Theorem C74_end_to_end : forall tg l hs texts gs ds e h t n g,
  target_ok tg = true -> forallb is_struct hs = true -> uses_closed hs ->
  (forall h, In h hs -> rust_ident_text (struct_ident h) = true
     /\ forall f, In f (map fst (SpecTypes.struct_members h)) -> rust_ident_text f = true) ->
  map_opt struct_glsl hs = Some texts -> map_opt gty_of hs = Some gs ->
  parse (program texts) = Some ds -> elaborate [] ds = Some e ->
  In h hs -> out_ty tg l h = Some t -> glsl_name h = Some n -> denotes e n = Some g ->
  size_of tg t = gsize l g /\ std_align l t = Some (base_align l g)
  /\ (forall v bs buf off, hval_ok tg h v = true -> as_std_bytes tg l h v = Some bs -> read_at buf off (len bs) = Some bs ->
        exists x, gval_of tg h v = Some x /\ gread tg l g buf off = Some x)
  /\ (forall buf off v, host_reads tg l h buf off v -> exists x, gval_of tg h v = Some x /\ gread tg l g buf off = Some x).
Proof. exact C74_end_to_end_proof. Qed.
Print Assumptions C74_end_to_end.

(** C74: two structs, one using the other, in the order that compiles - the text is accepted,
    the sizes and the value read from the bytes are computed - and in the order that does not;
    and a field whose Rust name is a GLSL keyword makes the text unacceptable. *)
Example C74_ex :
  uses_closed [point_light; shadowed]
  /\ (forall h, In h [point_light; shadowed] -> rust_ident_text (struct_ident h) = true
        /\ forall f, In f (map fst (SpecTypes.struct_members h)) -> rust_ident_text f = true)
  /\ (exists texts gs ds e t g, map_opt struct_glsl [point_light; shadowed] = Some texts
        /\ map_opt gty_of [point_light; shadowed] = Some gs
        /\ parse (program texts) = Some ds /\ elaborate [] ds = Some e
        /\ out_ty x86_64 L140 shadowed = Some t /\ glsl_name shadowed = Some "Shadowed" /\ denotes e "Shadowed" = Some g
        /\ gsize L140 g = size_of x86_64 t)
  /\ (exists texts ds, map_opt struct_glsl [shadowed; point_light] = Some texts
        /\ parse (program texts) = Some ds /\ elaborate [] ds = None)
  /\ (exists text, struct_glsl (HStruct "Bad" [("sampler2D", HPrim PF32)]) = Some text
        /\ rust_ident_text "sampler2D" = true /\ parse (program [text]) = None).
Proof. exact C74_ex_proof. Qed.
