(** * Property theorems (generated from Proofs_Text.v by tools/genprops.py; statements only) *)

From Coq Require Import PeanoNat NArith String Ascii Bool List Lia.
From Verif Require Import Proofs_Text Rust Internal Prims Derive Host Rows GlslGen SpecGlsl SpecHost SpecTypes SpecText SpecFields
  RustFacts TypeFacts HostFacts Samples.
Import ListNotations.
Local Open Scope string_scope.


(** C29.  [glsl_definition] reads back as exactly one structure declaration, with the
    struct's name and its fields in order with their type names, if and only if all the
    names are valid and there is at least one field.  (Fields whose type does not
    implement [Glsl] make the derive a compile error.) *)
Theorem C29_definition_denotes_struct : forall name ngen fields inst tys g,
  glsl_emit (GlslInput name ngen (LNamed fields)) = Some g ->
  field_types inst fields tys ->
  exists text, glsl_definition inst g = Some text
  /\ (parse text = Some [(ident_to_string name, combine tys (map (fun f => ident_to_string (fst f)) fields))] <->
      is_identifier (ident_to_string name) = true /\ fields <> []
      /\ Forall (fun ty => is_type_word ty = true) tys
      /\ Forall (fun f => is_identifier (ident_to_string (fst f)) = true) fields).
Proof. exact C29_definition_denotes_struct_proof. Qed.
Print Assumptions C29_definition_denotes_struct.

(** C29.  The definition is never read as something else: for any Rust identifiers (raw
    or not ASCII ones included) and type names made of such, if the text is accepted at
    all then it declares exactly that struct. *)
Theorem C29_never_misread : forall name ngen fields inst tys g text ds,
  glsl_emit (GlslInput name ngen (LNamed fields)) = Some g ->
  field_types inst fields tys ->
  rust_ident_text (ident_to_string name) = true ->
  Forall (fun ty => rust_ident_text ty = true) tys ->
  Forall (fun f => rust_ident_text (ident_to_string (fst f)) = true) fields ->
  glsl_definition inst g = Some text -> parse text = Some ds ->
  ds = [(ident_to_string name, combine tys (map (fun f => ident_to_string (fst f)) fields))].
Proof. exact C29_never_misread_proof. Qed.
Print Assumptions C29_never_misread.

(** C42.  The name emitted for an ASCII identifier is a valid GLSL identifier exactly
    when it is not written as a raw identifier, is not a GLSL keyword and does not start
    with [gl_]. *)
Theorem C42_valid_names : forall i, is_word (id_name i) = true ->
  (is_identifier (ident_to_string i) = true <->
   id_raw i = false /\ is_keyword (id_name i) = false /\ String.prefix "gl_" (id_name i) = false).
Proof. exact C42_valid_names_proof. Qed.
Print Assumptions C42_valid_names.

(** C42.  "Every name is a valid GLSL identifier" is false: structs rustc accepts whose
    generated definition is not a GLSL declaration: a raw identifier, an identifier that
    GLSL reserves, and a struct without fields. *)
Theorem C42_always_valid_refuted :
  (exists g text, glsl_emit (GlslInput (Ident false "S") 0 (LNamed [(Ident true "type", FNamed "float")])) = Some g
     /\ glsl_definition [] g = Some text /\ parse text = None)
  /\ (exists g text, glsl_emit (GlslInput (Ident false "S") 0 (LNamed [(Ident false "sample", FNamed "float")])) = Some g
     /\ glsl_definition [] g = Some text /\ parse text = None)
  /\ (exists g text, glsl_emit (GlslInput (Ident false "S") 0 (LNamed [])) = Some g
     /\ glsl_definition [] g = Some text /\ parse text = None).
Proof. exact C42_always_valid_refuted_proof. Qed.
Print Assumptions C42_always_valid_refuted.

(** C29.  A raw identifier makes every definition it occurs in invalid. *)
Theorem C42_raw_identifier_refuted : forall name ngen fields inst tys g text f,
  glsl_emit (GlslInput name ngen (LNamed fields)) = Some g ->
  field_types inst fields tys ->
  rust_ident_text (ident_to_string name) = true ->
  Forall (fun ty => rust_ident_text ty = true) tys ->
  Forall (fun f => rust_ident_text (ident_to_string (fst f)) = true) fields ->
  glsl_definition inst g = Some text -> In f fields -> id_raw (fst f) = true -> parse text = None.
Proof. exact C42_raw_identifier_refuted_proof. Qed.
Print Assumptions C42_raw_identifier_refuted.

(** C30.  Let [hs] be structs that derive [GlslStruct] (listed so that each comes after the
    structs its fields use, with valid and distinct names).  The concatenation of their
    [glsl_definition]s is a GLSL program, and in it the [NAME] of each of them denotes
    the GLSL type whose layouts crevice uses for it ([gty_of]; see C15-C17, C23). *)
Theorem C30_program_denotes_types : forall hs texts gs,
  forallb is_struct hs = true -> in_order [] hs -> NoDup (map struct_ident hs) ->
  (forall h, In h hs -> is_identifier (struct_ident h) = true /\ NoDup (map fst (struct_members h))
     /\ forall f, In f (map fst (struct_members h)) -> is_identifier f = true) ->
  map_opt struct_glsl hs = Some texts -> map_opt gty_of hs = Some gs ->
  exists ds e, parse (program texts) = Some ds /\ length ds = length hs /\ elaborate [] ds = Some e
    /\ map_opt (fun h => match glsl_name h with Some n => denotes e n | None => None end) hs = Some gs.
Proof. exact C30_program_denotes_types_proof. Qed.
Print Assumptions C30_program_denotes_types.

(** C30.  Every supported math type, and every built-in layout type, has a NAME, and the
    NAME is that of the GLSL built-in type of the same shape, the same in both layouts. *)
Theorem C30_builtin_names :
  (forall name g, In (name, g) math_names ->
     exists h n, In (Some h) all_math_types /\ rust_name h = name /\ glsl_name h = Some n /\ assoc n builtin_types = Some g)
  /\ (forall l name g, In (name, g) std_names -> exists n, std_glsl_name l name = Some n /\ assoc n builtin_types = Some g)
  /\ (forall h n g, gty_of h = Some g -> glsl_name h = Some n -> struct_used h = None -> assoc n builtin_types = Some g).
Proof. exact C30_builtin_names_proof. Qed.
Print Assumptions C30_builtin_names.

(** C30.  "All GLSL primitives, like [int] or [vec3], implement the [Glsl] trait"
    (documentation of the [glsl] module): every scalar, vector and square matrix type is the
    NAME of a Rust type, except [bool], which is the NAME of none that has a layout; so a
    struct with a [bool] field cannot derive [GlslStruct]. *)
Theorem C30_which_names_exist :
  (forall n g, In (n, g) builtin_types -> n <> "bool" ->
     match g with GMat _ c r => c = r | _ => True end ->
     exists h n', gty_of h = Some g /\ glsl_name h = Some n' /\ assoc n' builtin_types = Some g)
  /\ (forall h n, glsl_name h = Some n -> gty_of h <> Some (GScalar GBool))
  /\ glsl_name HBool = None /\ glsl_name (HPrim PBool) = None
  /\ (forall name fs f, In (f, HBool) fs -> glsl_name (HStruct name fs) = None /\ struct_glsl (HStruct name fs) = None).
Proof. exact C30_which_names_exist_proof. Qed.
Print Assumptions C30_which_names_exist.

Theorem C30_types_without_name : forall tg l h t,
  out_ty tg l h = Some t -> (glsl_name h = None <-> lacks_name h = true).
Proof. exact C30_types_without_name_proof. Qed.
Print Assumptions C30_types_without_name.

Example C30_ex_without_name :
  lacks_name scene = true /\ glsl_name scene = None /\ lacks_name main_uniform = false /\ glsl_name main_uniform = Some "MainUniform"
  /\ glsl_name (HStruct "S" [("d", HDyn vec3f)]) = None /\ glsl_name (HStruct "S" [("m", HOut L430 mat3f)]) = Some "S".
Proof. exact C30_ex_without_name_proof. Qed.

(** C30.  For generic structs a NAME does not determine the type: the instances of one
    generic struct have the same NAME and different definitions, so a program that uses
    two of them is ambiguous. *)
Theorem C30_generic_names_refuted :
  exists g i1 i2 t1 t2,
    glsl_emit (GlslInput (Ident false "Pair") 1 (LNamed [(Ident false "a", FParam 0); (Ident false "b", FParam 0)])) = Some g
    /\ glsl_definition i1 g = Some t1 /\ glsl_definition i2 g = Some t2
    /\ (exists m1 m2, parse t1 = Some [(gl_name g, m1)] /\ parse t2 = Some [(gl_name g, m2)] /\ m1 <> m2)
    /\ (exists ds, parse (program [t1; t2]) = Some ds /\ elaborate [] ds = None).
Proof. exact C30_generic_names_refuted_proof. Qed.
Print Assumptions C30_generic_names_refuted.

(** C29.  The derive rejects everything but structs with named fields. *)
Theorem C29_rejected_inputs : forall input,
  glsl_emit input = None <-> forall fs, gi_data input <> LNamed fs.
Proof. exact C29_rejected_inputs_proof. Qed.
Print Assumptions C29_rejected_inputs.

(** the snapshot test of the crate (/repo/tests/test.rs, tests/snapshots) *)
Example C29_ex :
  exists g, glsl_emit (GlslInput (Ident false "TestGlsl") 0
     (LNamed [(Ident false "foo", FNamed "vec3"); (Ident false "bar", FNamed "mat2")])) = Some g
  /\ glsl_definition [] g = Some ("struct TestGlsl {" ++ nl ++ tab ++ "vec3 foo;" ++ nl ++ tab ++ "mat2 bar;" ++ nl ++ "};")
  /\ parse ("struct TestGlsl {" ++ nl ++ tab ++ "vec3 foo;" ++ nl ++ tab ++ "mat2 bar;" ++ nl ++ "};")
     = Some [("TestGlsl", [("vec3", "foo"); ("mat2", "bar")])]
  (* the parser accepts GLSL that crevice never writes, and rejects malformed text *)
  /\ parse "struct A{float x,y;mat2 m;};struct B{A a;};" = Some [("A", [("float", "x"); ("float", "y"); ("mat2", "m")]); ("B", [("A", "a")])]
  /\ parse "struct A { float x }; " = None /\ parse "struct float { int x; };" = None.
Proof. exact C29_ex_proof. Qed.

Example C30_ex :
  forallb is_struct [point_light; shadowed] = true /\ in_order [] [point_light; shadowed]
  /\ NoDup (map struct_ident [point_light; shadowed])
  /\ (exists texts gs ds e, map_opt struct_glsl [point_light; shadowed] = Some texts
        /\ map_opt gty_of [point_light; shadowed] = Some gs
        /\ parse (program texts) = Some ds /\ elaborate [] ds = Some e
        /\ map_opt (denotes e) ["PointLight"; "Shadowed"] = Some gs).
Proof. exact C30_ex_proof. Qed.

(** C42: an ordinary field name, a GLSL keyword that is a legal Rust identifier, a raw one. *)
Example C42_ex :
  is_word "sampler_index" = true /\ is_identifier (ident_to_string (Ident false "sampler_index")) = true
  /\ is_word "sampler2D" = true /\ is_identifier (ident_to_string (Ident false "sampler2D")) = false
  /\ ident_to_string (Ident true "type") = "r#type" /\ is_identifier "r#type" = false
  /\ is_identifier (ident_to_string (Ident false "gl_Position")) = false.
Proof. exact C42_ex_proof. Qed.
