(** * Specification vocabulary for the GPU test harness *)

From Coq Require Import NArith String Ascii Bool List.
From Coq Require Import Strings.Byte.
From Verif Require Import Rust Host GlslGen SpecGlsl SpecHost SpecTypes SpecText SpecProgram.
Import ListNotations.
Local Open Scope string_scope.

(** The text of a Rust identifier, possibly raw: letters, digits, [_] and bytes of characters
    outside ASCII, not starting with a digit. *)
Definition non_ascii (c : ascii) : bool := N.leb 128 (N_of_ascii c).
Definition rust_name_text (s : string) : bool :=
  match match after "r#" s with Some b => b | None => s end with
  | "" => false
  | String c r => (is_nondigit c || non_ascii c) && all_chars (fun x => word_char x || non_ascii x) r
  end.

(** the word for a layout in a [layout(...)] qualifier *)
Definition layout_qualifier (l : lay) : string := match l with L140 => "std140" | L430 => "std430" end.

(** the two blocks of the harness, whose only member has type [ty] *)
Definition harness_blocks (l : lay) (ty : string) : list item :=
  [ IBlock (Block [(layout_qualifier l, None); ("set", Some "0"); ("binding", Some "0")] true "INPUT" [(ty, "in_data")]);
    IBlock (Block [(layout_qualifier l, None); ("set", Some "0"); ("binding", Some "1")] false "OUTPUT" [(ty, "out_data")]) ].

(** What the shader for a struct should be: the structure declaration, an input and an output
    block of that type with the layout asked for, and a [main] that copies every member. *)
Definition struct_program (l : lay) (name : string) (members : list (string * string)) : list item :=
  (IStruct (name, members) :: harness_blocks l name
   ++ [IMain (map (fun m => (["out_data"; snd m], ["in_data"; snd m])) members)])%list.
(** for a type that is not a struct: a single assignment *)
Definition primitive_program (l : lay) (ty : string) : list item :=
  (harness_blocks l ty ++ [IMain [(["out_data"], ["in_data"])]])%list.

(** global names of the harness *)
Definition reserved_names : list string := ["INPUT"; "OUTPUT"; "in_data"; "out_data"; "main"].

(** A GPU that does what the shader says: a text that does not compile is reported (the harness
    panics); otherwise the result is the contents of the buffer with binding 1 after some execution
    that starts with the given bytes in the buffer with binding 0 and anything, of the same length,
    in the buffer with binding 1.  A device may only fail on a program that can get stuck. *)
Definition behaves (tg : target) (dev : string -> list byte -> option (list byte)) (text : string) : Prop :=
  forall data,
  match compile text with
  | None => dev text data = None
  | Some (sc, body) =>
    (forall out, dev text data = Some out ->
       exists m m', m "0" = data /\ len (m "1") = len data /\ runs tg sc body m m' /\ out = m' "1")
    /\ ((forall m, m "0" = data -> len (m "1") = len data -> exists m', runs tg sc body m m') ->
        dev text data <> None)
  end.

(** The names in a Rust struct: identifiers; the structs its fields use are not named like a GLSL
    built-in type (say [vec3]). *)
Definition proper_names (h : hty) : Prop :=
  rust_name_text (struct_ident h) = true
  /\ (forall f, In f (map fst (struct_members h)) -> rust_name_text f = true)
  /\ (forall f hf u, In (f, hf) (struct_members h) -> struct_used hf = Some u ->
        rust_name_text (struct_ident u) = true /\ assoc (struct_ident u) builtin_types = None).

(** the GLSL name of every field's type, and the field's name; [None] if a type has no GLSL name *)
Definition named_members (fs : list (string * hty)) : option (list (string * string)) :=
  map_opt (fun nf => match glsl_name (snd nf) with Some n => Some (n, fst nf) | None => None end) fs.

(** Structs whose harness shader compiles: names GLSL accepts and the harness does not use itself,
    and no field that is a struct (its declaration is not in the shader). *)
Definition harness_fits (h : hty) : Prop :=
  is_identifier (struct_ident h) = true /\ ~ In (struct_ident h) reserved_names
  /\ (forall f, In f (map fst (struct_members h)) -> is_identifier f = true)
  /\ NoDup (map fst (struct_members h))
  /\ (forall f hf, In (f, hf) (struct_members h) -> struct_used hf = None).

(** What a round trip has to show, of any device whatever: given the shader and the bytes of [v], it
    returns a buffer of the size of the GLSL type, and the GLSL value in it is that of a Rust value that
    is equal to [v]. *)
Definition returns_equal (tg : target) (l : lay) (dev : string -> list byte -> option (list byte)) (eq : hval -> hval -> bool)
  (h : hty) (g : gty) (text : string) (v : hval) (data : list byte) : Prop :=
  exists out w X, dev text data = Some out /\ len out = gsize l g /\ gread tg l g out 0 = Some X
    /\ hval_ok tg h w = true /\ gval_of tg h w = Some X /\ eq v w = true.
