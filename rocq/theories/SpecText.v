(** * Specification: GLSL structure declarations as text

    Lexical structure, grammar and meaning of the part of GLSL that structure
    declarations use (The OpenGL Shading Language 4.60, sections 3.1, 3.6, 3.7, 4.1,
    4.1.8 and chapter 9).  Independent of crevice. *)

From Coq Require Import NArith String Ascii Bool List.
From Verif Require Import Rust SpecGlsl.
Import ListNotations.
Local Open Scope string_scope.

(** ** Characters and words *)
Definition in_range (c lo hi : ascii) : bool :=
  Nat.leb (nat_of_ascii lo) (nat_of_ascii c) && Nat.leb (nat_of_ascii c) (nat_of_ascii hi).
Definition is_digit (c : ascii) : bool := in_range c "0" "9".
Definition is_nondigit (c : ascii) : bool :=
  in_range c "a" "z" || in_range c "A" "Z" || Ascii.eqb c "_".
Definition word_char (c : ascii) : bool := is_nondigit c || is_digit c.
Definition is_space (c : ascii) : bool :=
  existsb (Nat.eqb (nat_of_ascii c)) [32; 9; 10; 11; 12; 13]%nat.
Definition is_punct (c : ascii) : bool :=
  existsb (Ascii.eqb c) ["{"; "}"; ";"; ","]%char.

(** A word: a letter or underscore followed by letters, digits, underscores. *)
Fixpoint all_chars (p : ascii -> bool) (s : string) : bool :=
  match s with "" => true | String c r => p c && all_chars p r end.
Definition is_word (s : string) : bool :=
  match s with "" => false | String c r => is_nondigit c && all_chars word_char r end.

(** ** Keywords (section 3.6): in use, then reserved for future use *)
Definition keywords : list string := [
  "const"; "uniform"; "buffer"; "shared"; "attribute"; "varying";
  "coherent"; "volatile"; "restrict"; "readonly"; "writeonly"; "atomic_uint"; "layout";
  "centroid"; "flat"; "smooth"; "noperspective"; "patch"; "sample"; "invariant"; "precise";
  "break"; "continue"; "do"; "for"; "while"; "switch"; "case"; "default"; "if"; "else";
  "subroutine"; "in"; "out"; "inout"; "int"; "void"; "bool"; "true"; "false"; "float"; "double";
  "discard"; "return"; "vec2"; "vec3"; "vec4"; "ivec2"; "ivec3"; "ivec4"; "bvec2"; "bvec3"; "bvec4";
  "uint"; "uvec2"; "uvec3"; "uvec4"; "dvec2"; "dvec3"; "dvec4";
  "mat2"; "mat3"; "mat4"; "mat2x2"; "mat2x3"; "mat2x4"; "mat3x2"; "mat3x3"; "mat3x4";
  "mat4x2"; "mat4x3"; "mat4x4";
  "dmat2"; "dmat3"; "dmat4"; "dmat2x2"; "dmat2x3"; "dmat2x4"; "dmat3x2"; "dmat3x3"; "dmat3x4";
  "dmat4x2"; "dmat4x3"; "dmat4x4"; "lowp"; "mediump"; "highp"; "precision";
  "sampler1D"; "sampler1DShadow"; "sampler1DArray"; "sampler1DArrayShadow";
  "isampler1D"; "isampler1DArray"; "usampler1D"; "usampler1DArray";
  "sampler2D"; "sampler2DShadow"; "sampler2DArray"; "sampler2DArrayShadow";
  "isampler2D"; "isampler2DArray"; "usampler2D"; "usampler2DArray";
  "sampler2DRect"; "sampler2DRectShadow"; "isampler2DRect"; "usampler2DRect";
  "sampler2DMS"; "isampler2DMS"; "usampler2DMS"; "sampler2DMSArray"; "isampler2DMSArray"; "usampler2DMSArray";
  "sampler3D"; "isampler3D"; "usampler3D";
  "samplerCube"; "samplerCubeShadow"; "isamplerCube"; "usamplerCube";
  "samplerCubeArray"; "samplerCubeArrayShadow"; "isamplerCubeArray"; "usamplerCubeArray";
  "samplerBuffer"; "isamplerBuffer"; "usamplerBuffer";
  "image1D"; "iimage1D"; "uimage1D"; "image1DArray"; "iimage1DArray"; "uimage1DArray";
  "image2D"; "iimage2D"; "uimage2D"; "image2DArray"; "iimage2DArray"; "uimage2DArray";
  "image2DRect"; "iimage2DRect"; "uimage2DRect"; "image2DMS"; "iimage2DMS"; "uimage2DMS";
  "image2DMSArray"; "iimage2DMSArray"; "uimage2DMSArray"; "image3D"; "iimage3D"; "uimage3D";
  "imageCube"; "iimageCube"; "uimageCube"; "imageCubeArray"; "iimageCubeArray"; "uimageCubeArray";
  "imageBuffer"; "iimageBuffer"; "uimageBuffer"; "struct";
  "common"; "partition"; "active"; "asm"; "class"; "union"; "enum"; "typedef"; "template"; "this";
  "resource"; "goto"; "inline"; "noinline"; "public"; "static"; "extern"; "external"; "interface";
  "long"; "short"; "half"; "fixed"; "unsigned"; "superp"; "input"; "output";
  "hvec2"; "hvec3"; "hvec4"; "fvec2"; "fvec3"; "fvec4"; "filter"; "sizeof"; "cast";
  "namespace"; "using"; "sampler3DRect" ].
Definition is_keyword (s : string) : bool := existsb (String.eqb s) keywords.

(** Identifiers a shader may declare (section 3.7): words that are not keywords and do
    not start with [gl_]. *)
Definition is_identifier (s : string) : bool :=
  is_word s && negb (is_keyword s) && negb (String.prefix "gl_" s).

(** ** Built-in transparent types (section 4.1) *)
Definition builtin_types : list (string * gty) := [
  ("float", GScalar GFloat); ("double", GScalar GDouble); ("int", GScalar GInt);
  ("uint", GScalar GUint); ("bool", GScalar GBool);
  ("vec2", GVec GFloat 2); ("vec3", GVec GFloat 3); ("vec4", GVec GFloat 4);
  ("dvec2", GVec GDouble 2); ("dvec3", GVec GDouble 3); ("dvec4", GVec GDouble 4);
  ("ivec2", GVec GInt 2); ("ivec3", GVec GInt 3); ("ivec4", GVec GInt 4);
  ("uvec2", GVec GUint 2); ("uvec3", GVec GUint 3); ("uvec4", GVec GUint 4);
  ("bvec2", GVec GBool 2); ("bvec3", GVec GBool 3); ("bvec4", GVec GBool 4);
  ("mat2", GMat GFloat 2 2); ("mat3", GMat GFloat 3 3); ("mat4", GMat GFloat 4 4);
  ("mat2x2", GMat GFloat 2 2); ("mat2x3", GMat GFloat 2 3); ("mat2x4", GMat GFloat 2 4);
  ("mat3x2", GMat GFloat 3 2); ("mat3x3", GMat GFloat 3 3); ("mat3x4", GMat GFloat 3 4);
  ("mat4x2", GMat GFloat 4 2); ("mat4x3", GMat GFloat 4 3); ("mat4x4", GMat GFloat 4 4);
  ("dmat2", GMat GDouble 2 2); ("dmat3", GMat GDouble 3 3); ("dmat4", GMat GDouble 4 4);
  ("dmat2x2", GMat GDouble 2 2); ("dmat2x3", GMat GDouble 2 3); ("dmat2x4", GMat GDouble 2 4);
  ("dmat3x2", GMat GDouble 3 2); ("dmat3x3", GMat GDouble 3 3); ("dmat3x4", GMat GDouble 3 4);
  ("dmat4x2", GMat GDouble 4 2); ("dmat4x3", GMat GDouble 4 3); ("dmat4x4", GMat GDouble 4 4) ].

(** words that may stand where a type is expected *)
Definition is_type_word (s : string) : bool :=
  is_identifier s || existsb (String.eqb s) (map fst builtin_types).

(** ** Tokens *)
Inductive token := TWord (w : string) | TPunct (c : ascii).

(** the word read so far ([""]: none) becomes a token *)
Definition flush (cur : string) : option (list token) :=
  match cur with
  | "" => Some []
  | _ => if is_word cur then Some [TWord cur] else None
  end.

Fixpoint lex_from (s cur : string) : option (list token) :=
  match s with
  | "" => flush cur
  | String c r =>
    if word_char c then lex_from r (cur ++ String c "")
    else match flush cur, lex_from r "" with
         | Some ts, Some us =>
           if is_space c then Some (ts ++ us)%list
           else if is_punct c then Some (ts ++ TPunct c :: us)%list
           else None
         | _, _ => None
         end
  end.
Definition lex (s : string) : option (list token) := lex_from s "".

(** ** Grammar: a sequence of declarations
    [struct NAME { TYPE NAME , NAME ... ; ... } ;] with at least one member *)

(** a structure declaration: name and members (type word, member name) *)
Definition sdecl : Type := string * list (string * string).

Inductive pstate :=
| PTop                                                    (* between declarations *)
| PStruct                                                 (* after [struct] *)
| PName (n : string)                                      (* after the name *)
| PMembers (n : string) (ms : list (string * string))     (* a member or [}] *)
| PType (n : string) (ms : list (string * string)) (ty : string)        (* a member name *)
| PMember (n : string) (ms : list (string * string)) (ty : string)      (* [,] or [;] *)
| PClose (n : string) (ms : list (string * string)).                    (* the final [;] *)

Definition pstep (st : pstate) (t : token) : option (pstate * list sdecl) :=
  match st, t with
  | PTop, TWord w => if String.eqb w "struct" then Some (PStruct, []) else None
  | PStruct, TWord w => if is_identifier w then Some (PName w, []) else None
  | PName n, TPunct c => if Ascii.eqb c "{" then Some (PMembers n [], []) else None
  | PMembers n ms, TWord w => if is_type_word w then Some (PType n ms w, []) else None
  | PMembers n ms, TPunct c =>
    match ms with
    | [] => None
    | _ => if Ascii.eqb c "}" then Some (PClose n ms, []) else None
    end
  | PType n ms ty, TWord w =>
    if is_identifier w then Some (PMember n (ms ++ [(ty, w)])%list ty, []) else None
  | PMember n ms ty, TPunct c =>
    if Ascii.eqb c ";" then Some (PMembers n ms, [])
    else if Ascii.eqb c "," then Some (PType n ms ty, []) else None
  | PClose n ms, TPunct c => if Ascii.eqb c ";" then Some (PTop, [(n, ms)]) else None
  | _, _ => None
  end.

Fixpoint parse_tokens (st : pstate) (ts : list token) : option (list sdecl) :=
  match ts with
  | [] => match st with PTop => Some [] | _ => None end
  | t :: r =>
    match pstep st t with
    | Some (st', out) =>
      match parse_tokens st' r with Some ds => Some (out ++ ds)%list | None => None end
    | None => None
    end
  end.

Definition parse (s : string) : option (list sdecl) :=
  match lex s with Some ts => parse_tokens PTop ts | None => None end.

(** ** Meaning: the types the declarations introduce *)

Definition env : Type := list (string * gty).

(** a type word denotes a built-in type, or the structure declared with that name *)
Definition denotes (e : env) (w : string) : option gty :=
  match assoc w builtin_types with Some g => Some g | None => assoc w e end.

(** member names of a structure are distinct, a structure name is declared once, and
    member types are declared before *)
Definition declare (e : env) (d : sdecl) : option env :=
  let (n, ms) := d in
  if nodupb (map snd ms) && negb (existsb (String.eqb n) (map fst e)) then
    match map_opt (fun m => match denotes e (fst m) with
                            | Some g => Some (snd m, g) | None => None end) ms with
    | Some fs => Some (e ++ [(n, GStruct n fs)])%list
    | None => None
    end
  else None.

Fixpoint elaborate (e : env) (ds : list sdecl) : option env :=
  match ds with
  | [] => Some e
  | d :: r => match declare e d with Some e' => elaborate e' r | None => None end
  end.

(** A shader that starts with the given texts, one after another. *)
Definition newline : string := String (ascii_of_nat 10) "".
Fixpoint program (texts : list string) : string :=
  match texts with [] => "" | t :: r => t ++ newline ++ program r end.

(** What is known about the text of any Rust identifier (possibly raw, possibly not
    ASCII): it is not empty and contains no white space and no punctuation GLSL uses in
    structure declarations. *)
Definition rust_ident_text (s : string) : bool :=
  negb (String.eqb s "") && all_chars (fun c => negb (is_space c) && negb (is_punct c)) s.
