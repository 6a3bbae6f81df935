(** * Specification: small GLSL compute shaders as text, and what they do

    Lexical structure, grammar, static checks and execution of the part of GLSL that consists of
    structure declarations, buffer blocks with a layout, and a [main] made of assignments
    (The OpenGL Shading Language 4.60, chapters 3 and 4 and sections 5.5, 5.8, 7.6).
    Independent of crevice.  A fragment: a GLSL compiler accepts more texts. *)

From Coq Require Import NArith String Ascii Bool List.
From Coq Require Import Strings.Byte.
From Verif Require Import Rust SpecGlsl SpecHost SpecTypes SpecText SpecGpu.
Import ListNotations.
Local Open Scope string_scope.

(** ** Tokens: words, decimal numbers, punctuation *)
Inductive stok := SW (w : string) | SN (digits : string) | SP (c : ascii).

Definition prog_punct (c : ascii) : bool :=
  existsb (Ascii.eqb c) ["{"; "}"; ";"; ","; "("; ")"; "="; "."]%char.

Definition sflush (cur : string) : option (list stok) :=
  match cur with
  | "" => Some []
  | _ => if is_word cur then Some [SW cur] else if all_chars is_digit cur then Some [SN cur] else None
  end.
Fixpoint slex_from (s cur : string) : option (list stok) :=
  match s with
  | "" => sflush cur
  | String c r =>
    if word_char c then slex_from r (cur ++ String c "")
    else match sflush cur, slex_from r "" with
         | Some ts, Some us =>
           if is_space c then Some (ts ++ us)%list
           else if prog_punct c then Some (ts ++ SP c :: us)%list
           else None
         | _, _ => None
         end
  end.

(** the text after a given first line *)
Fixpoint after (p s : string) : option string :=
  match p, s with
  | "", _ => Some s
  | String a p', String b s' => if Ascii.eqb a b then after p' s' else None
  | _, _ => None
  end.
(** [#version 450] (section 3.3), then tokens *)
Definition slex (s : string) : option (list stok) :=
  match after ("#version 450" ++ newline) s with Some r => slex_from r "" | None => None end.

(** ** Grammar *)

(** a buffer block: layout qualifiers, [readonly], block name, members (type, name) *)
Record block := Block {
  bl_quals : list (string * option string);
  bl_readonly : bool;
  bl_name : string;
  bl_members : list (string * string)
}.

Inductive item :=
| IStruct (d : sdecl)
| IBlock (b : block)
| IMain (body : list (list string * list string)).   (* p = q; *)

Inductive sstate :=
| GTop
| GStructDecl (st : pstate)                                                   (* inside a structure declaration *)
| GLayout                                                                     (* after [layout] *)
| GQual (qs : list (string * option string))                                  (* a qualifier *)
| GQualName (qs : list (string * option string)) (w : string)                 (* [=], [,] or [)] *)
| GQualEq (qs : list (string * option string)) (w : string)                   (* a number *)
| GQualEnd (qs : list (string * option string))                               (* [,] or [)] *)
| GStorage (qs : list (string * option string)) (ro : bool)                   (* [readonly] or [buffer] *)
| GBlockName (qs : list (string * option string)) (ro : bool)
| GBlockOpen (b : block)                                                      (* [{] *)
| GBlockMember (b : block)                                                    (* a type or [}] *)
| GBlockType (b : block) (ty : string)                                        (* a member name *)
| GBlockSemi (b : block)                                                      (* [;] *)
| GBlockEnd (b : block)                                                       (* [;] *)
| GVoid | GMain | GMain1 | GMain2                                             (* [main], [(], [)], [{] *)
| GBody (ss : list (list string * list string))                               (* a statement or [}] *)
| GLeft (ss : list (list string * list string)) (p : list string)             (* [.] or [=] *)
| GLeftDot (ss : list (list string * list string)) (p : list string)          (* a member *)
| GEq (ss : list (list string * list string)) (p : list string)               (* a variable *)
| GRight (ss : list (list string * list string)) (p q : list string)          (* [.] or [;] *)
| GRightDot (ss : list (list string * list string)) (p q : list string).      (* a member *)

Definition is_c (c : ascii) (d : ascii) : bool := Ascii.eqb c d.

Definition sstep (st : sstate) (t : stok) : option (sstate * list item) :=
  match st, t with
  | GTop, SW w =>
    if String.eqb w "layout" then Some (GLayout, [])
    else if String.eqb w "void" then Some (GVoid, [])
    else if String.eqb w "struct" then Some (GStructDecl PStruct, [])
    else None
  | GStructDecl st, SW w =>
    match pstep st (TWord w) with Some (st', ds) => Some (GStructDecl st', map IStruct ds) | None => None end
  | GStructDecl st, SP c =>
    match pstep st (TPunct c) with
    | Some (PTop, ds) => Some (GTop, map IStruct ds)
    | Some (st', ds) => Some (GStructDecl st', map IStruct ds)
    | None => None
    end
  | GLayout, SP c => if is_c c "(" then Some (GQual [], []) else None
  | GQual qs, SW w => Some (GQualName qs w, [])
  | GQualName qs w, SP c =>
    if is_c c "=" then Some (GQualEq qs w, [])
    else if is_c c "," then Some (GQual (qs ++ [(w, None)])%list, [])
    else if is_c c ")" then Some (GStorage (qs ++ [(w, None)])%list false, []) else None
  | GQualEq qs w, SN n => Some (GQualEnd (qs ++ [(w, Some n)])%list, [])
  | GQualEnd qs, SP c =>
    if is_c c "," then Some (GQual qs, []) else if is_c c ")" then Some (GStorage qs false, []) else None
  | GStorage qs ro, SW w =>
    if String.eqb w "readonly" then Some (GStorage qs true, [])
    else if String.eqb w "buffer" then Some (GBlockName qs ro, []) else None
  | GBlockName qs ro, SW w => if is_identifier w then Some (GBlockOpen (Block qs ro w []), []) else None
  | GBlockOpen b, SP c => if is_c c "{" then Some (GBlockMember b, []) else None
  | GBlockMember b, SW w => if is_type_word w then Some (GBlockType b w, []) else None
  | GBlockMember b, SP c => match bl_members b with [] => None | _ => if is_c c "}" then Some (GBlockEnd b, []) else None end
  | GBlockType b ty, SW w =>
    if is_identifier w then Some (GBlockSemi (Block (bl_quals b) (bl_readonly b) (bl_name b) (bl_members b ++ [(ty, w)])%list), []) else None
  | GBlockSemi b, SP c => if is_c c ";" then Some (GBlockMember b, []) else None
  | GBlockEnd b, SP c => if is_c c ";" then Some (GTop, [IBlock b]) else None
  | GVoid, SW w => if String.eqb w "main" then Some (GMain, []) else None
  | GMain, SP c => if is_c c "(" then Some (GMain1, []) else None
  | GMain1, SP c => if is_c c ")" then Some (GMain2, []) else None
  | GMain2, SP c => if is_c c "{" then Some (GBody [], []) else None
  | GBody ss, SW w => if is_identifier w then Some (GLeft ss [w], []) else None
  | GBody ss, SP c => if is_c c "}" then Some (GTop, [IMain ss]) else None
  | GLeft ss p, SP c => if is_c c "." then Some (GLeftDot ss p, []) else if is_c c "=" then Some (GEq ss p, []) else None
  | GLeftDot ss p, SW w => if is_identifier w then Some (GLeft ss (p ++ [w])%list, []) else None
  | GEq ss p, SW w => if is_identifier w then Some (GRight ss p [w], []) else None
  | GRight ss p q, SP c =>
    if is_c c "." then Some (GRightDot ss p q, []) else if is_c c ";" then Some (GBody (ss ++ [(p, q)])%list, []) else None
  | GRightDot ss p q, SW w => if is_identifier w then Some (GRight ss p (q ++ [w])%list, []) else None
  | _, _ => None
  end.

Fixpoint sparse_tokens (st : sstate) (ts : list stok) : option (list item) :=
  match ts with
  | [] => match st with GTop => Some [] | _ => None end
  | t :: r =>
    match sstep st t with
    | Some (st', out) => match sparse_tokens st' r with Some is => Some (out ++ is)%list | None => None end
    | None => None
    end
  end.
Definition sparse (s : string) : option (list item) :=
  match slex s with Some ts => sparse_tokens GTop ts | None => None end.

(** ** Static checks *)

(** where the members of a block are *)
Record bvar := BVar { bv_binding : string; bv_layout : lay; bv_readonly : bool; bv_members : list (string * gty) }.
(** types, global variables (members of blocks without an instance name), all global names *)
Record scope := Scope { sc_types : env; sc_vars : list (string * bvar); sc_names : list string }.

(** the place a path denotes: its block, its byte offset there and its type *)
Definition place (sc : scope) (p : list string) : option (bvar * N * gty) :=
  match p with
  | [] => None
  | x :: _ =>
    match assoc x (sc_vars sc) with
    | Some b => match gpath_offset (bv_layout b) (GStruct "" (bv_members b)) p with
                | Some (o, g) => Some (b, o, g) | None => None end
    | None => None
    end
  end.

Fixpoint sgty_eqb (a b : gty) {struct a} : bool :=
  match a, b with
  | GScalar s, GScalar t => gscalar_eqb s t
  | GVec s n, GVec t m => gscalar_eqb s t && Nat.eqb n m
  | GMat s c r, GMat t d q => gscalar_eqb s t && Nat.eqb c d && Nat.eqb r q
  | GArr e n, GArr f m => sgty_eqb e f && Nat.eqb n m
  | GStruct n _, GStruct m _ => String.eqb n m
  | _, _ => false
  end.

Definition well_typed (sc : scope) (s : list string * list string) : bool :=
  match place sc (fst s), place sc (snd s) with
  | Some (b, _, g), Some (_, _, g') => negb (bv_readonly b) && sgty_eqb g g'
  | _, _ => false
  end.

Definition layout_named (qs : list (string * option string)) : option lay :=
  match assoc "std140" qs, assoc "std430" qs with
  | Some None, None => Some L140
  | None, Some None => Some L430
  | _, _ => None
  end.

Definition fresh (sc : scope) (ns : list string) : bool :=
  nodupb ns && forallb (fun n => negb (existsb (String.eqb n) (sc_names sc))) ns.

Definition check (sc : scope) (it : item) : option scope :=
  match it with
  | IStruct d =>
    if fresh sc [fst d] then
      match declare (sc_types sc) d with
      | Some e => Some (Scope e (sc_vars sc) (fst d :: sc_names sc))
      | None => None
      end
    else None
  | IBlock b =>
    let ns := bl_name b :: map snd (bl_members b) in
    match fresh sc ns, layout_named (bl_quals b), assoc "set" (bl_quals b), assoc "binding" (bl_quals b),
          map_opt (fun m => match denotes (sc_types sc) (fst m) with Some g => Some (snd m, g) | None => None end) (bl_members b) with
    | true, Some l, Some (Some "0"), Some (Some k), Some ms =>
      if existsb (fun v => String.eqb k (bv_binding (snd v))) (sc_vars sc) then None
      else let v := BVar k l (bl_readonly b) ms in
           Some (Scope (sc_types sc) (sc_vars sc ++ map (fun m => (fst m, v)) ms)%list (ns ++ sc_names sc)%list)
    | _, _, _, _, _ => None
    end
  | IMain body =>
    if fresh sc ["main"] && forallb (well_typed sc) body
    then Some (Scope (sc_types sc) (sc_vars sc) ("main" :: sc_names sc)) else None
  end.

Fixpoint check_all (sc : scope) (its : list item) : option scope :=
  match its with
  | [] => Some sc
  | it :: r => match check sc it with Some sc' => check_all sc' r | None => None end
  end.

(** a compiled shader: its variables, and the body of [main] *)
Definition compile (s : string) : option (scope * list (list string * list string)) :=
  match sparse s with
  | Some its =>
    match check_all (Scope [] [] []) its, flat_map (fun it => match it with IMain b => [b] | _ => [] end) its with
    | Some sc, [body] => Some (sc, body)
    | _, _ => None
    end
  | None => None
  end.

(** ** Execution: one invocation; the memory gives every binding of set 0 its buffer *)
Definition memory : Type := string -> list byte.

Inductive runs (tg : target) (sc : scope) : list (list string * list string) -> memory -> memory -> Prop :=
| runs_done m : runs tg sc [] m m
| runs_assign p q ss bp op bq oq g x buf m m1 m' :
    place sc p = Some (bp, op, g) -> place sc q = Some (bq, oq, g) ->
    gread tg (bv_layout bq) g (m (bv_binding bq)) oq = Some x ->
    stored tg (bv_layout bp) g x op (m (bv_binding bp)) buf ->
    m1 (bv_binding bp) = buf -> (forall k, k <> bv_binding bp -> m1 k = m k) ->
    runs tg sc ss m1 m' ->
    runs tg sc ((p, q) :: ss) m m'.
