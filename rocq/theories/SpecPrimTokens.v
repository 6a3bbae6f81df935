(** * Specification: reading the built-in layout types *)

From Coq Require Import NArith String Bool List.
From Verif Require Import Rust Internal Derive GlslGen Tokens SpecTokens.
Import ListNotations.
Local Open Scope string_scope.

Local Notation "'do' X <- A ; B" := (match A with Some X => B | _ => None end) (at level 200, X pattern, A at level 100, B at level 200).

(** Types as written: a name or an array of a primitive *)
Inductive written := WPrim (p : prim) | WName (n : string) | WArr (p : prim) (n : N).
Definition known (s : string) : option prim :=
  if String.eqb s "f32" then Some PF32 else if String.eqb s "f64" then Some PF64
  else if String.eqb s "i32" then Some PI32 else if String.eqb s "u32" then Some PU32
  else if String.eqb s "u8" then Some PU8 else if String.eqb s "Bool" then Some PBool else None.
Definition read_written (ts : list tok) : option (written * list tok) :=
  match ts with
  | TId (Ident false n) :: r => Some (match known n with Some p => WPrim p | None => WName n end, r)
  | TG Brack [TId (Ident false n); TP ";"; TInt k _] :: r => do p <- known n; Some (WArr p k, r)
  | _ => None
  end.

(** [pub f: T, ..] *)
Fixpoint read_pub_fields (fuel : nat) (ts : list tok) : option (list (string * written)) :=
  match ts, fuel with
  | [], _ => Some []
  | _, O => None
  | _, S fuel =>
    do r <- eat "pub" ts;
    match r with
    | TId (Ident false f) :: r =>
      do r <- eat ":" r; do (t, r) <- read_written r; do r <- eat "," r; do fs <- read_pub_fields fuel r; Some ((f, t) :: fs)
    | _ => None
    end
  end.

(** A built-in type: [#[repr(C)]], [Copy], with impls of [Zeroable], [Pod], [StdN] and [Glsl] for itself, its fields,
    its [ALIGNMENT] and its [NAME] *)
Record builtin := Builtin { b_name : string; b_fields : list (string * written); b_align : N; b_glsl : string }.
Definition empty_impl (trait name : string) (ts : list tok) : option (list tok) :=
  do r <- eats ["unsafe"; "impl"; trait; "for"; name] ts;
  match r with TG Brace [] :: r => Some r | _ => None end.
Definition read_builtin (l : lay) (ts : list tok) : option (builtin * list tok) :=
  let (attrs, r) := read_attrs ts in
  if (is_all ["C"] (attr_args "repr" attrs) && has_arg "Clone" (attr_args "derive" attrs) && has_arg "Copy" (attr_args "derive" attrs))%bool then
  do r <- eats ["pub"; "struct"] r;
  match r with
  | TId (Ident false n) :: TG Brace b :: r =>
    do fs <- read_pub_fields (length b) b;
    do r <- empty_impl "Zeroable" n r; do r <- empty_impl "Pod" n r;
    do r <- eats ["unsafe"; "impl"; "Std" ++ number l; "for"; n] r;
    match r with
    | TG Brace b1 :: r =>
      do r <- eats ["unsafe"; "impl"; "Glsl"; "for"; n] r;
      match r with
      | TG Brace b2 :: r =>
        match eats ["const"; "ALIGNMENT"; ":"; "usize"; "="] b1,
              eats ["const"; "NAME"; ":"; "&"; "'"; "static"; "str"; "="; "stringify"; "!"] b2 with
        | Some [TInt a _; TP ";"], Some [TG Paren [TId (Ident false g)]; TP ";"] => Some (Builtin n fs a g, r)
        | _, _ => None
        end
      | _ => None
      end
    | _ => None
    end
  | _ => None
  end
  else None.
Fixpoint read_module (l : lay) (fuel : nat) (ts : list tok) : option (list builtin) :=
  match ts, fuel with
  | [], _ => Some []
  | _, O => None
  | _, S fuel => do (b, r) <- read_builtin l ts; do bs <- read_module l fuel r; Some (b :: bs)
  end.

(** The type with a name in the module.  [steps]: how far names are followed. *)
Fixpoint builtin_type (l : lay) (bs : list builtin) (steps : nat) (n : string) : option sty :=
  match steps with
  | O => None
  | S steps =>
    do b <- find (fun b => String.eqb n (b_name b)) bs;
    do fs <- map_opt (fun f => match snd f with
                              | WPrim p => Some (fst f, TPrim p)
                              | WArr p k => Some (fst f, TArray p k)
                              | WName m => do t <- builtin_type l bs steps m; Some (fst f, t)
                              end) (b_fields b);
    Some (TStruct l (b_name b) (b_align b) fs)
  end.
(** [<Name as Glsl>::NAME] *)
Definition builtin_glsl (bs : list builtin) (n : string) : option string := do b <- find (fun b => String.eqb n (b_name b)) bs; Some (b_glsl b).
