(** * Specification: reading the impls of [Glsl] and [GlslStruct]

    [R] says what a type is for GLSL, given its tokens. *)

From Coq Require Import NArith String Bool List.
From Verif Require Import Rust Derive GlslGen Tokens SpecTokens.
Import ListNotations.
Local Open Scope string_scope.

Local Notation "'do' X <- A ; B" := (match A with Some X => B | _ => None end) (at level 200, X pattern, A at level 100, B at level 200).

(** [< .. >], or nothing *)
Fixpoint to_gt (depth : nat) (ts : list tok) : option (list tok * list tok) :=
  match ts with
  | [] => None
  | t :: r =>
    if is_p "<" t then do (a, b) <- to_gt (S depth) r; Some (t :: a, b)
    else if is_p ">" t then match depth with O => Some ([t], r) | S d => do (a, b) <- to_gt d r; Some (t :: a, b) end
    else do (a, b) <- to_gt depth r; Some (t :: a, b)
  end.
Definition read_generics (ts : list tok) : option (list tok * list tok) :=
  match ts with
  | TP "<" :: r => do (a, b) <- to_gt 0 r; Some (TP "<" :: a, b)
  | _ => Some ([], ts)
  end.

(** [unsafe impl<generics> path for Name<arguments> where .. { body }] *)
Record header := Header { h_generics : list tok; h_name : ident; h_args : list tok; h_where : list tok }.
Definition read_impl (path : list string) (ts : list tok) : option (header * list tok * list tok) :=
  do r <- eats ["unsafe"; "impl"] ts;
  do (h, body, rest) <- to_brace r;
  do (g, r) <- read_generics h;
  do r <- eat_path path r; do r <- eat "for" r;
  match r with
  | TId n :: r =>
    do (a, w) <- read_generics r;
    if is_where w then Some (Header g n a w, body, rest) else None
  | _ => None
  end.

Section Reader.
Variable R : list tok -> option glsl_fty.

(** [::crevice::glsl::GlslField { ty: <T as ::crevice::glsl::Glsl>::NAME, name: ".." }, ..] *)
Fixpoint read_glsl_fields (fuel : nat) (ts : list tok) : option (list (glsl_fty * string)) :=
  match ts, fuel with
  | [], _ => Some []
  | _, O => None
  | _, S fuel =>
    do r <- eat_path ["crevice"; "glsl"; "GlslField"] ts;
    match r with
    | TG Brace b :: r =>
      do b <- eats ["ty"; ":"; "<"] b; do (ty, b) <- to_as 0 b; do t <- R ty;
      do b <- eat_path ["crevice"; "glsl"; "Glsl"] b;
      match eats [">"; "::"; "NAME"; ","; "name"; ":"] b with
      | Some [TStr s; TP ","] => do r <- eat "," r; do fs <- read_glsl_fields fuel r; Some ((t, s) :: fs)
      | _ => None
      end
    | _ => None
    end
  end.

(** Both impls and nothing else: for what they are, and the constants they define. *)
Definition read_glsl (ts : list tok) : option (header * header * glsl_impl) :=
  do (h1, b1, r) <- read_impl ["crevice"; "glsl"; "Glsl"] ts;
  do (h2, b2, r) <- read_impl ["crevice"; "glsl"; "GlslStruct"] r;
  do b2 <- eats ["const"; "FIELDS"; ":"; "&"; "'"; "static"] b2;
  match r, eats ["const"; "NAME"; ":"; "&"; "'"; "static"; "str"; "="] b1, b2 with
  | [], Some [TStr name; TP ";"], [TG Brack ty; TP "="; TP "&"; TG Brack b; TP ";"] =>
    match eat_path ["crevice"; "glsl"; "GlslField"] ty with
    | Some [] => do fs <- read_glsl_fields (length b) b; Some (h1, h2, {| gl_name := name; gl_fields := fs |})
    | _ => None
    end
  | _, _, _ => None
  end.
End Reader.

(** What [split_for_impl] gives: nothing or [< .. >], the inner [<] and [>] in pairs, no braces *)
Definition generics_ok (ts : list tok) : Prop :=
  (ts = [] \/ exists inner, ts = TP "<" :: inner ++ [TP ">"] /\ balanced 0 inner = true)%list /\ forall b, ~ In (TG Brace b) ts.
