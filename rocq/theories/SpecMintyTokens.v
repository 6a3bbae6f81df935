(** * Specification: reading the impls that go through another type *)

From Coq Require Import NArith String Bool List.
From Verif Require Import Rust Derive GlslGen Tokens SpecTokens SpecGlslTokens SpecEasyTokens.
Import ListNotations.
Local Open Scope string_scope.

Local Notation "'do' X <- A ; B" := (match A with Some X => B | _ => None end) (at level 200, X pattern, A at level 100, B at level 200).

(** [<T>], [let x: T =] *)
Definition read_angle (ts : list tok) : option (list tok * list tok) :=
  do r <- eat "<" ts; do (a, r) <- to_gt 0 r; Some (removelast a, r).
Fixpoint to_equals (ts : list tok) : option (list tok * list tok) :=
  match ts with
  | [] => None
  | t :: r => if is_p "=" t then Some ([], r) else do (a, r) <- to_equals r; Some (t :: a, r)
  end.

(** [impl AsStdN for v_ty]: the type whose [Output] is taken; the type that [*self] is turned into, before its as_stdN is called;
    the type whose from_stdN is called, before its result is turned into [Self] *)
Record via := Via { v_ty : list tok; v_output : list tok; v_as : list tok; v_from : list tok }.
Definition read_via_body (l : lay) (ty body : list tok) : option via :=
  do r <- eats ["type"; "Output"; "="; "<"] body; do (out, r) <- to_as 0 r; do r <- eats (in_as_trait l) r;
  do r <- eats [">"; "::"; "Output"; ";"] r;
  do r <- eats ["fn"; fn_name "as_" l] (snd (read_attrs r));
  match r with
  | TG Paren a :: r =>
    do r <- eats ["->"; "Self"; "::"; "Output"] r;
    match r with
    | TG Brace b1 :: r =>
      do r <- eats ["fn"; fn_name "from_" l] (snd (read_attrs r));
      match r with
      | TG Paren a' :: r =>
        match eats ["->"; "Self"] r with
        | Some [TG Brace b2] =>
          do b1 <- eats ["let"; "mint"; ":"] b1; do (t1, b1) <- to_equals b1;
          do (t2, b2) <- read_angle b2;
          match b1, eats ["::"; fn_name "from_" l] b2 with
          | TG Paren s :: b1, Some (TG Paren v :: b2) =>
            match eats ["."; "into"] b1, eats ["."; "into"] b2 with
            | Some (TG Paren [] :: b1), Some [TG Paren []] =>
              match eats [";"; "mint"; "."; fn_name "as_" l] b1 with
              | Some [TG Paren []] =>
                if (is_all ["&"; "self"] a && is_all ["value"; ":"; "Self"; "::"; "Output"] a' && is_all ["*"; "self"] s && is_all ["value"] v)%bool
                then Some (Via ty out t1 t2) else None
              | _ => None
              end
            | _, _ => None
            end
          | _, _ => None
          end
        | _ => None
        end
      | _ => None
      end
    | _ => None
    end
  | _ => None
  end.
Definition read_via_impl (l : lay) (ts : list tok) : option (via * list tok) :=
  do r <- eat "impl" (snd (read_attrs ts)); do r <- eats (in_as_trait l) r; do r <- eat "for" r;
  do (ty, body, rest) <- to_brace r; do c <- read_via_body l ty body; Some (c, rest).

(** All three impls and nothing else; of [Glsl]: the type, and whose NAME is taken *)
Definition read_via (ts : list tok) : option (via * via * list tok * list tok) :=
  do (c1, r) <- read_via_impl L140 ts;
  do (c2, r) <- read_via_impl L430 r;
  do r <- eats ["unsafe"; "impl"; "crate"; "::"; "glsl"; "::"; "Glsl"; "for"] r;
  do (ty, b, rest) <- to_brace r;
  do b <- eats ["const"; "NAME"; ":"; "&"; "'"; "static"; "str"; "="] b; do (n, b) <- read_angle b;
  match rest with
  | [] => if is_all ["::"; "NAME"; ";"] b then Some (c1, c2, ty, n) else None
  | _ => None
  end.
