(** * Specification: reading the impls for a type of a math library *)

From Coq Require Import NArith String Bool List.
From Verif Require Import Rust Derive GlslGen Tokens SpecTokens.
Import ListNotations.
Local Open Scope string_scope.

Local Notation "'do' X <- A ; B" := (match A with Some X => B | _ => None end) (at level 200, X pattern, A at level 100, B at level 200).

Definition in_crate (l : lay) : list string := ["crate"; "::"; "std" ++ number l; "::"].
Definition in_as_trait (l : lay) : list string := (in_crate l ++ [("AsStd" ++ number l)%string])%list.

(** [f: self.g.as_stdN(), .. ..bytemuck::Zeroable::zeroed()]: the pairs (f, g) *)
Fixpoint read_easy_inits (l : lay) (fuel : nat) (ts : list tok) : option (list (string * string)) :=
  match ts, fuel with
  | TId f :: r, S fuel =>
    do r <- eats [":"; "self"; "."] r;
    match r with
    | TId g :: r =>
      do r <- eats ["."; fn_name "as_" l] r;
      match r with
      | TG Paren [] :: r => do r <- eat "," r; do fs <- read_easy_inits l fuel r; Some ((id_name f, id_name g) :: fs)
      | _ => None
      end
    | _ => None
    end
  | _, _ => match eats [".."; "bytemuck"; "::"; "Zeroable"; "::"; "zeroed"] ts with Some [TG Paren []] => Some [] | _ => None end
  end.
(** [f: <_ as AsStdN>::from_stdN(value.g), ..]: the pairs (f, g) *)
Fixpoint read_easy_froms (l : lay) (fuel : nat) (ts : list tok) : option (list (string * string)) :=
  match ts, fuel with
  | [], _ => Some []
  | TId f :: r, S fuel =>
    do r <- eats [":"; "<"; "_"; "as"] r; do r <- eats (in_as_trait l) r; do r <- eats [">"; "::"; fn_name "from_" l] r;
    match r with
    | TG Paren a :: r =>
      match eats ["value"; "."] a with
      | Some [TId g] => do r <- eat "," r; do fs <- read_easy_froms l fuel r; Some ((id_name f, id_name g) :: fs)
      | _ => None
      end
    | _ => None
    end
  | _, _ => None
  end.

(** [impl AsStdN for ty]: [ty], [Output], the type that as_stdN builds, its fields and those of from_stdN *)
Record conversions := Conversions { c_ty : list tok; c_output : string; c_built : string; c_as : list (string * string); c_from : list (string * string) }.
Definition read_easy_body (l : lay) (ty body : list tok) : option conversions :=
  do r <- eats ["type"; "Output"; "="] body; do r <- eats (in_crate l) r;
  match r with
  | TId n :: r =>
    do r <- eat ";" r;
    do r <- eats ["fn"; fn_name "as_" l] (snd (read_attrs r));
    match r with
    | TG Paren a :: r =>
      do r <- eats ["->"; "Self"; "::"; "Output"] r;
      match r with
      | TG Brace b1 :: r =>
        do r <- eats ["fn"; fn_name "from_" l] (snd (read_attrs r));
        match r with
        | TG Paren a' :: r =>
          match eats ["->"; "Self"] r, eats (in_crate l) b1 with
          | Some [TG Brace b2], Some [TId m; TG Brace i1] =>
            match eat "Self" b2 with
            | Some [TG Brace i2] =>
              if (is_all ["&"; "self"] a && is_all ["value"; ":"; "Self"; "::"; "Output"] a')%bool then
                do is <- read_easy_inits l (length i1) i1; do fs <- read_easy_froms l (length i2) i2;
                Some (Conversions ty (id_name n) (id_name m) is fs)
              else None
            | _ => None
            end
          | _, _ => None
          end
        | _ => None
        end
      | _ => None
      end
    | _ => None
    end
  | _ => None
  end.
Definition read_easy_impl (l : lay) (ts : list tok) : option (conversions * list tok) :=
  do r <- eat "impl" (snd (read_attrs ts)); do r <- eats (in_as_trait l) r; do r <- eat "for" r;
  do (ty, body, rest) <- to_brace r; do c <- read_easy_body l ty body; Some (c, rest).

(** All three impls and nothing else; of [Glsl]: the type, and whose NAME in std140 is taken *)
Definition read_easy (ts : list tok) : option (conversions * conversions * list tok * string) :=
  do (c1, r) <- read_easy_impl L140 ts;
  do (c2, r) <- read_easy_impl L430 r;
  do r <- eats ["unsafe"; "impl"; "crate"; "::"; "glsl"; "::"; "Glsl"; "for"] r;
  do (ty, b, rest) <- to_brace r;
  do b <- eats ["const"; "NAME"; ":"; "&"; "'"; "static"; "str"; "="] b; do b <- eats (in_crate L140) b;
  match b, rest with
  | TId n :: b, [] => match eats ["::"; "NAME"; ";"] b with Some [] => Some (c1, c2, ty, id_name n) | _ => None end
  | _, _ => None
  end.
