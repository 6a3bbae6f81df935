(** * Specification: decimal numerals *)

From Coq Require Import NArith String Ascii Bool List.
Local Open Scope string_scope.
Local Open Scope N_scope.

Definition digit (c : ascii) : option N :=
  let k := N_of_ascii c in if (48 <=? k) && (k <=? 57) then Some (k - 48) else None.

(** the number a text of digits denotes, after digits that denote [acc] *)
Fixpoint digits_value (acc : N) (s : string) : option N :=
  match s with
  | EmptyString => Some acc
  | String c r => match digit c with Some d => digits_value (10 * acc + d) r | None => None end
  end.

(** a numeral is a non-empty text of digits that does not start with 0 unless it is "0" *)
Definition numeral (s : string) : option N :=
  match s with
  | EmptyString => None
  | String c r =>
    if Ascii.eqb c "0" then match r with EmptyString => Some 0 | _ => None end
    else digits_value 0 s
  end.
