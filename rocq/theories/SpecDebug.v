(** * Specification: reading the text of [debug_metrics()]

    A reader that picks the decimal numerals and the quoted names out of a text. *)

From Coq Require Import NArith String Ascii Bool List.
From Verif Require Import SpecNumeral.
Import ListNotations.
Local Open Scope string_scope.
Local Open Scope N_scope.

Inductive token := TNum (n : N) | TName (s : string).

(** the reader is outside of everything, inside a numeral, or inside quotation marks
    (with the characters seen so far, last first) *)
Inductive mode := Outside | InNum (n : N) | InName (rev_chars : list ascii).

Fixpoint scan (m : mode) (s : string) : list token :=
  match s with
  | EmptyString => match m with InNum n => [TNum n] | _ => [] end
  | String c r =>
    match m with
    | InName cs =>
      if Ascii.eqb c """" then TName (string_of_list_ascii (rev cs)) :: scan Outside r
      else scan (InName (c :: cs)) r
    | _ =>
      match digit c with
      | Some d => scan (InNum (match m with InNum n => 10 * n + d | _ => d end)) r
      | None =>
        ((match m with InNum n => [TNum n] | _ => [] end)
         ++ scan (if Ascii.eqb c """" then InName [] else Outside) r)%list
      end
    end
  end.
