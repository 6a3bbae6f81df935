(** * Specification: layout assertions and their reports *)

From Coq Require Import NArith String Ascii Bool List.
From Verif Require Import Rust SpecGlsl SpecHost SpecTypes SpecNumeral SpecText SpecProgram.
Import ListNotations.
Local Open Scope string_scope.
Local Open Scope N_scope.

(** something that an assertion says, and what is the case *)
Inductive subject := SizeOf (name : string) | AlignmentOf (name : string) | OffsetOf (field : string).
Record finding := Finding { fd_subject : subject; fd_expected : N; fd_actual : N }.

Definition differing (s : subject) (expected actual : N) : list finding :=
  if expected =? actual then [] else [Finding s expected actual].

(** The wrong numbers in an assertion, by the GLSL rules: the type is [g], and [fields] are names
    of its members (or components, or columns) with the asserted offsets. *)
Definition wrong_numbers (l : lay) (g : gty) (name : string) (size align : N) (fields : list (string * N)) : list finding :=
  (differing (SizeOf name) size (gsize l g)
   ++ differing (AlignmentOf name) align (base_align l g)
   ++ flat_map (fun fo => match gpath_offset l g [fst fo] with
                          | Some (o, _) => differing (OffsetOf (fst fo)) (snd fo) o
                          | None => [] end) fields)%list.

(** ** Reading a report *)

(** the lines of a text; what follows the last newline is the last line *)
Fixpoint lines (s : string) : list string :=
  match s with
  | "" => [""]
  | String c r =>
    if Ascii.eqb c (ascii_of_nat 10) then "" :: lines r
    else match lines r with [] => [String c ""] | x :: xs => String c x :: xs end
  end.

(** what the first line of a message is about *)
Definition subject_of (l : lay) (header : string) : option subject :=
  let std := match l with L140 => "std140" | L430 => "std430" end in
  match after ("Invalid size for " ++ std ++ " struct ") header with
  | Some n => Some (SizeOf n)
  | None =>
    match after ("Invalid alignment for " ++ std ++ " struct ") header with
    | Some n => Some (AlignmentOf n)
    | None =>
      match after (match l with L140 => "Invalid offset for field " | L430 => "Invalid offset for std430 field " end) header with
      | Some f => Some (OffsetOf f)
      | None => None
      end
    end
  end.

Definition number_after (p line : string) : option N :=
  match after p line with Some d => numeral d | None => None end.

(** messages of four lines: the subject, what was expected, what was found, an empty line *)
Fixpoint read_messages (l : lay) (ls : list string) : option (list finding) :=
  match ls with
  | [""] => Some []
  | header :: expected :: actual :: "" :: rest =>
    match subject_of l header, number_after "Expected: " expected, number_after "Actual:   " actual, read_messages l rest with
    | Some s, Some e, Some a, Some fs => Some (Finding s e a :: fs)
    | _, _, _, _ => None
    end
  | _ => None
  end.
Definition read_report (l : lay) (printed : string) : option (list finding) := read_messages l (lines printed).
