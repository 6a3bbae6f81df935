(** * [assert_std140!] and [assert_std430!] (/repo/crevice-tests/src/util.rs:33-143)

    The layout assertions of the crate's own tests: what they print and when they panic. *)

From Coq Require Import NArith String Ascii Bool List.
From Verif Require Import Rust Internal Prims Derive Host GlslGen DebugMetrics.
Import ListNotations.
Local Open Scope string_scope.
Local Open Scope N_scope.

(** An unsuffixed integer literal used both as a [usize] ([actual_size != $size]) and, inside
    [println!], at the fallback type [i32]: the lint [overflowing_literals] (deny by default)
    rejects one that either type cannot hold. *)
(* /repo/crevice-tests/src/util.rs:43, 49, 55, 61, 69, 75, 97, 103, 109, 115, 123, 129. *)
Definition literal_ok (tg : target) (n : N) : bool := (n <? 2 ^ t_bits tg) && (n <? 2 ^ 31).

(* The two macros differ in this word (/repo/crevice-tests/src/util.rs:45, 57, 84 and 99, 111, 138) and in the text of [offset_message]. *)
Definition std_word (l : lay) : string := match l with L140 => "std140" | L430 => "std430" end.

(** [println!] of a message that itself ends in a newline *)
(* /repo/crevice-tests/src/util.rs:44-51, 56-63, 70-77, 98-105, 110-117, 124-131. *)
Definition message (header : string) (expected actual : N) : string :=
  header ++ nl ++ "Expected: " ++ decN expected ++ nl ++ "Actual:   " ++ decN actual ++ nl ++ nl.
(* /repo/crevice-tests/src/util.rs:45, 99. *)
Definition size_message (l : lay) (name : string) : string := "Invalid size for " ++ std_word l ++ " struct " ++ name.
(* /repo/crevice-tests/src/util.rs:57, 111. *)
Definition align_message (l : lay) (name : string) : string := "Invalid alignment for " ++ std_word l ++ " struct " ++ name.
(* /repo/crevice-tests/src/util.rs:71, 125. *)
Definition offset_message (l : lay) (field : string) : string :=
  match l with L140 => "Invalid offset for field " ++ field | L430 => "Invalid offset for std430 field " ++ field end.

(** what is printed so far, and the variable [fail] *)
(* /repo/crevice-tests/src/util.rs:39, 93. *)
Record checks := Checks { ck_printed : string; ck_fail : bool }.
(* /repo/crevice-tests/src/util.rs:42-51, 54-63, 68-77, 96-105, 108-117, 122-131. *)
Definition check_number (header : string) (expected actual : N) (c : checks) : checks :=
  if negb (actual =? expected) then Checks (ck_printed c ++ message header expected actual) true else c.

(** [$({ ... offset_of!(Target, $field) ... })*]; [None]: no field of that name, a compile error.
    (Simplification: privacy of the fields is ignored.) *)
(* /repo/crevice-tests/src/util.rs:66-80, 120-134. *)
Fixpoint check_fields (tg : target) (l : lay) (t : sty) (fields : list (string * N)) (c : checks) : option checks :=
  match fields with
  | [] => Some c
  | (field, offset) :: rest =>
    match assoc field (field_offsets tg t) with
    | Some actual_offset => check_fields tg l t rest (check_number (offset_message l field) offset actual_offset c)
    | None => None
    end
  end.

(** [assert_stdN!((size = $size, align = $align) $struct { $field: $offset, ... })], where the identifier
    [name] denotes the type [h]: the text printed and the message of the panic, if any; [None]: the
    call does not compile.  [type Target = <$struct as AsStdN>::Output] defines itself by itself if
    the type is called [Target]. *)
(* /repo/crevice-tests/src/util.rs:34-87 (std140), 90-143 (std430). *)
Definition assert_std (tg : target) (l : lay) (name : string) (h : hty) (size align : N) (fields : list (string * N))
  : option (string * option string) :=
  if String.eqb name "Target" then None
  else if negb (forallb (literal_ok tg) (size :: align :: map snd fields)) then None
  else
    match out_ty tg l h with
    | Some target =>
      let c := check_number (size_message l name) size (size_of tg target) (Checks "" false) in
      match std_align l target with
      | Some actual_alignment =>
        match check_fields tg l target fields (check_number (align_message l name) align actual_alignment c) with
        | Some c' => Some (ck_printed c', if ck_fail c' then Some ("Invalid " ++ std_word l ++ " result for " ++ name) else None)
        | None => None
        end
      | None => None
      end
    | None => None
    end.
