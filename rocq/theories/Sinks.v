(** * More sinks a user may hand to a Writer: [Cursor] and [BufWriter]

    Standard library, not code of the repository: [Writer] is generic in its sink
    (/repo/src/std140/writer.rs:78, /repo/src/std430/writer.rs:78) and only calls [write_all]
    (/repo/src/std{140,430}/writer.rs:133, 138). *)

From Coq Require Import NArith List.
From Coq Require Import Strings.Byte.
From Verif Require Import Rust Buffer.
Import ListNotations.
Local Open Scope N_scope.

(** [Cursor<Vec<u8>>]: position and contents. *)
(* std::io::Cursor. *)
Record cursor := Cursor { cu_pos : N; cu_buf : list byte }.

(** [write_all] on [Cursor<Vec<u8>>]: nothing happens for no bytes; otherwise the vector is
    filled up with zeros to the position, then overwritten and extended.  (Simplification: the
    position is not bounded by [u64::MAX], allocation does not fail.) *)
(* std::io::Cursor, impl Write for Cursor<Vec<u8>>. *)
Definition cursor_vec_sink : write_impl cursor := fun c bs =>
  match bs with
  | [] => (c, None)
  | _ :: _ =>
    let pos := N.to_nat (cu_pos c) in
    let filled := (cu_buf c ++ repeat x00 (pos - length (cu_buf c)))%list in
    (Cursor (cu_pos c + len bs) (firstn pos filled ++ bs ++ skipn (pos + length bs) filled)%list, None)
  end.

(** [write_all] on [Cursor<&mut [u8]>]: as much as fits between the position and the end. *)
(* std::io::Cursor, impl Write for Cursor<&mut [u8]>, with the default write_all. *)
Definition cursor_slice_sink : write_impl cursor := fun c bs =>
  let pos := N.to_nat (cu_pos c) in
  let amt := Nat.min (length bs) (length (cu_buf c) - pos) in
  let c' := Cursor (cu_pos c + N.of_nat amt)
                   (firstn pos (cu_buf c) ++ firstn amt bs ++ skipn (pos + amt) (cu_buf c))%list in
  if Nat.ltb amt (length bs) then (c', Some WriteZero) else (c', None).

(** [BufWriter]: the buffered bytes, and the sink behind it: how it is going to answer calls of
    [write], and the bytes it has accepted. *)
(* std::io::BufWriter. *)
Record bufw := BufW { bw_buf : list byte; bw_script : list resp; bw_data : list byte }.

(** The loop of [BufWriter::flush_buf]: the new script, the bytes accepted, the bytes that
    remain buffered. *)
(* std::io::BufWriter::flush_buf. *)
Fixpoint flush_loop (script : list resp) (data buf : list byte) {struct script} : bufw * option io_error :=
  match buf with
  | [] => (BufW [] script data, None)
  | _ :: _ =>
    match script with
    | [] => (BufW [] [] (data ++ buf)%list, None)
    | RAccept n :: r =>
      match Nat.min n (length buf) with
      | O => (BufW buf r data, Some WriteZero)
      | k => flush_loop r (data ++ firstn k buf)%list (skipn k buf)
      end
    | RInterrupted :: r => flush_loop r data buf
    | RError e :: r => (BufW buf r data, Some (OtherError e))
    end
  end.

(** [flush()], without the [flush] of the sink behind *)
(* std::io::BufWriter::flush. *)
Definition buf_flush (b : bufw) : bufw * option io_error := flush_loop (bw_script b) (bw_data b) (bw_buf b).

(** [BufWriter::write_all] with the given capacity *)
(* std::io::BufWriter::write_all, write_all_cold. *)
Definition buf_sink (cap : nat) : write_impl bufw := fun b bs =>
  let spare := (cap - length (bw_buf b))%nat in
  if Nat.ltb (length bs) spare then (BufW (bw_buf b ++ bs)%list (bw_script b) (bw_data b), None)
  else
    match (if Nat.ltb spare (length bs) then buf_flush b else (b, None)) with
    | (b1, Some e) => (b1, Some e)
    | (b1, None) =>
      if Nat.leb cap (length bs) then
        let '((script, data), e) := script_loop (bw_script b1) (bw_data b1) bs in
        (BufW (bw_buf b1) script data, e)
      else (BufW (bw_buf b1 ++ bs)%list (bw_script b1) (bw_data b1), None)
    end.

(** [BufWriter::with_capacity] on a sink that has accepted [data] before *)
(* std::io::BufWriter. *)
Definition buf_new (script : list resp) (data : list byte) : bufw := BufW [] script data.
