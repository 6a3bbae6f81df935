(** * Sizer, Writer and the WriteStd140 / WriteStd430 traits

    /repo/src/std140/{sizer,writer,traits}.rs and /repo/src/std430/{sizer,writer,traits}.rs
    (the two copies are identical up to renaming; line numbers below are valid in
    both unless marked). *)

From Coq Require Import NArith String Bool List.
From Coq Require Import Strings.Byte.
From Verif Require Import Rust Internal Prims Derive Host.
Import ListNotations.
Local Open Scope string_scope.
Local Open Scope N_scope.

(** ** Sizer (/repo/src/std{140,430}/sizer.rs:48-81) *)

Record sizer := Sizer { sz_offset : N }.

(** /repo/src/std{140,430}/sizer.rs:54-56 *)
Definition sizer_new : sizer := Sizer 0.

(** /repo/src/std{140,430}/sizer.rs:60-74, [add::<T>] for [T::Output] of the given size and ALIGNMENT. *)
Definition sizer_add_raw (tg : target) (size alignment : N) (s : sizer) : outcome (N * sizer) :=
  let padding := align_offset (sz_offset s) alignment in
  match uadd tg (sz_offset s) padding with
  | Panicked => Panicked
  | Done write_here =>
    match uadd tg write_here size with
    | Panicked => Panicked
    | Done offset => Done (write_here, Sizer offset)
    end
  end.

(** [sizer.add::<T>()] for a [T: StdN], which is its own [Output]; [None] if it does not implement the layout. *)
(* /repo/src/std140/sizer.rs:60-74, /repo/src/std430/sizer.rs:60-74; the blanket impl is /repo/src/std140/traits.rs:91-95, /repo/src/std430/traits.rs:91-95. *)
Definition sizer_add_std (tg : target) (l : lay) (t : sty) (s : sizer) : option (outcome (N * sizer)) :=
  match std_align l t with
  | Some alignment => Some (sizer_add_raw tg (size_of tg t) alignment s)
  | None => None
  end.

(** [sizer.add::<h>()]; the outer [option] is [None] if [h] has no layout. *)
(* /repo/src/std140/sizer.rs:60-74, /repo/src/std430/sizer.rs:60-74. *)
Definition sizer_add (tg : target) (l : lay) (h : hty) (s : sizer) : option (outcome (N * sizer)) :=
  match out_ty tg l h with
  | Some t => sizer_add_std tg l t s
  | None => None
  end.

(** /repo/src/std{140,430}/sizer.rs:78-80 *)
Definition sizer_len (s : sizer) : N := sz_offset s.

(** A sequence of [add] calls: the returned offsets and the final sizer. *)
(* User side: several calls of /repo/src/std140/sizer.rs:60-74, /repo/src/std430/sizer.rs:60-74. *)
Fixpoint sizer_run (tg : target) (l : lay) (hs : list hty) (s : sizer)
  : option (outcome (list N * sizer)) :=
  match hs with
  | [] => Some (Done ([], s))
  | h :: hs' =>
    match sizer_add tg l h s with
    | None => None
    | Some Panicked => Some Panicked
    | Some (Done (o, s')) =>
      match sizer_run tg l hs' s' with
      | None => None
      | Some Panicked => Some Panicked
      | Some (Done (os, s'')) => Some (Done (o :: os, s''))
      end
    end
  end.

(** ** io::Write

    Only [write_all] is used by crevice (/repo/src/std{140,430}/writer.rs:133, 138). *)
Inductive io_error := WriteZero | OtherError (code : N).

(* std::io::Write::write_all, as used in /repo/src/std140/writer.rs:133,138, /repo/src/std430/writer.rs:133,138. *)
Definition write_impl (W : Type) := W -> list byte -> W * option io_error.

(** ** Writer (/repo/src/std{140,430}/writer.rs:78-81) *)
Record writer (W : Type) := Writer { w_inner : W; w_offset : N }.
Arguments Writer {W} w_inner w_offset.
Arguments w_inner {W} w.
Arguments w_offset {W} w.

(** /repo/src/std{140,430}/writer.rs:86-88 *)
Definition writer_new {W} (inner : W) : writer W := Writer inner 0.

(** /repo/src/std{140,430}/writer.rs:147-149 in std430, 159-161 in std140 *)
Definition writer_len {W} (w : writer W) : N := w_offset w.

(** Result of a write: [Ok(offset)], [Err(e)], a panic (arithmetic overflow), or
    [WUb]: the value has no byte representation (ill-typed, or uninitialised
    bytes); the theorems show [WUb] does not occur. *)
(* io::Result<usize> of /repo/src/std140/writer.rs:94-144, /repo/src/std430/writer.rs:94-144, or a panic. *)
Inductive wres := WOk (offset : N) | WErr (e : io_error) | WPanic | WUb.

Section WriterOps.
  Context {W : Type} (tg : target) (l : lay) (wi : write_impl W).

  (** /repo/src/std{140,430}/writer.rs:132-134 [for _ in 0..padding { self.writer.write_all(&[0])?; }] *)
  Fixpoint write_padding (padding : nat) (inner : W) : W * option io_error :=
    match padding with
    | O => (inner, None)
    | S n =>
      match wi inner [x00] with
      | (inner', None) => write_padding n inner'
      | (inner', Some e) => (inner', Some e)
      end
    end.

  (** /repo/src/std{140,430}/writer.rs:126-144, [write_std140] / [write_std430].  (Line 137 calls
      [as_std140] on a [Std140] value, which is the identity.) *)
  Definition write_std (t : sty) (s : sval) (w : writer W) : writer W * wres :=
    match std_align l t with
    | None => (w, WUb)
    | Some alignment =>
      let padding := align_offset (w_offset w) alignment in
      match write_padding (N.to_nat padding) (w_inner w) with
      | (inner1, Some e) => (Writer inner1 (w_offset w), WErr e)
      | (inner1, None) =>
        match uadd tg (w_offset w) padding with
        | Panicked => (Writer inner1 (w_offset w), WPanic)
        | Done write_here =>
          match bytes_of tg t s with
          | None => (Writer inner1 write_here, WUb)
          | Some bs =>
            match wi inner1 bs with
            | (inner2, Some e) => (Writer inner2 write_here, WErr e)
            | (inner2, None) =>
              match uadd tg write_here (size_of tg t) with
              | Panicked => (Writer inner2 write_here, WPanic)
              | Done offset => (Writer inner2 offset, WOk write_here)
              end
            end
          end
        end
      end
    end.
End WriterOps.

(** ** WriteStd140 / WriteStd430

    A value of a type implementing the trait:
    - [WLeaf h v]: [v : h] with [h: AsStdN] (/repo/src/std{140,430}/traits.rs:132-144);
    - [WStd t s]: [s : t] with [t: StdN], a layout type of the crate or a user's own (hand-written
      [unsafe impl StdN]); by the blanket impl (/repo/src/std{140,430}/traits.rs:92-105) [as_stdN] is
      the identity;
    - [WSeq items]: a slice [[T]] (/repo/src/std{140,430}/traits.rs:146-172), or a user-defined type
      whose impl writes its parts in order with [?] and returns the first offset,
      as the trait documents (/repo/src/std{140,430}/traits.rs:116-120).  Items need not have the same
      type, which generalises slices. *)
Inductive wval :=
| WLeaf (h : hty) (v : hval)
| WStd (t : sty) (s : sval)
| WSeq (items : list wval).

Section WriteVal.
  Context {W : Type} (tg : target) (l : lay) (wi : write_impl W).

  (** /repo/src/std{140,430}/traits.rs:137-139 *)
  Definition write_leaf (h : hty) (v : hval) (w : writer W) : writer W * wres :=
    match out_ty tg l h, as_std tg l h v with
    | Some t, Some s => write_std tg l wi t s w
    | _, _ => (w, WUb)
    end.

  (** [WriteStdN::write_stdN]: /repo/src/std{140,430}/traits.rs:137-139 and 151-165 *)
  Fixpoint write_val (x : wval) (w : writer W) {struct x} : writer W * wres :=
    match x with
    | WLeaf h v => write_leaf h v w
    | WStd t s => write_std tg l wi t s w
    | WSeq items =>
      let offset := writer_len w in
      match items with
      | [] => (w, WOk offset)
      | item :: iter =>
        match write_val item w with
        | (w1, WOk offset) =>
          (* for item in iter { item.write_std140(writer)?; } Ok(offset) *)
          (fix rest (iter : list wval) (w : writer W) {struct iter} : writer W * wres :=
             match iter with
             | [] => (w, WOk offset)
             | item :: iter' =>
               match write_val item w with
               | (w', WOk _) => rest iter' w'
               | (w', r) => (w', r)
               end
             end) iter w1
        | (w1, r) => (w1, r)
        end
      end
    end.

  (** /repo/src/std{140,430}/writer.rs:94-99 *)
  Definition writer_write (w : writer W) (value : wval) : writer W * wres := write_val value w.

  (** the loop of /repo/src/std{140,430}/writer.rs:118-120 *)
  Fixpoint write_iter_rest (offset : N) (iter : list wval) (w : writer W) : writer W * wres :=
    match iter with
    | [] => (w, WOk offset)
    | item :: iter' =>
      match write_val item w with
      | (w', WOk _) => write_iter_rest offset iter' w'
      | (w', r) => (w', r)
      end
    end.

  (** /repo/src/std{140,430}/writer.rs:105-123.  The iterator is modelled by the (finite) list of items
      it yields. *)
  Definition write_iter (w : writer W) (iter : list wval) : writer W * wres :=
    let offset := w_offset w in
    match iter with
    | [] => (w, WOk offset)
    | item :: iter' =>
      match write_val item w with
      | (w1, WOk offset) => write_iter_rest offset iter' w1
      | (w1, r) => (w1, r)
      end
    end.

  (** /repo/src/std140/writer.rs:147-157 (std140 only, deprecated) *)
  Definition write_slice (w : writer W) (h : hty) (slice : list hval) : writer W * wres :=
    writer_write w (WSeq (map (WLeaf h) slice)).
End WriteVal.

(** [std::io::sink()]: accepts and discards everything. *)
Definition io_sink : write_impl unit := fun s _ => (s, None).

(** [WriteStdN::stdN_size]: /repo/src/std{140,430}/traits.rs:125-129 (default), 141-143 (for [AsStdN]
    types), 167-171 (slices, same body as the default).  [.unwrap()] panics on
    [Err].  [None]: not a well-formed value. *)
Definition std_size (tg : target) (l : lay) (x : wval) : option (outcome N) :=
  match x with
  | WLeaf h _ =>
    match out_ty tg l h with Some t => Some (Done (size_of tg t)) | None => None end
  | WStd t _ =>
    match std_align l t with Some _ => Some (Done (size_of tg t)) | None => None end
  | WSeq _ =>
    match write_val tg l io_sink x (writer_new tt) with
    | (w, WOk _) => Some (Done (writer_len w))
    | (_, WErr _) | (_, WPanic) => Some Panicked
    | (_, WUb) => None
    end
  end.

(** ** Histories of operations on one Writer *)

(* The methods of /repo/src/std140/writer.rs:94-144, /repo/src/std430/writer.rs:94-144, and write_slice at /repo/src/std140/writer.rs:146-156. *)
Inductive op :=
| OpWrite (x : wval)                    (* writer.write(&x) *)
| OpIter (xs : list wval)               (* writer.write_iter(xs) *)
| OpStd (t : sty) (s : sval).           (* writer.write_std140(&s) *)

Definition run_op {W} (tg : target) (l : lay) (wi : write_impl W) (o : op) (w : writer W)
  : writer W * wres :=
  match o with
  | OpWrite x => writer_write tg l wi w x
  | OpIter xs => write_iter tg l wi w xs
  | OpStd t s => write_std tg l wi t s w
  end.

(** All operations are executed, whatever their results (a caller may ignore
    errors and go on). *)
(* User side: a history of calls. *)
Fixpoint run_ops {W} (tg : target) (l : lay) (wi : write_impl W) (os : list op) (w : writer W)
  : writer W * list wres :=
  match os with
  | [] => (w, [])
  | o :: os' =>
    let '(w1, r) := run_op tg l wi o w in
    let '(w2, rs) := run_ops tg l wi os' w1 in
    (w2, r :: rs)
  end.

(** Sequence of [writer.write(&x)?]: stops at the first failure. *)
(* User side: several calls with `?`. *)
Fixpoint write_vals {W} (tg : target) (l : lay) (wi : write_impl W) (xs : list wval) (w : writer W)
  : writer W * (list N * option wres) :=
  match xs with
  | [] => (w, ([], None))
  | x :: xs' =>
    match writer_write tg l wi w x with
    | (w1, WOk o) =>
      let '(w2, (os, e)) := write_vals tg l wi xs' w1 in (w2, (o :: os, e))
    | (w1, r) => (w1, ([], Some r))
    end
  end.

(** ** Concrete sinks (std, not crevice) *)

(** [Vec<u8>] *)
(* std's impl Write for Vec<u8>, used in /repo/src/std140/dynamic_uniform.rs:55-56. *)
Definition vec_sink : write_impl (list byte) := fun v bs => (v ++ bs, None)%list.

(** [&mut [u8]]: [fst] = the part already filled, [snd] = the remaining part of
    the slice with its current contents.  std copies [min(len, remaining)] bytes
    and reports [WriteZero] if not everything fitted. *)
Definition slice_sink : write_impl (list byte * list byte) := fun st bs =>
  let '(filled, rest) := st in
  let amt := Nat.min (length bs) (length rest) in
  let st' := (filled ++ firstn amt bs, skipn amt rest)%list in
  if Nat.ltb amt (length bs) then (st', Some WriteZero) else (st', None).

(** An arbitrary writer driven by a script of responses to [Write::write],
    wrapped in std's default [write_all] loop: short writes, [Ok(0)],
    [ErrorKind::Interrupted] (retried) and other errors.  When the script is
    exhausted everything is accepted. *)
Inductive resp := RAccept (n : nat) | RInterrupted | RError (e : N).

(* std's default write_all (std::io::Write), which /repo/src/std140/writer.rs:133,138, /repo/src/std430/writer.rs:133,138 call. *)
Fixpoint script_loop (script : list resp) (data buf : list byte) {struct script}
  : (list resp * list byte) * option io_error :=
  match buf with
  | [] => ((script, data), None)
  | _ :: _ =>
    match script with
    | [] => (([], (data ++ buf)%list), None)
    | RAccept n :: r =>
      match Nat.min n (length buf) with
      | O => ((r, data), Some WriteZero)
      | k => script_loop r (data ++ firstn k buf)%list (skipn k buf)
      end
    | RInterrupted :: r => script_loop r data buf
    | RError e :: r => ((r, data), Some (OtherError e))
    end
  end.

(* std's default write_all over any [write]. *)
Definition script_sink : write_impl (list resp * list byte) :=
  fun st bs => script_loop (fst st) (snd st) bs.
