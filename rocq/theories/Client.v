(** * User code that drives a Writer: custom [WriteStd140] / [WriteStd430]
      implementations and lazy iterators

    [WriteStdN::write_stdN(&self, writer: &mut Writer<W>)] (/repo/src/std{140,430}/traits.rs:110-120) is
    generic in [W], so an implementation can use the writer only through its public
    methods: [write], [write_iter], [write_slice], [write_stdN] and [len].  [write]
    (/repo/src/std{140,430}/writer.rs:94-99) just calls the [write_stdN] of its argument, and the
    implementation for [AsStdN] types (/repo/src/std{140,430}/traits.rs:137-139) just calls
    [Writer::write_stdN]; so every call is made of the two primitive ones, [len] and
    [Writer::write_stdN].  An implementation is the tree of what it does next,
    depending on what the calls returned. *)

From Coq Require Import NArith String Bool List.
From Coq Require Import Strings.Byte.
From Verif Require Import Rust Internal Prims Derive Host Buffer.
Import ListNotations.
Local Open Scope string_scope.
Local Open Scope N_scope.

(** [io::Result<usize>] *)
(* Return type of /repo/src/std140/traits.rs:120, /repo/src/std430/traits.rs:120. *)
Inductive ioresult := IOk (offset : N) | IErr (e : io_error).

(** An implementation of [write_stdN] applied to [&self].
    Simplification: implementations that never return are not modelled, and a
    panic inside a call is not caught (panics that are caught: Unwind.v). *)
Inductive client :=
| CRet (r : ioresult)                                        (* return r *)
| CPanic                                                     (* panic!() *)
| CLen (k : N -> client)                                     (* writer.len() *)
| CStd (t : sty) (s : sval) (k : ioresult -> client).        (* writer.write_std140(&s) *)

(** [c], then [k] on its result *)
(* User side: an implementation of /repo/src/std140/traits.rs:120, /repo/src/std430/traits.rs:120. *)
Fixpoint c_bind (c : client) (k : ioresult -> client) : client :=
  match c with
  | CRet r => k r
  | CPanic => CPanic
  | CLen f => CLen (fun n => c_bind (f n) k)
  | CStd t s f => CStd t s (fun r => c_bind (f r) k)
  end.

(** [let o = c?; k(o)] *)
(* User side: the `?` operator, as in /repo/src/std140/traits.rs:158,162, /repo/src/std430/traits.rs:157,161. *)
Definition c_try (c : client) (k : N -> client) : client :=
  c_bind c (fun r => match r with IOk o => k o | IErr e => CRet (IErr e) end).

(** the loop of /repo/src/std{140,430}/traits.rs:160-162 [for item in iter { item.write_std140(writer)?; } Ok(offset)] *)
Fixpoint c_rest (offset : N) (items : list client) : client :=
  match items with
  | [] => CRet (IOk offset)
  | item :: items' => c_try item (fun _ => c_rest offset items')
  end.

(** /repo/src/std{140,430}/traits.rs:151-165, the implementation for slices *)
Definition c_slice (items : list client) : client :=
  CLen (fun offset =>
    match items with
    | [] => CRet (IOk offset)
    | item :: iter => c_try item (fun offset => c_rest offset iter)
    end).

(** /repo/src/std{140,430}/traits.rs:137-139, the implementation for [AsStdN] types *)
Definition c_leaf (tg : target) (l : lay) (h : hty) (v : hval) : client :=
  match out_ty tg l h, as_std tg l h v with
  | Some t, Some s => CStd t s CRet
  | _, _ => CPanic
  end.

(* /repo/src/std140/traits.rs:133-173, /repo/src/std430/traits.rs:133-172. *)
Fixpoint c_val (tg : target) (l : lay) (x : wval) : client :=
  match x with
  | WLeaf h v => c_leaf tg l h v
  | WStd t s => CStd t s CRet
  | WSeq items => c_slice (map (c_val tg l) items)
  end.

(** One call of [Writer::write_stdN]: its argument and what it returned. *)
Definition event := (sty * sval * wres)%type.

Section Run.
  Context {W : Type} (tg : target) (l : lay) (wi : write_impl W).

  (** [x.write_std140(&mut w)]: the calls it makes and what it returns. *)
  Fixpoint run_client (c : client) (w : writer W) : writer W * (list event * wres) :=
    match c with
    | CRet (IOk o) => (w, ([], WOk o))
    | CRet (IErr e) => (w, ([], WErr e))
    | CPanic => (w, ([], WPanic))
    | CLen k => run_client (k (writer_len w)) w
    | CStd t s k =>
      match write_std tg l wi t s w with
      | (w1, WOk o) =>
        let '(w2, (ev, r)) := run_client (k (IOk o)) w1 in (w2, ((t, s, WOk o) :: ev, r))
      | (w1, WErr e) =>
        let '(w2, (ev, r)) := run_client (k (IErr e)) w1 in (w2, ((t, s, WErr e) :: ev, r))
      | (w1, WPanic) => (w1, ([(t, s, WPanic)], WPanic))
      | (w1, WUb) => (w1, ([(t, s, WUb)], WUb))
      end
    end.

  (** ** [write_iter] on an arbitrary iterator (/repo/src/std{140,430}/writer.rs:105-123)

      [next] is [Iterator::next], acting on the iterator's state.  [fuel] bounds
      the number of rounds of the [for] loop; [None] means that the loop is still
      running. *)
  Context {I : Type} (next : I -> option client * I).

  (** /repo/src/std{140,430}/writer.rs:118-122 *)
  Fixpoint iter_loop (fuel : nat) (offset : N) (it : I) (w : writer W) : option (I * (writer W * wres)) :=
    match fuel with
    | O => None
    | S fuel' =>
      match next it with
      | (None, it1) => Some (it1, (w, WOk offset))
      | (Some item, it1) =>
        match run_client item w with
        | (w1, (_, WOk _)) => iter_loop fuel' offset it1 w1
        | (w1, (_, r)) => Some (it1, (w1, r))
        end
      end
    end.

  (** /repo/src/std{140,430}/writer.rs:105-123 *)
  Definition write_iter_lazy (fuel : nat) (it : I) (w : writer W) : option (I * (writer W * wres)) :=
    let offset := w_offset w in
    match next it with
    | (Some item, it1) =>
      match run_client item w with
      | (w1, (_, WOk offset)) => iter_loop fuel offset it1 w1
      | (w1, (_, r)) => Some (it1, (w1, r))
      end
    | (None, it1) => iter_loop fuel offset it1 w
    end.
End Run.

(** The default [std140_size] (/repo/src/std{140,430}/traits.rs:125-129): write to [io::sink()], unwrap,
    and ask for [len()].  [None]: undefined behaviour (does not occur). *)
Definition client_size (tg : target) (l : lay) (c : client) : option (outcome N) :=
  match run_client tg l io_sink c (writer_new tt) with
  | (w, (_, WOk _)) => Some (Done (writer_len w))
  | (_, (_, WErr _)) | (_, (_, WPanic)) => Some Panicked
  | (_, (_, WUb)) => None
  end.
