(** * Panics that are caught: sinks, iterators and implementations that panic

    [Buffer.v] and [Client.v] stop at a panic.  Here [Write::write_all], [Iterator::next] and user
    implementations of [WriteStdN] may panic, and user code may catch the panic
    ([std::panic::catch_unwind], or [join] on a thread that borrowed the [Writer]) and use the same
    [Writer] again.  [Writer] has no [Drop] implementation and no guard
    (/repo/src/std{140,430}/writer.rs:78-150): unwinding leaves its two fields as they are at the panic. *)

From Coq Require Import NArith String Bool List.
From Coq Require Import Strings.Byte.
From Verif Require Import Rust Internal Prims Derive Host Buffer Client.
Import ListNotations.
Local Open Scope string_scope.
Local Open Scope N_scope.

(** What a call of [write_all] does: returns [Ok(())], returns [Err(e)], or panics. *)
(* std::io::Write::write_all, as used in /repo/src/std140/writer.rs:133,138, /repo/src/std430/writer.rs:133,138. *)
Inductive sink_res := SOk | SErr (e : io_error) | SPanic.
(* std::io::Write::write_all, as used in /repo/src/std140/writer.rs:133,138, /repo/src/std430/writer.rs:133,138. *)
Definition panic_impl (W : Type) := W -> list byte -> W * sink_res.

(** What user code sees of a call that it made inside [catch_unwind]. *)
(* Result of /repo/src/std140/writer.rs:126-144, /repo/src/std430/writer.rs:126-144, or a panic. *)
Inductive caught := COk (offset : N) | CErr (e : io_error) | CPan.

(** User code that drives a [Writer] and may catch panics.  (A call outside [catch_unwind] is one whose
    continuation for [CPan] is [UPanic].) *)
(* User side: an implementation of /repo/src/std140/traits.rs:120, /repo/src/std430/traits.rs:120. *)
Inductive uclient :=
| URet (r : ioresult)                                    (* return r *)
| UPanic                                                 (* panic!(), or resume_unwind *)
| ULen (k : N -> uclient)                                (* writer.len() *)
| UStd (t : sty) (s : sval) (k : caught -> uclient).     (* catch_unwind(|| writer.write_std140(&s)) *)

(** code that never catches a panic *)
(* User side: an implementation of /repo/src/std140/traits.rs:120, /repo/src/std430/traits.rs:120. *)
Fixpoint no_catch (c : client) : uclient :=
  match c with
  | CRet r => URet r
  | CPanic => UPanic
  | CLen k => ULen (fun n => no_catch (k n))
  | CStd t s k =>
    UStd t s (fun r => match r with
                       | COk o => no_catch (k (IOk o))
                       | CErr e => no_catch (k (IErr e))
                       | CPan => UPanic
                       end)
  end.

Section Unwind.
  Context {W : Type} (tg : target) (l : lay) (pi : panic_impl W).

  (** /repo/src/std{140,430}/writer.rs:132-134 [for _ in 0..padding { self.writer.write_all(&[0])?; }] *)
  Fixpoint p_padding (padding : nat) (inner : W) : W * sink_res :=
    match padding with
    | O => (inner, SOk)
    | S n =>
      match pi inner [x00] with
      | (inner', SOk) => p_padding n inner'
      | (inner', r) => (inner', r)
      end
    end.

  (** /repo/src/std{140,430}/writer.rs:126-144, as [Buffer.write_std], on a sink that may panic *)
  Definition p_write_std (t : sty) (s : sval) (w : writer W) : writer W * wres :=
    match std_align l t with
    | None => (w, WUb)
    | Some alignment =>
      let padding := align_offset (w_offset w) alignment in
      match p_padding (N.to_nat padding) (w_inner w) with
      | (inner1, SErr e) => (Writer inner1 (w_offset w), WErr e)
      | (inner1, SPanic) => (Writer inner1 (w_offset w), WPanic)
      | (inner1, SOk) =>
        match uadd tg (w_offset w) padding with
        | Panicked => (Writer inner1 (w_offset w), WPanic)
        | Done write_here =>
          match bytes_of tg t s with
          | None => (Writer inner1 write_here, WUb)
          | Some bs =>
            match pi inner1 bs with
            | (inner2, SErr e) => (Writer inner2 write_here, WErr e)
            | (inner2, SPanic) => (Writer inner2 write_here, WPanic)
            | (inner2, SOk) =>
              match uadd tg write_here (size_of tg t) with
              | Panicked => (Writer inner2 write_here, WPanic)
              | Done offset => (Writer inner2 offset, WOk write_here)
              end
            end
          end
        end
      end
    end.

  (** User code on a [Writer]: the calls it makes and how it ends. *)
  (* User side: calls of /repo/src/std140/writer.rs:94-150, /repo/src/std430/writer.rs:94-150. *)
  Fixpoint run_uclient (u : uclient) (w : writer W) : writer W * (list event * wres) :=
    match u with
    | URet (IOk o) => (w, ([], WOk o))
    | URet (IErr e) => (w, ([], WErr e))
    | UPanic => (w, ([], WPanic))
    | ULen k => run_uclient (k (writer_len w)) w
    | UStd t s k =>
      match p_write_std t s w with
      | (w1, WOk o) =>
        let '(w2, (ev, r)) := run_uclient (k (COk o)) w1 in (w2, ((t, s, WOk o) :: ev, r))
      | (w1, WErr e) =>
        let '(w2, (ev, r)) := run_uclient (k (CErr e)) w1 in (w2, ((t, s, WErr e) :: ev, r))
      | (w1, WPanic) =>
        let '(w2, (ev, r)) := run_uclient (k CPan) w1 in (w2, ((t, s, WPanic) :: ev, r))
      | (w1, WUb) => (w1, ([(t, s, WUb)], WUb))
      end
    end.

  (** [writer.write(&x)] (/repo/src/std{140,430}/writer.rs:94-99) for the built-in implementations *)
  Definition p_write (w : writer W) (x : wval) : writer W * wres :=
    let '(w', (_, r)) := run_uclient (no_catch (c_val tg l x)) w in (w', r).

  (** [catch_unwind(|| writer.write(&x))] for each value, whatever the results *)
  (* User side: several calls of /repo/src/std140/writer.rs:94-99, /repo/src/std430/writer.rs:94-99. *)
  Fixpoint p_writes (xs : list wval) (w : writer W) : writer W * list wres :=
    match xs with
    | [] => (w, [])
    | x :: xs' =>
      let '(w1, r) := p_write w x in
      let '(w2, rs) := p_writes xs' w1 in
      (w2, r :: rs)
    end.

  (** ** [write_iter] (/repo/src/std{140,430}/writer.rs:105-123) on an iterator whose [next] may panic *)

  (** [Iterator::next]: [None], [Some(item)], or a panic ([NPanic]) *)
  (* Iterator::next as called in /repo/src/std140/writer.rs:114,118, /repo/src/std430/writer.rs:114,118. *)
  Inductive pnext := NNone | NSome (item : uclient) | NPanic.

  Context {I : Type} (next : I -> pnext * I).

  (** /repo/src/std{140,430}/writer.rs:118-122 *)
  Fixpoint p_iter_loop (fuel : nat) (offset : N) (it : I) (w : writer W) : option (I * (writer W * wres)) :=
    match fuel with
    | O => None
    | S fuel' =>
      match next it with
      | (NPanic, it1) => Some (it1, (w, WPanic))
      | (NNone, it1) => Some (it1, (w, WOk offset))
      | (NSome item, it1) =>
        match run_uclient item w with
        | (w1, (_, WOk _)) => p_iter_loop fuel' offset it1 w1
        | (w1, (_, r)) => Some (it1, (w1, r))
        end
      end
    end.

  (** /repo/src/std{140,430}/writer.rs:105-123 *)
  Definition p_write_iter (fuel : nat) (it : I) (w : writer W) : option (I * (writer W * wres)) :=
    let offset := w_offset w in
    match next it with
    | (NPanic, it1) => Some (it1, (w, WPanic))
    | (NSome item, it1) =>
      match run_uclient item w with
      | (w1, (_, WOk offset)) => p_iter_loop fuel offset it1 w1
      | (w1, (_, r)) => Some (it1, (w1, r))
      end
    | (NNone, it1) => p_iter_loop fuel offset it1 w
    end.
End Unwind.

(** A [Vec<u8>] that cannot grow beyond [cap] bytes: [write_all] panics ("capacity overflow", as std's
    does at [isize::MAX] bytes) and appends nothing. *)
(* std's impl Write for Vec<u8>, used in /repo/src/std140/dynamic_uniform.rs:55-56. *)
Definition capped_vec (cap : N) : panic_impl (list byte) := fun v bs =>
  if len v + len bs <=? cap then ((v ++ bs)%list, SOk) else (v, SPanic).
