(** * User code: slices of layout values as bytes

    Generated and built-in layout types are [Pod] (/repo/crevice-derive/src/layout.rs:238-239,
    /repo/src/std140/primitives.rs, /repo/src/std430/primitives.rs), which the crate advertises
    "for use with other libraries" (/repo/src/lib.rs:10-11): [bytemuck::cast_slice] turns a
    slice of them into bytes without a [Writer], and back.  This file is not crevice code: it
    models those two casts. *)

From Coq Require Import NArith String Bool List.
From Coq Require Import Strings.Byte.
From Verif Require Import Rust Host.
Import ListNotations.
Local Open Scope N_scope.

(** [bytemuck::cast_slice::<T, u8>(&ss)]: the elements of a Rust slice lie at multiples of
    [size_of::<T>()] (Rust reference, "Type Layout"). *)
Definition cast_slice (tg : target) (t : sty) (ss : list sval) : option (list byte) :=
  match map_opt (bytes_of tg t) ss with
  | Some bss => Some (concat bss)
  | None => None
  end.

(** [bytemuck::cast_slice::<u8, T>(bs)] (or [pod_collect_to_vec]), [None] for the panics on a
    size of zero and on a length that is not a multiple of the size.  (The pointer alignment
    check is not modelled.) *)
Definition uncast_slice (tg : target) (t : sty) (bs : list byte) : option (list sval) :=
  let n := size_of tg t in
  if (n =? 0) || negb (len bs mod n =? 0) then None
  else map_opt (from_bytes tg t) (chunks (N.to_nat (len bs / n)) (N.to_nat n) bs).
