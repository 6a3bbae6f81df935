(** * Rust platform model

    This file is not crevice code: it models the parts of the Rust language,
    [core] and [bytemuck] that crevice's observable behaviour depends on.
    Everything here is total and computable. *)

From Coq Require Import NArith String Bool List.
From Coq Require Import Strings.Byte.
Import ListNotations.
Local Open Scope N_scope.

(** The two layouts. crevice has two textually parallel modules,
    /repo/src/std140.rs:1-20 and /repo/src/std430.rs:1-18; definitions that
    are identical in both are modelled once, parametrised by [lay]. *)
Inductive lay := L140 | L430.

(* Model only: equality test on [lay]. *)
Definition lay_eqb (a b : lay) : bool :=
  match a, b with L140, L140 | L430, L430 => true | _, _ => false end.

(** ** Compilation targets *)

(** [t_align4], [t_align8]: [align_of] of the 4-byte and 8-byte primitives
    (x86-64: 4/8, i686-linux: 4/4, avr: 1/1).  [t_bits]: width of [usize].
    [t_big]: big-endian.  [t_checks]: built with overflow checks (debug).
    [t_obj]: rustc's (exclusive) bound on the size of a type, at most
    [isize::MAX + 1]. *)
(* Platform, not code of the repository: what the Rust reference leaves to the target (chapter "Type layout"), and whether overflow checks are on (chapter "Operator expressions", overflow). *)
Record target := Target {
  t_align4 : N;
  t_align8 : N;
  t_bits : N;
  t_big : bool;
  t_checks : bool;
  t_obj : N
}.

(* Platform, not code of the repository: alignments are powers of two at most the size, usize has at least 16 bits, objects are at most isize::MAX bytes (Rust reference, "Type layout", "Numeric types"). *)
Definition target_ok (tg : target) : bool :=
  existsb (N.eqb (t_align4 tg)) [1; 2; 4]
  && existsb (N.eqb (t_align8 tg)) [1; 2; 4; 8]
  && (16 <=? t_bits tg)
  && (t_obj tg <=? 2 ^ (t_bits tg - 1)).

(* Platform, not code of the repository: example targets, used in examples only. *)
Definition x86_64 : target := Target 4 8 64 false true (2 ^ 61).
(* Platform, not code of the repository: example target. *)
Definition x86_64_release : target := Target 4 8 64 false false (2 ^ 61).
(* Platform, not code of the repository: example target. *)
Definition i686 : target := Target 4 4 32 false true (2 ^ 31).
(* Platform, not code of the repository: example target. *)
Definition i686_release : target := Target 4 4 32 false false (2 ^ 31).
(* Platform, not code of the repository: example target. *)
Definition powerpc64 : target := Target 4 8 64 true true (2 ^ 61).
(* Platform, not code of the repository: example target. *)
Definition avr_release : target := Target 1 1 16 false false (2 ^ 15).

(** ** usize addition *)

(** A Rust computation that may panic. *)
(* Platform, not code of the repository: for the additions in /repo/src/std140/sizer.rs:68,71, /repo/src/std430/sizer.rs:68,71, /repo/src/std140/writer.rs:135,141, /repo/src/std430/writer.rs:135,141. *)
Inductive outcome (A : Type) := Done (a : A) | Panicked.
Arguments Done {A} a.
Arguments Panicked {A}.

(** [usize::MAX + 1]. *)
(* Platform, not code of the repository: the range of the usize fields in /repo/src/std140/sizer.rs:49, /repo/src/std430/sizer.rs:49, /repo/src/std140/writer.rs:80, /repo/src/std430/writer.rs:80. *)
Definition umod (tg : target) : N := 2 ^ t_bits tg.

(** [a + b] on [usize]: panics on overflow when overflow checks are enabled,
    wraps otherwise (Rust reference, "Overflow"). *)
Definition uadd (tg : target) (a b : N) : outcome N :=
  if a + b <? umod tg then Done (a + b)
  else if t_checks tg then Panicked
  else Done ((a + b) mod umod tg).

(** ** Primitive types

    [PBool] is crevice's [Bool], a [#[repr(transparent)]] newtype of [u32]
    (/repo/src/bool.rs:8-10).  [PU8] only occurs in generated padding arrays
    (/repo/crevice-derive/src/layout.rs:139). *)
Inductive prim := PF32 | PF64 | PI32 | PU32 | PU8 | PBool.

(* Model only: equality test on [prim]. *)
Definition prim_eqb (a b : prim) : bool :=
  match a, b with
  | PF32, PF32 | PF64, PF64 | PI32, PI32 | PU32, PU32 | PU8, PU8 | PBool, PBool => true
  | _, _ => false
  end.

(** [size_of]. *)
(* Platform, not code of the repository: Rust reference, "Type layout", primitive sizes; Bool is repr(transparent) over u32, /repo/src/bool.rs:8-10. *)
Definition psize (p : prim) : N :=
  match p with
  | PF64 => 8
  | PU8 => 1
  | _ => 4
  end.

(** [align_of]. *)
(* Platform, not code of the repository: Rust reference, "Type layout": alignment of primitives depends on the target. *)
Definition palign (tg : target) (p : prim) : N :=
  match p with
  | PF64 => t_align8 tg
  | PU8 => 1
  | _ => t_align4 tg
  end.

(** A primitive value is its bit pattern, so floats are compared bit for bit
    (NaN payloads and signed zeros included); [i32] is two's complement. *)
(* Platform, not code of the repository: any bit pattern is valid, as bytemuck's Pod demands (/repo/src/std140/primitives.rs:54-55, /repo/src/bool.rs:12-13). *)
Definition pbits_ok (p : prim) (n : N) : bool := n <? 2 ^ (8 * psize p).

(** ** Encoding of primitives in memory *)

(* Platform, not code of the repository: a byte of a primitive's representation. *)
Definition byte_of_N (n : N) : byte :=
  match Byte.of_N (n mod 256) with Some b => b | None => x00 end.

(** least significant byte first *)
(* Platform, not code of the repository: little-endian bytes. *)
Fixpoint le_bytes (k : nat) (n : N) : list byte :=
  match k with
  | O => []
  | S k' => byte_of_N n :: le_bytes k' (n / 256)
  end.

(* Platform, not code of the repository: inverse of [le_bytes]. *)
Fixpoint le_val (bs : list byte) : N :=
  match bs with
  | [] => 0
  | b :: r => Byte.to_N b + 256 * le_val r
  end.

(** native-endian encoding and decoding of a primitive *)
(* Platform, not code of the repository: memory representation, as seen by bytemuck::bytes_of in /repo/src/std140/traits.rs:27-29, /repo/src/std430/traits.rs:27-29. *)
Definition enc_prim (tg : target) (p : prim) (n : N) : list byte :=
  let bs := le_bytes (N.to_nat (psize p)) n in
  if t_big tg then rev bs else bs.

(* Platform, not code of the repository: reading bytes as a primitive (bytemuck::from_bytes and the like, user side). *)
Definition dec_bytes (tg : target) (bs : list byte) : N :=
  le_val (if t_big tg then rev bs else bs).

(** ** Lists *)

(* Model only: length of a byte string as [N]. *)
Definition len {A} (l : list A) : N := N.of_nat (length l).

(* Model only: lookup by name. *)
Definition assoc {A} (k : string) (l : list (string * A)) : option A :=
  match find (fun kv => String.eqb k (fst kv)) l with
  | Some kv => Some (snd kv)
  | None => None
  end.

(* Model only: no name occurs twice (rustc error E0124 for fields). *)
Fixpoint nodupb (l : list string) : bool :=
  match l with
  | [] => true
  | x :: r => negb (existsb (String.eqb x) r) && nodupb r
  end.

(* Model only: map with failure. *)
Definition map_opt {A B} (f : A -> option B) : list A -> option (list B) :=
  fix go (l : list A) : option (list B) :=
    match l with
    | [] => Some []
    | x :: r =>
      match f x, go r with
      | Some y, Some ys => Some (y :: ys)
      | _, _ => None
      end
    end.

(** [bs[off .. off + n]], [None] when out of bounds (a Rust slice panic). *)
(* Platform, not code of the repository: slicing. *)
Definition read_at (bs : list byte) (off n : N) : option (list byte) :=
  if off + n <=? len bs
  then Some (firstn (N.to_nat n) (skipn (N.to_nat off) bs))
  else None.

(** ** Types of layout-specific values

    The Rust types that occur as [Std140]/[Std430] implementors and as their
    fields.

    - [TPrim p]: a primitive;
    - [TArray p n]: [[p; n]];
    - [TStruct l name al fs]: a [#[repr(C)]] struct with fields [fs] whose
      [Std140]/[Std430] impl (according to [l]) has [const ALIGNMENT = al];
    - [TDyn t]: [DynamicUniformStd140<t>], [#[repr(transparent)]]
      (/repo/src/std140/dynamic_uniform.rs:25-27). *)
Inductive sty :=
| TPrim (p : prim)
| TArray (p : prim) (n : N)
| TStruct (l : lay) (name : string) (al : N) (fs : list (string * sty))
| TDyn (t : sty).

(** Nominal type equality is approximated by structural equality. *)
(* Model only. *)
Fixpoint sty_eqb (a b : sty) {struct a} : bool :=
  match a, b with
  | TPrim p, TPrim q => prim_eqb p q
  | TArray p n, TArray q m => prim_eqb p q && (n =? m)
  | TStruct l n al fs, TStruct l' n' al' fs' =>
    lay_eqb l l' && String.eqb n n' && (al =? al')
    && (fix go (xs ys : list (string * sty)) : bool :=
          match xs, ys with
          | [], [] => true
          | (x, t) :: xs', (y, u) :: ys' => String.eqb x y && sty_eqb t u && go xs' ys'
          | _, _ => false
          end) fs fs'
  | TDyn t, TDyn u => sty_eqb t u
  | _, _ => false
  end.

(** ** [#[repr(C)]] layout (Rust reference, "The C Representation") *)

(** [padding_needed_for] of the Rust reference; [alignment] is never 0. *)
Definition padding_needed_for (offset alignment : N) : N :=
  let misalignment := offset mod alignment in
  if 0 <? misalignment then alignment - misalignment else 0.

(** Fields are given as (size, alignment) pairs. *)
(* Platform, not code of the repository: Rust reference, "Type layout", the C representation; attribute at /repo/src/std140/primitives.rs:49,104, /repo/src/std430/primitives.rs:49,104, /repo/crevice-derive/src/layout.rs:168. *)
Fixpoint repr_c_offsets (cur : N) (fs : list (N * N)) : list N :=
  match fs with
  | [] => []
  | (sz, al) :: r =>
    let o := cur + padding_needed_for cur al in
    o :: repr_c_offsets (o + sz) r
  end.

(* Platform, not code of the repository: as [repr_c_offsets]: end of the last field. *)
Fixpoint repr_c_end (cur : N) (fs : list (N * N)) : N :=
  match fs with
  | [] => cur
  | (sz, al) :: r => repr_c_end (cur + padding_needed_for cur al + sz) r
  end.

(* Platform, not code of the repository: as [repr_c_offsets]: maximum of the field alignments. *)
Definition repr_c_align (fs : list (N * N)) : N := fold_right N.max 1 (map snd fs).

(* Platform, not code of the repository: as [repr_c_offsets]: end rounded up to the alignment. *)
Definition repr_c_size (fs : list (N * N)) : N :=
  let e := repr_c_end 0 fs in
  e + padding_needed_for e (repr_c_align fs).

(** [(size_of, align_of)] of a type. *)
(* Platform, not code of the repository: repr(C) structs (/repo/src/std140/primitives.rs:49,104, /repo/crevice-derive/src/layout.rs:168), repr(transparent) (/repo/src/bool.rs:9, /repo/src/std140/dynamic_uniform.rs:26), arrays (/repo/crevice-derive/src/layout.rs:139, /repo/src/std140/primitives.rs:128). *)
Fixpoint layout_of (tg : target) (t : sty) : N * N :=
  match t with
  | TPrim p => (psize p, palign tg p)
  | TArray p n => (n * psize p, palign tg p)
  | TStruct _ _ _ fs =>
    let ls := map (fun nf => layout_of tg (snd nf)) fs in
    (repr_c_size ls, repr_c_align ls)
  | TDyn t' => layout_of tg t'
  end.

(** [core::mem::size_of], [core::mem::align_of]. *)
(* Platform, not code of the repository: used at /repo/src/std140/traits.rs:84, /repo/src/std430/traits.rs:84, /repo/src/std140/sizer.rs:64, /repo/src/std430/sizer.rs:64, /repo/src/std140/writer.rs:141, /repo/src/std430/writer.rs:141, /repo/crevice-derive/src/layout.rs:78. *)
Definition size_of (tg : target) (t : sty) : N := fst (layout_of tg t).
(* Platform, not code of the repository: core::mem::align_of. *)
Definition align_of (tg : target) (t : sty) : N := snd (layout_of tg t).

(** [offset_of!(t, field)] for a struct. *)
(* Platform, not code of the repository: where the fields of /repo/crevice-derive/src/layout.rs:166-174 end up. *)
Definition field_offsets (tg : target) (t : sty) : list (string * N) :=
  match t with
  | TStruct _ _ _ fs =>
    combine (map fst fs) (repr_c_offsets 0 (map (fun nf => layout_of tg (snd nf)) fs))
  | _ => []
  end.

(** ** Values of these types *)

(* Values of the types in /repo/src/std140/primitives.rs:50-52,105-107, /repo/src/std430/primitives.rs:50-52,105-107, /repo/src/bool.rs:10, /repo/src/std140/dynamic_uniform.rs:27, /repo/crevice-derive/src/layout.rs:166-174. *)
Inductive sval :=
| SBits (n : N)                        (* primitive *)
| SArr (ns : list N)                   (* array of primitives *)
| SRec (fs : list (string * sval))     (* struct, fields in declaration order *)
| SNew (s : sval).                     (* DynamicUniformStd140(s) *)

(** [s] is a value of type [t]. *)
(* Typing of [sval] (same places). *)
Fixpoint has_sty (t : sty) (s : sval) {struct t} : bool :=
  match t, s with
  | TPrim p, SBits n => pbits_ok p n
  | TArray p k, SArr ns => (len ns =? k) && forallb (pbits_ok p) ns
  | TStruct _ _ _ fs, SRec vs =>
    (fix go (fs : list (string * sty)) (vs : list (string * sval)) : bool :=
       match fs, vs with
       | [], [] => true
       | (f, ft) :: fs', (g, v) :: vs' => String.eqb f g && has_sty ft v && go fs' vs'
       | _, _ => false
       end) fs vs
  | TDyn t', SNew s' => has_sty t' s'
  | _, _ => false
  end.

(** [bytemuck::Zeroable::zeroed()]: all bits zero. *)
Fixpoint zeroed (t : sty) : sval :=
  match t with
  | TPrim _ => SBits 0
  | TArray _ n => SArr (repeat 0 (N.to_nat n))
  | TStruct _ _ _ fs => SRec (map (fun nf => (fst nf, zeroed (snd nf))) fs)
  | TDyn t' => SNew (zeroed t')
  end.

(** ** Memory representation

    One [option byte] per byte of the value: [None] is a byte that Rust leaves
    uninitialised (padding inserted by the compiler).  The outer [option] is
    [None] for ill-typed arguments. *)
(* Platform, not code of the repository: memory of the types of [sval]; what bytemuck::bytes_of reads in /repo/src/std140/traits.rs:27-29, /repo/src/std430/traits.rs:27-29, /repo/src/std140/writer.rs:138, /repo/src/std430/writer.rs:138. *)
Fixpoint mem_of (tg : target) (t : sty) (s : sval) {struct t} : option (list (option byte)) :=
  match t, s with
  | TPrim p, SBits n =>
    if pbits_ok p n then Some (map Some (enc_prim tg p n)) else None
  | TArray p k, SArr ns =>
    if (len ns =? k) && forallb (pbits_ok p) ns
    then Some (map Some (flat_map (enc_prim tg p) ns)) else None
  | TStruct _ _ _ fs, SRec vs =>
    let al := repr_c_align (map (fun nf => layout_of tg (snd nf)) fs) in
    (fix go (cur : N) (fs : list (string * sty)) (vs : list (string * sval))
       : option (list (option byte)) :=
       match fs, vs with
       | [], [] => Some (repeat None (N.to_nat (padding_needed_for cur al)))
       | (f, ft) :: fs', (g, v) :: vs' =>
         let '(sz, fal) := layout_of tg ft in
         let pad := padding_needed_for cur fal in
         match String.eqb f g, mem_of tg ft v, go (cur + pad + sz) fs' vs' with
         | true, Some m, Some r => Some (repeat None (N.to_nat pad) ++ m ++ r)
         | _, _, _ => None
         end
       | _, _ => None
       end) 0 fs vs
  | TDyn t', SNew s' => mem_of tg t' s'
  | _, _ => None
  end.

(** [bytemuck::bytes_of]: [None] if the value is ill-typed or if exposing it
    as bytes would read uninitialised memory (undefined behaviour). *)
Definition bytes_of (tg : target) (t : sty) (s : sval) : option (list byte) :=
  match mem_of tg t s with
  | Some m => map_opt (fun c => c) m
  | None => None
  end.

(** split a byte string into [n] pieces of [k] bytes *)
(* Model only: elements of an array. *)
Fixpoint chunks (n : nat) (k : nat) (bs : list byte) : list (list byte) :=
  match n with
  | O => []
  | S n' => firstn k bs :: chunks n' k (skipn k bs)
  end.

(** [bytemuck::from_bytes] / [pod_read_unaligned]: reinterpret a byte string;
    [None] when the length is not [size_of] (bytemuck panics).  (The pointer
    alignment check of [from_bytes] is not modelled.) *)
Fixpoint from_bytes (tg : target) (t : sty) (bs : list byte) {struct t} : option sval :=
  match t with
  | TPrim p =>
    if len bs =? psize p then Some (SBits (dec_bytes tg bs)) else None
  | TArray p n =>
    if len bs =? n * psize p
    then Some (SArr (map (dec_bytes tg) (chunks (N.to_nat n) (N.to_nat (psize p)) bs)))
    else None
  | TStruct _ _ _ fs =>
    let al := repr_c_align (map (fun nf => layout_of tg (snd nf)) fs) in
    match
      (fix go (cur : N) (fs : list (string * sty)) (bs : list byte)
         : option (list (string * sval)) :=
         match fs with
         | [] => if len bs =? padding_needed_for cur al then Some [] else None
         | (f, ft) :: fs' =>
           let '(sz, fal) := layout_of tg ft in
           let pad := padding_needed_for cur fal in
           if pad + sz <=? len bs then
             let bs' := skipn (N.to_nat pad) bs in
             match from_bytes tg ft (firstn (N.to_nat sz) bs'),
                   go (cur + pad + sz) fs' (skipn (N.to_nat sz) bs') with
             | Some v, Some vs => Some ((f, v) :: vs)
             | _, _ => None
             end
           else None
         end) 0 fs bs
    with
    | Some vs => Some (SRec vs)
    | None => None
    end
  | TDyn t' =>
    match from_bytes tg t' bs with Some s => Some (SNew s) | None => None end
  end.

(** Field access [value.f]. *)
(* Platform, not code of the repository: field access, e.g. /repo/src/util.rs:24,48, /repo/crevice-derive/src/layout.rs:161. *)
Definition sfield (f : string) (s : sval) : option sval :=
  match s with SRec vs => assoc f vs | _ => None end.

(** Struct expression with functional update,
    [T { f1: v1, .., ..Zeroable::zeroed() }]: listed fields take the given
    values, all others come from the zeroed base.  [None] if a listed name is
    not a field or is listed twice (compile errors E0560, E0062). *)
(* Platform, not code of the repository: /repo/src/util.rs:12-17,36-41, /repo/crevice-derive/src/layout.rs:249-253. *)
Definition struct_update (t : sty) (inits : list (string * sval)) : option sval :=
  match t, zeroed t with
  | TStruct _ _ _ decl, SRec base =>
    if forallb (fun i => existsb (String.eqb (fst i)) (map fst decl)) inits
       && nodupb (map fst inits)
    then Some (SRec (map (fun nz =>
           (fst nz, match assoc (fst nz) inits with Some v => v | None => snd nz end)) base))
    else None
  | _, _ => None
  end.
