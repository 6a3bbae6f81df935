(** * /repo/crevice-derive/src/layout.rs

    The derive macro as a function from derive input to generated items, and
    the meaning rustc gives to those items. *)

From Coq Require Import NArith String Bool List DecimalString.
From Verif Require Import Rust Internal Prims.
Import ListNotations.
Local Open Scope string_scope.
Local Open Scope N_scope.

(** ** Macro input (syn's [DeriveInput])

    Field types are represented by their layout version: the macro only ever
    mentions a field type [ty] as [<ty as AsStd140>::Output]
    (/repo/crevice-derive/src/layout.rs:40-51), so the model stores that
    (resolved) type.  Visibility, attributes, where clauses are dropped;
    [di_generics] lists the names of the generic parameters. *)
Inductive data_in :=
| DNamed (fs : list (string * sty))
| DUnnamed (ts : list sty)
| DUnit
| DEnum
| DUnion.

(** Identifiers are represented without a raw prefix [r#]: [format_ident!] strips it and rustc
    compares names without it. *)
(* syn's DeriveInput as /repo/crevice-derive/src/layout.rs:22-37 uses it. *)
Record derive_input := DeriveInput {
  di_ident : string;
  di_generics : list string;
  di_data : data_in
}.

(** ** Generated code *)

(** Constant expressions in the generated code. *)
(* The expressions in /repo/crevice-derive/src/layout.rs:54-59, 71-92, 106-124. *)
Inductive cexpr :=
| CLit (n : N)                       (* a usize literal *)
| CSizeOf (t : sty)                  (* ::core::mem::size_of::<t>() *)
| CAlignOf (t : sty)                 (* <t as StdN>::ALIGNMENT *)
| CAdd (a b : cexpr)                 (* a + b *)
| CCall (f : string)                 (* f() *)
| CMaxArr (es : list cexpr)          (* ::crevice::internal::max_arr([..]) *)
| CAlignOffset (a b : cexpr).        (* ::crevice::internal::align_offset(a, b) *)

(** Types of generated fields: [<ty as AsStdN>::Output] or [[u8; f()]]. *)
(* /repo/crevice-derive/src/layout.rs:128-142. *)
Inductive gfield := GOut (t : sty) | GPad (n : cexpr).

(** The generated items:
    - [g_pads]: the padding [const fn]s (name, body), /repo/crevice-derive/src/layout.rs:95-126;
    - [g_name], [g_generics], [g_fields]: the generated struct, 166-174;
    - [g_align]: [const ALIGNMENT], 241-243;
    - [g_output]: the path [type Output = ..] (name, generic arguments), 246;
    - [g_inits]: fields initialised by [as_stdN] (all others come from
      [..zeroed()]), 248-254;
    - [g_from]: fields of [Self] initialised by [from_stdN], 256-260. *)
Record generated := Generated {
  g_pads : list (string * cexpr);
  g_name : string;
  g_generics : list string;
  g_fields : list (string * gfield);
  g_align : cexpr;
  g_output : string * list string;
  g_inits : list string;
  g_from : list string
}.

(** Arguments passed by /repo/crevice-derive/src/lib.rs:8-22. *)
Definition trait_name (l : lay) : string :=
  match l with L140 => "Std140" | L430 => "Std430" end.
(* /repo/crevice-derive/src/lib.rs:11,19. *)
Definition min_struct_alignment (l : lay) : N :=
  match l with L140 => 16 | L430 => 0 end.

(** [format_ident!] with a [usize] argument prints it in decimal. *)
(* /repo/crevice-derive/src/layout.rs:63,134: [#index] of [format_ident!]. *)
Definition dec (n : nat) : string := NilEmpty.string_of_uint (Nat.to_uint n).

(** /repo/crevice-derive/src/layout.rs:62-64 [format_ident!("_{}__{}Pad{}", input_name, trait_name, index)] *)
Definition pad_fn_name (l : lay) (input_name : string) (index : nat) : string :=
  "_" ++ input_name ++ "__" ++ trait_name l ++ "Pad" ++ dec index.

(** /repo/crevice-derive/src/layout.rs:134 [format_ident!("_pad{}", index)] *)
Definition pad_field_name (index : nat) : string := "_pad" ++ dec index.

(** /repo/crevice-derive/src/layout.rs:70-93, the closure [offset_after_field]; [acc] is the token
    stream built so far ([+] associates to the left).  [None] = index out of
    bounds (the macro would panic). *)
Fixpoint offset_after_loop (fields : list (string * sty)) (pad_fns : list string)
    (target : nat) (indices : list nat) (acc : cexpr) : option cexpr :=
  match indices with
  | [] => Some acc
  | index :: rest =>
    match nth_error fields index with
    | None => None
    | Some (_, field_ty) =>
      let acc := CAdd acc (CSizeOf field_ty) in
      if Nat.ltb index target then
        match nth_error pad_fns index with
        | None => None
        | Some pad_fn => offset_after_loop fields pad_fns target rest (CAdd acc (CCall pad_fn))
        end
      else offset_after_loop fields pad_fns target rest acc
    end
  end.

(* /repo/crevice-derive/src/layout.rs:70-93. *)
Definition offset_after_field (fields : list (string * sty)) (pad_fns : list string)
    (target : nat) : option cexpr :=
  offset_after_loop fields pad_fns target (seq 0 (S target)) (CLit 0).

(** /repo/crevice-derive/src/layout.rs:53-59 *)
Definition struct_alignment (l : lay) (fields : list (string * sty)) : cexpr :=
  CMaxArr (CLit (min_struct_alignment l) :: map (fun f => CAlignOf (snd f)) fields).

(** /repo/crevice-derive/src/layout.rs:98-124, body of one padding function. *)
Definition pad_fn_impl (l : lay) (fields : list (string * sty)) (pad_fns : list string)
    (index : nat) : option cexpr :=
  match offset_after_field fields pad_fns index with
  | None => None
  | Some starting_offset =>
    let next_field_or_self_alignment :=
      match nth_error fields (index + 1) with
      | Some next_field => CAlignOf (snd next_field)
      | None => struct_alignment l fields
      end in
    Some (CAlignOffset starting_offset next_field_or_self_alignment)
  end.

(** /repo/crevice-derive/src/layout.rs:128-142 *)
Fixpoint struct_fields_loop (pad_fns : list string) (index : nat) (fields : list (string * sty))
    : option (list (string * gfield)) :=
  match fields with
  | [] => Some []
  | (field_name, field_ty) :: rest =>
    match nth_error pad_fns index, struct_fields_loop pad_fns (S index) rest with
    | Some pad_fn, Some r =>
      Some ((field_name, GOut field_ty) :: (pad_field_name index, GPad (CCall pad_fn)) :: r)
    | _, _ => None
    end
  end.

(** /repo/crevice-derive/src/layout.rs:5-265, [emit].  [None]: the macro panics, i.e. the derive is a
    compile error ("Tuple structs are not supported" etc., 30-37).  The
    debug-methods part (176-225) is modelled in [DebugMetrics.v]. *)
Definition emit (l : lay) (input : derive_input) : option generated :=
  let input_name := di_ident input in
  let generated_name := trait_name l ++ input_name in            (* 26 *)
  match di_data input with
  | DNamed fields =>
    let pad_fns := map (pad_fn_name l input_name) (seq 0 (length fields)) in
    match map_opt (pad_fn_impl l fields pad_fns) (seq 0 (length fields)),
          struct_fields_loop pad_fns 0 fields with
    | Some pad_bodies, Some gfields =>
      Some {| g_pads := combine pad_fns pad_bodies;
              g_name := generated_name;
              g_generics := di_generics input;                   (* 171 #ty_generics *)
              g_fields := gfields;
              g_align := struct_alignment l fields;              (* 241-243 *)
              g_output := (generated_name, []);                  (* 246: no generics *)
              g_inits := map fst fields;                         (* 144-153 *)
              g_from := map fst fields |}                        (* 155-164 *)
    | _, _ => None
    end
  | DUnnamed _ => None
  | DUnit => None
  | DEnum => None
  | DUnion => None
  end.

(** ** rustc: const evaluation *)

(* Result of evaluating the functions of /repo/crevice-derive/src/layout.rs:106-124 at compile time (Rust reference, "Constant evaluation"). *)
Inductive cres :=
| CVal (n : N)
| COverflow        (* arithmetic overflow in a constant: compile error *)
| CUnresolved      (* missing function or trait impl: compile error *)
| CFuel.           (* evaluation did not terminate within the given call depth *)

(* Model only: sequencing of [cres]. *)
Definition cbind (r : cres) (k : N -> cres) : cres :=
  match r with CVal n => k n | e => e end.

(** [fuel] bounds the call depth. *)
(* Evaluation of /repo/crevice-derive/src/layout.rs:54-59, 71-92, 106-124, by the rules of Rust. *)
Fixpoint ceval (tg : target) (l : lay) (env : list (string * cexpr)) (fuel : nat)
  : cexpr -> cres :=
  fix ev (e : cexpr) : cres :=
    match e with
    | CLit n => CVal n
    | CSizeOf t => CVal (size_of tg t)
    | CAlignOf t => match std_align l t with Some a => CVal a | None => CUnresolved end
    | CAdd a b =>
      cbind (ev a) (fun x => cbind (ev b) (fun y =>
        if x + y <? umod tg then CVal (x + y) else COverflow))
    | CCall f =>
      match fuel with
      | O => CFuel
      | S fuel' =>
        match assoc f env with
        | Some body => ceval tg l env fuel' body
        | None => CUnresolved
        end
      end
    | CMaxArr es =>
      (fix evs (es : list cexpr) (k : list N -> cres) {struct es} : cres :=
         match es with
         | [] => k []
         | e :: es' => cbind (ev e) (fun x => evs es' (fun xs => k (x :: xs)))
         end) es
        (fun xs => match max_arr xs with Some m => CVal m | None => CUnresolved end)
    | CAlignOffset a b =>
      cbind (ev a) (fun x => cbind (ev b) (fun y => CVal (align_offset x y)))
    end.

(** ** rustc: the generated struct *)

(* Evaluation of the types in /repo/crevice-derive/src/layout.rs:138-139. *)
Definition eval_field (tg : target) (l : lay) (env : list (string * cexpr)) (fuel : nat)
    (gf : string * gfield) : option (string * sty) :=
  match snd gf with
  | GOut t => Some (fst gf, t)
  | GPad e =>
    match ceval tg l env fuel e with
    | CVal n => Some (fst gf, TArray PU8 n)
    | _ => None
    end
  end.

(** Does the layout type implement [Debug]?  Primitives, padding arrays and
    [Bool] (/repo/src/bool.rs:27-31) do; vectors and matrices derive it
    (/repo/src/std140/primitives.rs:48,103, /repo/src/std430/primitives.rs:48,103),
    generated structs derive it (/repo/crevice-derive/src/layout.rs:167); [DynamicUniformStd140] derives
    only [Clone, Copy] (/repo/src/std140/dynamic_uniform.rs:25). *)
Definition impl_debug (t : sty) : bool :=
  match t with TDyn _ => false | _ => true end.

(** [#[derive(Debug, Clone, Copy)]] on the generated struct (/repo/crevice-derive/src/layout.rs:167)
    requires every field type to implement [Debug] (E0277 otherwise); all layout
    types are [Clone + Copy]. *)
Definition field_debug (gf : string * gfield) : bool :=
  match snd gf with GOut t => impl_debug t | GPad _ => true end.

(** The type [StdNName] as rustc sees it, or [None] for a compile error:
    duplicate field names (E0124), wrong number of generic arguments in
    [type Output = ..] (E0107), a field without [Debug], failing const evaluation, or a type that is too
    large for the target.  The evaluation depth allowed is the number of padding
    functions plus one; [DeriveFacts.v] proves it is always enough. *)
(* /repo/crevice-derive/src/layout.rs:166-174, 238-246. *)
Definition compile (tg : target) (l : lay) (g : generated) : option sty :=
  if nodupb (map fst (g_fields g))
     && String.eqb (fst (g_output g)) (g_name g)
     && Nat.eqb (length (snd (g_output g))) (length (g_generics g))
     && forallb field_debug (g_fields g) then
    let fuel := S (length (g_pads g)) in
    match map_opt (eval_field tg l (g_pads g) fuel) (g_fields g),
          ceval tg l (g_pads g) fuel (g_align g) with
    | Some fs, CVal al =>
      let t := TStruct l (g_name g) al fs in
      if size_of tg t <? t_obj tg then Some t else None
    | _, _ => None
    end
  else None.

(** [#[derive(AsStdN)]] on a plain named struct: the type [Output]. *)
(* /repo/crevice-derive/src/layout.rs:227-264 and /repo/crevice-derive/src/lib.rs:8-22. *)
Definition derive_output (tg : target) (l : lay) (name : string) (fields : list (string * sty))
  : option sty :=
  match emit l (DeriveInput name [] (DNamed fields)) with
  | Some g => compile tg l g
  | None => None
  end.

(** The fields initialised from [self] (/repo/crevice-derive/src/layout.rs:248-254). *)
Definition derive_inits (l : lay) (name : string) (fields : list (string * sty)) : list string :=
  match emit l (DeriveInput name [] (DNamed fields)) with
  | Some g => g_inits g
  | None => []
  end.

(** The fields of [Self] initialised by [from_stdN] (/repo/crevice-derive/src/layout.rs:256-260). *)
Definition derive_from (l : lay) (name : string) (fields : list (string * sty)) : list string :=
  match emit l (DeriveInput name [] (DNamed fields)) with
  | Some g => g_from g
  | None => []
  end.
