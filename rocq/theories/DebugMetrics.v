(** * /repo/crevice-derive/src/layout.rs:176-225, the [debug-methods] feature

    [debug_metrics()]: the data it collects and the text it formats.
    [debug_definitions()] (219-224) returns source text: its tokens are in Tokens.v
    (the white space of [stringify!] is not specified by rustc). *)

From Coq Require Import NArith String Ascii Bool List DecimalString DecimalN.
From Verif Require Import Rust Internal Prims Derive Host.
Import ListNotations.
Local Open Scope string_scope.
Local Open Scope N_scope.

(** /repo/crevice-derive/src/layout.rs:202-207 [struct Field] *)
Record dbg_field := DbgField { df_name : string; df_offset : N; df_size : N }.
(* /repo/crevice-derive/src/layout.rs:196-213. *)
Record dbg_metrics := DbgMetrics { dm_size : N; dm_align : N; dm_fields : list dbg_field }.

(** /repo/crevice-derive/src/layout.rs:186 [::core::mem::size_of::<#field_ty>()], inside the body of
    [debug_metrics].  [host_size h] is the size of the *host* type [h]: a parameter,
    because rustc does not specify it for [#[repr(Rust)]] structs.  The item
    [struct Field { name: &'static str, offset: usize, size: usize }] (206-210) is local to
    the same body and shadows a user's struct of that name, so a field whose type is
    written [Field] is measured as that local struct: four words.  (Simplification:
    user structs are named by their identifier, not by a longer path.) *)
Definition size_in_body (host_size : hty -> N) (tg : target) (h : hty) : N :=
  match h with
  | HStruct n _ => if String.eqb n "Field" then 4 * (t_bits tg / 8) else host_size h
  | _ => host_size h
  end.

(** [stringify!(#field_name)] keeps the prefix of a raw identifier ([r#type]); field names are
    represented without it (Derive.v), [raw] tells which ones are written with it. *)
(* /repo/crevice-derive/src/layout.rs:185. *)
Definition stringify_ident (raw : string -> bool) (f : string) : string := if raw f then "r#" ++ f else f.

(** [debug_metrics()] of the struct generated for [HStruct name fs]. *)
(* /repo/crevice-derive/src/layout.rs:177-213. *)
Definition debug_metrics (raw : string -> bool) (host_size : hty -> N) (tg : target) (l : lay)
    (name : string) (fs : list (string * hty)) : option dbg_metrics :=
  match out_ty tg l (HStruct name fs) with
  | None => None
  | Some t =>
    match std_align l t,                                            (* 200 *)
          map_opt (fun nf =>                                        (* 178-193 *)
            match assoc (fst nf) (field_offsets tg t) with          (* 188-189 *)
            | Some o => Some (DbgField (stringify_ident raw (fst nf)) o (size_in_body host_size tg (snd nf)))
            | None => None
            end) fs with
    | Some a, Some dfs => Some (DbgMetrics (size_of tg t) a dfs)    (* 199-216 *)
    | _, _ => None
    end
  end.

(** Sizes of host types that Rust does specify: primitives, [bool], the [#[repr(C)]]
    structs of mint and cgmath (whose fields all have the same type), and types that are
    layout types already. *)
(* Platform, not code of the repository: the size_of at /repo/crevice-derive/src/layout.rs:186, where Rust specifies it. *)
Fixpoint known_host_size (tg : target) (h : hty) : option N :=
  match h with
  | HPrim p => Some (psize p)
  | HBool => Some 1
  | HEasy _ _ fs =>
    match map_opt (fun nf => known_host_size tg (snd nf)) fs with
    | Some ss => Some (fold_right N.add 0 ss)
    | None => None
    end
  | HOut l h' => match out_ty tg l h' with Some t => Some (size_of tg t) | None => None end
  | HMinty _ _ | HDyn _ | HStruct _ _ => None
  end.
(* Platform, not code of the repository: (as [known_host_size]). *)
Definition host_size_ok (tg : target) (host_size : hty -> N) : Prop :=
  forall h n, known_host_size tg h = Some n -> host_size h = n.

(** ** The text (/repo/crevice-derive/src/layout.rs:212) *)

(** [{}] of a [usize] *)
(* Formatting at /repo/crevice-derive/src/layout.rs:212. *)
Definition decN (n : N) : string := NilEmpty.string_of_uint (N.to_uint n).
(* Formatting at /repo/crevice-derive/src/layout.rs:212. *)
Definition nl1 : string := String "010" "".
(* Formatting at /repo/crevice-derive/src/layout.rs:212. *)
Definition quote1 : string := String """" "".

(** [{:#?}] of one [Field] inside a [Vec] ([#[derive(Debug)]], 205; std's
    pretty printer indents by four spaces and puts a comma after each entry; the
    [Debug] of a [&str] made of identifier characters is the text between quotes). *)
Definition field_text (f : dbg_field) : string :=
  "    Field {" ++ nl1
  ++ "        name: " ++ quote1 ++ df_name f ++ quote1 ++ "," ++ nl1
  ++ "        offset: " ++ decN (df_offset f) ++ "," ++ nl1
  ++ "        size: " ++ decN (df_size f) ++ "," ++ nl1
  ++ "    }," ++ nl1.

(** [{:#?}] of [Vec<Field>] *)
(* derived Debug of the struct at /repo/crevice-derive/src/layout.rs:202-207. *)
Definition fields_text (fs : list dbg_field) : string :=
  match fs with
  | [] => "[]"
  | _ :: _ => "[" ++ nl1 ++ fold_right (fun f s => field_text f ++ s) "]" fs
  end.

(** [format!("Size {}, Align {}, fields: {:#?}", size, align, fields)] *)
(* /repo/crevice-derive/src/layout.rs:212. *)
Definition debug_metrics_text (m : dbg_metrics) : string :=
  "Size " ++ decN (dm_size m) ++ ", Align " ++ decN (dm_align m) ++ ", fields: " ++ fields_text (dm_fields m).
