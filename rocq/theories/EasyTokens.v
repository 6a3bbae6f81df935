(** * The macro [easy_impl!] at the level of tokens

    What a row of [easy_impl!] (/repo/src/util.rs:3-60) expands to; SpecEasyTokens.v reads it back as Rust.  (The expansion of
    [macro_rules] itself, the substitution of the row for the variables, is written out here by hand.) *)

From Coq Require Import NArith String Bool List.
From Verif Require Import Rust Derive GlslGen Tokens.
Import ListNotations.
Local Open Scope string_scope.

(** [$std_name $imp_ty { $($field),* }] *)
(* /repo/src/util.rs:4. *)
Record easy_row := EasyRow { er_std : string; er_ty : list tok; er_fields : list string }.

(* [crate::stdN::s], /repo/src/util.rs:7, 8, 12, 15, 24, 31, 32, 36, 48, 55. *)
Definition crate_path (l : lay) (s : string) : list tok := [kw "crate"; TP "::"; kw (mod_name l); TP "::"; kw s].

(* /repo/src/util.rs:6-28 (std140), 30-52 (std430). *)
Definition easy_impl_toks (l : lay) (r : easy_row) : list tok :=
  ([TP "#"; TG Brack [kw "allow"; TG Paren [kw "clippy"; TP "::"; kw "needless_update"]]; kw "impl"]
   ++ crate_path l ("As" ++ trait_name l) ++ [kw "for"] ++ er_ty r ++
   [TG Brace
     ([kw "type"; kw "Output"; TP "="] ++ crate_path l (er_std r) ++
      [TP ";";
       TP "#"; TG Brack [kw "inline"];
       kw "fn"; as_trait_method l; TG Paren [TP "&"; kw "self"]; TP "->"; kw "Self"; TP "::"; kw "Output";
       TG Brace (crate_path l (er_std r) ++
         [TG Brace
           (flat_map (fun f => [kw f; TP ":"; kw "self"; TP "."; kw f; TP "."; as_trait_method l; TG Paren []; TP ","]) (er_fields r)
            ++ [TP ".."; kw "bytemuck"; TP "::"; kw "Zeroable"; TP "::"; kw "zeroed"; TG Paren []])]);
       TP "#"; TG Brack [kw "inline"];
       kw "fn"; from_trait_method l; TG Paren [kw "value"; TP ":"; kw "Self"; TP "::"; kw "Output"]; TP "->"; kw "Self";
       TG Brace [kw "Self";
         TG Brace
           (flat_map (fun f => [kw f; TP ":"; TP "<"; kw "_"; kw "as"] ++ crate_path l ("As" ++ trait_name l)
                               ++ [TP ">"; TP "::"; from_trait_method l; TG Paren [kw "value"; TP "."; kw f]; TP ","]) (er_fields r))]])])%list.

(** One row *)
(* /repo/src/util.rs:5-58. *)
Definition easy_toks (r : easy_row) : list tok :=
  (easy_impl_toks L140 r ++ easy_impl_toks L430 r
   ++ [kw "unsafe"; kw "impl"; kw "crate"; TP "::"; kw "glsl"; TP "::"; kw "Glsl"; kw "for"] ++ er_ty r ++                                 (* 54-56 *)
   [TG Brace ([kw "const"; kw "NAME"; TP ":"; TP "&"; TP "'"; kw "static"; kw "str"; TP "="] ++ crate_path L140 (er_std r)
              ++ [TP "::"; kw "NAME"; TP ";"])])%list.
