(** * The macro [minty_impl!] at the level of tokens

    What a row of [minty_impl!] (/repo/src/util.rs:61-99) expands to; SpecMintyTokens.v reads it back as Rust.  (The expansion of
    [macro_rules] itself, the substitution of the row for the variables, is written out here by hand.) *)

From Coq Require Import NArith String Bool List.
From Verif Require Import Rust Derive GlslGen Tokens EasyTokens.
Import ListNotations.
Local Open Scope string_scope.

(** [$mint_ty => $imp_ty] *)
(* /repo/src/util.rs:62. *)
Record minty_row := MintyRow { mn_mint : list tok; mn_ty : list tok }.

(* /repo/src/util.rs:64-77 (std140), 79-92 (std430). *)
Definition minty_impl_toks (l : lay) (r : minty_row) : list tok :=
  ([kw "impl"] ++ crate_path l ("As" ++ trait_name l) ++ [kw "for"] ++ mn_ty r ++
   [TG Brace
     ([kw "type"; kw "Output"; TP "="; TP "<"] ++ mn_mint r ++ [kw "as"] ++ crate_path l ("As" ++ trait_name l) ++
      [TP ">"; TP "::"; kw "Output"; TP ";";
       TP "#"; TG Brack [kw "inline"];
       kw "fn"; as_trait_method l; TG Paren [TP "&"; kw "self"]; TP "->"; kw "Self"; TP "::"; kw "Output";
       TG Brace ([kw "let"; kw "mint"; TP ":"] ++ mn_mint r ++ [TP "="; TG Paren [TP "*"; kw "self"]; TP "."; kw "into"; TG Paren []; TP ";";
                  kw "mint"; TP "."; as_trait_method l; TG Paren []]);
       TP "#"; TG Brack [kw "inline"];
       kw "fn"; from_trait_method l; TG Paren [kw "value"; TP ":"; kw "Self"; TP "::"; kw "Output"]; TP "->"; kw "Self";
       TG Brace ([TP "<"] ++ mn_mint r ++ [TP ">"; TP "::"; from_trait_method l; TG Paren [kw "value"]; TP "."; kw "into"; TG Paren []])])])%list.

(** One row *)
(* /repo/src/util.rs:63-97. *)
Definition minty_toks (r : minty_row) : list tok :=
  (minty_impl_toks L140 r ++ minty_impl_toks L430 r
   ++ [kw "unsafe"; kw "impl"; kw "crate"; TP "::"; kw "glsl"; TP "::"; kw "Glsl"; kw "for"] ++ mn_ty r ++                              (* 94-96 *)
   [TG Brace ([kw "const"; kw "NAME"; TP ":"; TP "&"; TP "'"; kw "static"; kw "str"; TP "="; TP "<"] ++ mn_mint r
              ++ [TP ">"; TP "::"; kw "NAME"; TP ";"])])%list.
