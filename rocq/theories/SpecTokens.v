(** * Specification: reading tokens as Rust

    A reader for the part of Rust's syntax that the layout derives generate.  [R] says what
    [<ty as AsStdN>::Output] is, given the tokens of a type. *)

From Coq Require Import NArith String Bool List.
From Verif Require Import Rust Derive GlslGen Tokens.
Import ListNotations.
Local Open Scope string_scope.

Local Notation "'do' X <- A ; B" := (match A with Some X => B | _ => None end) (at level 200, X pattern, A at level 100, B at level 200).

(** [eats ["fn"; "f"; "->"] ts]: [ts] without these keywords, names and punctuation marks at its head *)
Definition eat (s : string) (ts : list tok) : option (list tok) :=
  match ts with
  | TP p :: r => if String.eqb p s then Some r else None
  | TId (Ident false n) :: r => if String.eqb n s then Some r else None
  | _ => None
  end.
Fixpoint eats (ss : list string) (ts : list tok) : option (list tok) :=
  match ss with
  | [] => Some ts
  | s :: ss' => do r <- eat s ts; eats ss' r
  end.
(** a path: [::a::b::c] *)
Definition eat_path (segments : list string) : list tok -> option (list tok) := eats (flat_map (fun s => ["::"; s]) segments).

Definition number (l : lay) : string := match l with L140 => "140" | L430 => "430" end.
Definition std_trait (l : lay) : list string := ["crevice"; "std" ++ number l; "Std" ++ number l].
Definition as_std_trait (l : lay) : list string := ["crevice"; "std" ++ number l; "AsStd" ++ number l].
Definition fn_name (prefix : string) (l : lay) : string := prefix ++ "std" ++ number l.

Definition is_p (p : string) (t : tok) : bool := match t with TP q => String.eqb q p | _ => false end.
Definition is_kw (s : string) (t : tok) : bool := match t with TId (Ident false n) => String.eqb n s | _ => false end.

(** the tokens before [as], outside of [< .. >] *)
Fixpoint to_as (depth : nat) (ts : list tok) : option (list tok * list tok) :=
  match ts with
  | [] => None
  | t :: r =>
    if is_p "<" t then do (a, b) <- to_as (S depth) r; Some (t :: a, b)
    else if is_p ">" t then match depth with O => None | S d => do (a, b) <- to_as d r; Some (t :: a, b) end
    else if (Nat.eqb depth 0 && is_kw "as" t)%bool then Some ([], r)
    else do (a, b) <- to_as depth r; Some (t :: a, b)
  end.

Section Reader.
Variable l : lay.
Variable R : list tok -> option sty.

(** [<ty as AsStdN>::Output] *)
Definition read_output (ts : list tok) : option (sty * list tok) :=
  do r <- eat "<" ts; do (ty, r) <- to_as 0 r; do t <- R ty;
  do r <- eat_path (as_std_trait l) r; do r <- eats [">"; "::"; "Output"] r; Some (t, r).

(** Constant expressions; [env] has the values of local variables. *)
Definition read_simple (env : list (string * cexpr)) (ts : list tok) : option (cexpr * list tok) :=
  match ts with
  | TInt n "usize" :: r => Some (CLit n, r)
  | TId f :: TG Paren [] :: r => Some (CCall (id_name f), r)
  | TId x :: r => do e <- assoc (id_name x) env; Some (e, r)
  | TP "<" :: r =>
    do (t, r) <- read_output r; do r <- eats ["as"] r; do r <- eat_path (std_trait l) r;
    do r <- eats [">"; "::"; "ALIGNMENT"] r; Some (CAlignOf t, r)
  | _ =>
    do r <- eat_path ["core"; "mem"; "size_of"] ts; do r <- eats ["::"; "<"] r; do (t, r) <- read_output r;
    do r <- eat ">" r; match r with TG Paren [] :: r => Some (CSizeOf t, r) | _ => None end
  end.
Fixpoint read_args (env : list (string * cexpr)) (fuel : nat) (ts : list tok) : option (list cexpr) :=
  match ts, fuel with
  | [], _ => Some []
  | _, O => None
  | _, S fuel =>
    do (e, r) <- read_simple env ts;
    match r with
    | [] => Some [e]
    | _ => do r <- eat "," r; do es <- read_args env fuel r; Some (e :: es)
    end
  end.
Definition read_atom (env : list (string * cexpr)) (ts : list tok) : option (cexpr * list tok) :=
  match eat_path ["crevice"; "internal"; "max_arr"] ts, eat_path ["crevice"; "internal"; "align_offset"] ts with
  | Some (TG Paren [TG Brack a] :: r), _ => do es <- read_args env (length a) a; Some (CMaxArr es, r)
  | _, Some (TG Paren a :: r) => match read_args env (length a) a with Some [x; y] => Some (CAlignOffset x y, r) | _ => None end
  | _, _ => read_simple env ts
  end.
(** [+] associates to the left *)
Fixpoint read_plus (env : list (string * cexpr)) (fuel : nat) (acc : cexpr) (ts : list tok) : option (cexpr * list tok) :=
  match eat "+" ts, fuel with
  | None, _ => Some (acc, ts)
  | Some _, O => None
  | Some r, S fuel => do (e, r) <- read_atom env r; read_plus env fuel (CAdd acc e) r
  end.
Definition read_sum (env : list (string * cexpr)) (ts : list tok) : option (cexpr * list tok) :=
  do (e, r) <- read_atom env ts; read_plus env (length r) e r.
(** [let x = ..; .. result] *)
Fixpoint read_block (env : list (string * cexpr)) (fuel : nat) (ts : list tok) : option cexpr :=
  match eat "let" ts, fuel with
  | Some (TId x :: r), S fuel =>
    do r <- eat "=" r; do (e, r) <- read_sum env r; do r <- eat ";" r; read_block ((id_name x, e) :: env) fuel r
  | Some _, _ => None
  | None, _ => match read_sum env ts with Some (e, []) => Some e | _ => None end
  end.

(** Items *)
Inductive item :=
| IFn (name : string) (body : cexpr)                                                (* const fn name() -> usize { body } *)
| IStruct (attrs : list (list tok)) (name : string) (fields : list (string * gfield))
| IImpl (unsafe : bool) (header body : list tok).

Fixpoint read_attrs (ts : list tok) : list (list tok) * list tok :=
  match ts with
  | TP "#" :: TG Brack a :: r => let (al, r') := read_attrs r in (a :: al, r')
  | _ => ([], ts)
  end.
Fixpoint to_brace (ts : list tok) : option (list tok * list tok * list tok) :=
  match ts with
  | [] => None
  | TG Brace b :: r => Some ([], b, r)
  | t :: r => do (a, b, r) <- to_brace r; Some (t :: a, b, r)
  end.
(** nothing, or a where clause *)
Definition is_where (ts : list tok) : bool :=
  match ts with [] => true | t :: _ => is_kw "where" t end.

Fixpoint read_fields (fuel : nat) (ts : list tok) : option (list (string * gfield)) :=
  match ts, fuel with
  | [], _ => Some []
  | TId f :: r, S fuel =>
    do r <- eat ":" r;
    match r with
    | TG Brack g :: r =>
      do g <- eats ["u8"; ";"] g;
      match read_sum [] g with
      | Some (e, []) => do r <- eat "," r; do fs <- read_fields fuel r; Some ((id_name f, GPad e) :: fs)
      | _ => None
      end
    | _ => do (t, r) <- read_output r; do r <- eat "," r; do fs <- read_fields fuel r; Some ((id_name f, GOut t) :: fs)
    end
  | _, _ => None
  end.

Definition read_vis (ts : list tok) : list tok :=
  match eat "pub" ts with
  | Some (TG Paren _ :: r) => r
  | Some r => r
  | None => ts
  end.
Definition read_item (ts : list tok) : option (item * list tok) :=
  let (attrs, ts) := read_attrs ts in
  match eats ["const"; "fn"] ts, eat "impl" ts, eats ["unsafe"; "impl"] ts with
  | Some (TId f :: TG Paren [] :: r), _, _ =>
    do r <- eats ["->"; "usize"] r;
    match r with
    | TG Brace b :: r => do e <- read_block [] (length b) b; Some (IFn (id_name f) e, r)
    | _ => None
    end
  | _, Some r, _ => do (h, b, r) <- to_brace r; Some (IImpl false h b, r)
  | _, _, Some r => do (h, b, r) <- to_brace r; Some (IImpl true h b, r)
  | _, _, _ =>
    do r <- eat "struct" (read_vis ts);
    match r with
    | TId n :: r =>
      do (w, b, r) <- to_brace r;
      if is_where w then do fs <- read_fields (length b) b; Some (IStruct attrs (id_name n) fs, r) else None
    | _ => None
    end
  end.
Fixpoint read_items (fuel : nat) (ts : list tok) : option (list item) :=
  match ts, fuel with
  | [], _ => Some []
  | _, O => None
  | _, S fuel => do (i, r) <- read_item ts; do is <- read_items fuel r; Some (i :: is)
  end.

(** The arguments of an attribute: [derive(A, B)], [repr(C)] *)
Fixpoint attr_args (name : string) (attrs : list (list tok)) : list tok :=
  match attrs with
  | [] => []
  | [TId (Ident false n); TG Paren args] :: r => if String.eqb n name then args ++ attr_args name r else attr_args name r
  | _ :: r => attr_args name r
  end%list.
Definition has_arg (s : string) (args : list tok) : bool :=
  existsb (is_kw s) args.

(** The body of [impl path for name]; [name]: read from the header *)
Definition impl_header (segments : list string) (header : list tok) : option string :=
  do r <- eat_path segments header; do r <- eat "for" r;
  match r with TId n :: w => if is_where w then Some (id_name n) else None | _ => None end.
Fixpoint find_impl (u : bool) (segments : list string) (items : list item) : option (string * list tok) :=
  match items with
  | [] => None
  | IImpl u' h b :: r =>
    match impl_header segments h with
    | Some n => if Bool.eqb u u' then Some (n, b) else None
    | None => find_impl u segments r
    end
  | _ :: r => find_impl u segments r
  end.
(** [impl Name { .. }] *)
Fixpoint find_inherent (items : list item) : option (string * list tok) :=
  match items with
  | [] => None
  | IImpl false (TId n :: w) b :: r => if is_where w then Some (id_name n, b) else find_inherent r
  | _ :: r => find_inherent r
  end.

(** [f: self.f.as_stdN(), .. ..Zeroable::zeroed()] *)
Fixpoint read_inits (fuel : nat) (ts : list tok) : option (list string) :=
  match ts, fuel with
  | TId f :: r, S fuel =>
    do r <- eats [":"; "self"; "."] r;
    match r with
    | TId g :: r =>
      do r <- eats ["."; fn_name "as_" l] r;
      match r with
      | TG Paren [] :: r =>
        if String.eqb (id_name f) (id_name g) then do r <- eat "," r; do fs <- read_inits fuel r; Some (id_name f :: fs) else None
      | _ => None
      end
    | _ => None
    end
  | _, _ =>
    do r <- eat ".." ts;
    match eat_path ["crevice"; "internal"; "bytemuck"; "Zeroable"; "zeroed"] r with Some [TG Paren []] => Some [] | _ => None end
  end.
(** [f: AsStdN::from_stdN(input.f), ..] *)
Fixpoint read_froms (fuel : nat) (ts : list tok) : option (list string) :=
  match ts, fuel with
  | [], _ => Some []
  | TId f :: r, S fuel =>
    do r <- eat ":" r; do r <- eat_path (as_std_trait l ++ [fn_name "from_" l])%list r;
    match r with
    | TG Paren a :: r =>
      match eats ["input"; "."] a with
      | Some [TId g] =>
        if String.eqb (id_name f) (id_name g) then do r <- eat "," r; do fs <- read_froms fuel r; Some (id_name f :: fs) else None
      | _ => None
      end
    | _ => None
    end
  | _, _ => None
  end.

(** [const ALIGNMENT: usize = ..;] *)
Definition read_alignment (body : list tok) : option cexpr :=
  do r <- eats ["const"; "ALIGNMENT"; ":"; "usize"; "="] body;
  do (e, r) <- read_sum [] r;
  match eat ";" r with Some [] => Some e | _ => None end.
(** [pub fn as_bytes(&self) -> &[u8] { <Name as StdN>::as_bytes(self) }] *)
Definition is_all (ss : list string) (ts : list tok) : bool := match eats ss ts with Some [] => true | _ => false end.
Definition read_as_bytes (name : string) (body : list tok) : bool :=
  match eats ["pub"; "fn"; "as_bytes"] (snd (read_attrs body)) with
  | Some (TG Paren a :: r) =>
    match eats ["->"; "&"] r with
    | Some [TG Brack u; TG Brace b] =>
      match (do r <- eats ["<"; name; "as"] b; do r <- eat_path (std_trait l) r; eats [">"; "::"; "as_bytes"] r) with
      | Some [TG Paren c] => (is_all ["&"; "self"] a && is_all ["u8"] u && is_all ["self"] c)%bool
      | _ => false
      end
    | _ => false
    end
  | _ => false
  end.
(** [type Output = ..; fn as_stdN(&self) -> Self::Output { Self::Output { .. } } fn from_stdN(input: Self::Output) -> Self { Self { .. } }]:
    the name after [Output =], the fields that are converted in each direction *)
Definition read_conversions (body : list tok) : option (string * list string * list string) :=
  do r <- eats ["type"; "Output"; "="] body;
  match r with
  | TId n :: r =>
    do r <- eats [";"; "fn"; fn_name "as_" l] r;
    match r with
    | TG Paren a0 :: r =>
      do r <- eats ["->"; "Self"; "::"; "Output"] r;
      match r with
      | TG Brace b1 :: r =>
        do r <- eats ["fn"; fn_name "from_" l] r;
        match r with
        | TG Paren a :: r =>
          match eats ["&"; "self"] a0, eats ["input"; ":"; "Self"; "::"; "Output"] a, eats ["->"; "Self"] r, eats ["Self"; "::"; "Output"] b1 with
          | Some [], Some [], Some [TG Brace b2], Some [TG Brace i1] =>
            match eat "Self" b2 with
            | Some [TG Brace i2] => do is <- read_inits (length i1) i1; do fs <- read_froms (length i2) i2; Some (id_name n, is, fs)
            | _ => None
            end
          | _, _, _, _ => None
          end
        | _ => None
        end
      | _ => None
      end
    | _ => None
    end
  | _ => None
  end.

Definition fns (items : list item) : list (string * cexpr) := flat_map (fun i => match i with IFn f e => [(f, e)] | _ => [] end) items.
Definition structs (items : list item) : list (list (list tok) * string * list (string * gfield)) :=
  flat_map (fun i => match i with IStruct a n fs => [(a, n, fs)] | _ => [] end) items.

(** The struct and the functions a list of items declares; the struct has to be [#[repr(C)] #[derive(Debug, Clone, Copy)]]. *)
Definition declared (items : list item) : option (list (string * cexpr) * string * list (string * gfield)) :=
  match structs items with
  | [(attrs, name, fields)] =>
    if (has_arg "C" (attr_args "repr" attrs) && Nat.eqb (length (attr_args "repr" attrs)) 1
        && forallb (fun d => has_arg d (attr_args "derive" attrs)) ["Debug"; "Clone"; "Copy"])%bool
    then Some (fns items, name, fields) else None
  | _ => None
  end.

Definition read_definitions (ts : list tok) : option (list (string * cexpr) * string * list (string * gfield)) :=
  do items <- read_items (length ts) ts; declared items.

(** The whole generated code, with the name of the user's struct; every impl has to be there, for the right type. *)
Definition read_code (ts : list tok) : option (string * generated) :=
  do items <- read_items (length ts) ts;
  do (pads, name, fields) <- declared items;
  do (n1, b1) <- find_impl true ["crevice"; "internal"; "bytemuck"; "Zeroable"] items;
  do (n2, b2) <- find_impl true ["crevice"; "internal"; "bytemuck"; "Pod"] items;
  do (n3, b3) <- find_impl true (std_trait l) items;
  do (input, b4) <- find_impl false (as_std_trait l) items;
  do (n5, b5) <- find_inherent items;
  do al <- read_alignment b3;
  do (out, inits, froms) <- read_conversions b4;
  match b1, b2 with
  | [], [] =>
    if (forallb (String.eqb name) [n1; n2; n3; n5] && read_as_bytes name b5)%bool then
      Some (input, {| g_pads := pads; g_name := name; g_generics := []; g_fields := fields; g_align := al;
                      g_output := (out, []); g_inits := inits; g_from := froms |})
    else None
  | _, _ => None
  end.
End Reader.

(** ** What the derive is applied to *)

(** [< .. >] are balanced, and [as] stands inside of them: [f32], [[T; 3]], [Vec<T>], [<T as Trait>::A] *)
Fixpoint balanced (depth : nat) (ts : list tok) : bool :=
  match ts with
  | [] => Nat.eqb depth 0
  | t :: r =>
    if is_p "<" t then balanced (S depth) r
    else if is_p ">" t then match depth with O => false | S d => balanced d r end
    else (negb (Nat.eqb depth 0 && is_kw "as" t) && balanced depth r)%bool
  end.
Definition vis_ok (ts : list tok) : Prop := ts = [] \/ ts = [kw "pub"] \/ exists a, ts = [kw "pub"; TG Paren a].
Definition where_ok (ts : list tok) : Prop := is_where ts = true /\ forall b, ~ In (TG Brace b) ts.
(** a struct without generic parameters; a name is no keyword, unless written with [r#] *)
Definition plain_struct (input : tok_input) : Prop :=
  ti_impl_generics input = [] /\ ti_ty_generics input = [] /\ vis_ok (ti_vis input) /\ where_ok (ti_where input).
