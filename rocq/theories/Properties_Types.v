(** * Property theorems (generated from Proofs_Types.v by tools/genprops.py; statements only) *)

From Coq Require Import NArith String Bool List Lia ZArith.
From Coq Require Import ZifyBool ZifyN ZifyNat.
From Coq Require Import Strings.Byte.
From Verif Require Import Proofs_Types Rust Internal Prims Derive Host Rows Cost SpecBuf SpecGlsl SpecHost SpecTypes SpecNumeral NumeralFacts
  Arith RustFacts DeriveFacts TypeFacts HostFacts GlslFacts PadFacts Samples.
Import ListNotations.
Local Open Scope string_scope.
Local Open Scope N_scope.


(** C14.  For every type that has a layout version: the [#[repr(C)]] layout of the
    generated (or built-in) struct has no compiler padding before, between or after
    its fields, and the memory of every value consists of initialised bytes only. *)
Theorem C14_no_implicit_padding : forall tg l h t,
  target_ok tg = true -> out_ty tg l h = Some t ->
  (forall ln n al fs, t = TStruct ln n al fs ->
     contiguous 0 (map (fun nf => size_of tg (snd nf)) fs) (map snd (field_offsets tg t)) (size_of tg t))
  /\ (forall s, has_sty t s = true ->
        exists bs, mem_of tg t s = Some (map Some bs) /\ len bs = size_of tg t).
Proof. exact C14_no_implicit_padding_proof. Qed.
Print Assumptions C14_no_implicit_padding.

(** C15.  In std140, whatever part of the GLSL type a path of names denotes (a
    member, a member of a member, a matrix column, a vector component, ...), the
    Rust path of the same names exists in the generated struct and has the offset,
    size and alignment the std140 rules give. *)
Theorem C15_std140_offsets : forall tg h t g path o g',
  target_ok tg = true -> out_ty tg L140 h = Some t -> gty_of h = Some g ->
  gpath_offset L140 g path = Some (o, g') ->
  exists u, path_offset tg t path = Some (o, u)
    /\ size_of tg u = gsize L140 g' /\ std_align L140 u = Some (base_align L140 g').
Proof. exact C15_std140_offsets_proof. Qed.
Print Assumptions C15_std140_offsets.

(** C16.  The same for std430. *)
Theorem C16_std430_offsets : forall tg h t g path o g',
  target_ok tg = true -> out_ty tg L430 h = Some t -> gty_of h = Some g ->
  gpath_offset L430 g path = Some (o, g') ->
  exists u, path_offset tg t path = Some (o, u)
    /\ size_of tg u = gsize L430 g' /\ std_align L430 u = Some (base_align L430 g').
Proof. exact C16_std430_offsets_proof. Qed.
Print Assumptions C16_std430_offsets.

(** C17.  The ALIGNMENT of a derived struct is the largest ALIGNMENT of its fields (at
    least 16 in std140), its fields sit at the first suitably aligned offsets, and
    its size is the end of the last field rounded up to ALIGNMENT. *)
Theorem C17_size_and_alignment : forall tg l name fs t,
  target_ok tg = true -> out_ty tg l (HStruct name fs) = Some t ->
  exists ms, field_metrics tg l fs = Some ms
    /\ let A := fold_right N.max (match l with L140 => 16 | L430 => 0 end) (map fst ms) in
       std_align l t = Some A
       /\ map (fun nf => assoc (fst nf) (field_offsets tg t)) fs = map Some (starts 0 ms)
       /\ size_of tg t = next_aligned (extent 0 ms) A
       /\ (A = 0 \/ (A | size_of tg t)).
Proof. exact C17_size_and_alignment_proof. Qed.
Print Assumptions C17_size_and_alignment.

(** C17, against GLSL: ALIGNMENT is the base alignment, the size is the space the
    structure occupies (including trailing padding), and it is a multiple of the
    alignment (of 16 in std140). *)
Theorem C17_glsl_size_and_alignment : forall tg l name fs t g,
  target_ok tg = true -> out_ty tg l (HStruct name fs) = Some t -> gty_of (HStruct name fs) = Some g ->
  std_align l t = Some (base_align l g) /\ size_of tg t = gsize l g
  /\ (base_align l g | size_of tg t) /\ (l = L140 -> (16 | size_of tg t)).
Proof. exact C17_glsl_size_and_alignment_proof. Qed.
Print Assumptions C17_glsl_size_and_alignment.

(** C18.  Calling the padding function of field [i] never nests more than [i + 1]
    calls deep, for any struct (accepted or not): with that much call depth the
    evaluation always ends. *)
Theorem C18_padding_terminates : forall tg l name fields g i fuel,
  emit l (DeriveInput name [] (DNamed fields)) = Some g ->
  (i < length fields)%nat -> (i < fuel)%nat ->
  ceval tg l (g_pads g) fuel (CCall (pad_fn_name l name i)) <> CFuel.
Proof. exact C18_padding_terminates_proof. Qed.
Print Assumptions C18_padding_terminates.

(** C18.  In an accepted struct the padding function of field [i] returns the
    distance from the end of field [i] to the start of field [i + 1], or to the end
    of the struct if [i] is the last field. *)
Theorem C18_padding_value : forall tg l name fs t outs g i fuel oi si,
  target_ok tg = true -> out_ty tg l (HStruct name fs) = Some t ->
  map_opt (fun nf => match out_ty tg l (snd nf) with Some u => Some (fst nf, u) | None => None end) fs = Some outs ->
  emit l (DeriveInput name [] (DNamed outs)) = Some g ->
  (i < length fs)%nat -> (i < fuel)%nat ->
  nth_error (map (fun nf => assoc (fst nf) (field_offsets tg t)) fs) i = Some (Some oi) ->
  nth_error (map (fun nf => std_size_static tg l (snd nf)) fs) i = Some (Some si) ->
  exists n, ceval tg l (g_pads g) fuel (CCall (pad_fn_name l name i)) = CVal n
    /\ match nth_error (map (fun nf => assoc (fst nf) (field_offsets tg t)) fs) (S i) with
       | Some o' => o' = Some (oi + si + n)
       | None => size_of tg t = oi + si + n
       end.
Proof. exact C18_padding_value_proof. Qed.
Print Assumptions C18_padding_value.

(** C45.  Evaluating the padding function of field [i] makes exactly [2^i] calls of
    padding functions, and computing the layout of a struct with [n] fields makes
    [2^n - 1]: the compile-time cost is exponential in the number of fields. *)
Theorem C45_padding_cost : forall l name fields g,
  emit l (DeriveInput name [] (DNamed fields)) = Some g ->
  (forall i fuel, (i < length fields)%nat -> (i < fuel)%nat ->
     ccalls (g_pads g) fuel (CCall (pad_fn_name l name i)) = Some (2 ^ N.of_nat i))
  /\ struct_calls g = Some (2 ^ len fields - 1).
Proof. exact C45_padding_cost_proof. Qed.
Print Assumptions C45_padding_cost.

(** C45.  No polynomial in the number of fields bounds the cost (32 fields already need
    more than four billion calls). *)
Theorem C45_cost_is_moderate_refuted :
  ~ (exists c k, forall l name fields g, emit l (DeriveInput name [] (DNamed fields)) = Some g ->
       exists n, struct_calls g = Some n /\ n <= c * len fields ^ k + c).
Proof. exact C45_cost_is_moderate_refuted_proof. Qed.
Print Assumptions C45_cost_is_moderate_refuted.

(** C19.  Every byte of [x.as_stdN().as_bytes()] that belongs to no scalar component
    of the corresponding GLSL type is zero. *)
Theorem C19_padding_is_zero : forall tg l h g v bs i,
  target_ok tg = true -> gty_of h = Some g -> no_raw h = true -> hval_ok tg h v = true ->
  as_std_bytes tg l h v = Some bs -> i < len bs -> gcovers l g i = false ->
  byte_at bs i = Some x00.
Proof. exact C19_padding_is_zero_proof. Qed.
Print Assumptions C19_padding_is_zero.

(** C20.  [as_stdN] is defined on every value and [from_stdN] gives the value back,
    bit for bit. *)
Theorem C20_round_trip : forall tg l h t v,
  target_ok tg = true -> out_ty tg l h = Some t -> hval_ok tg h v = true ->
  exists s, as_std tg l h v = Some s /\ has_sty t s = true /\ from_std tg l h s = Some v.
Proof. exact C20_round_trip_proof. Qed.
Print Assumptions C20_round_trip.

(** C20, through memory: different values have different bytes, and reading the
    bytes back ([bytemuck::from_bytes], [from_stdN]) restores the value. *)
Theorem C20_round_trip_bytes : forall tg l h t v bs,
  target_ok tg = true -> out_ty tg l h = Some t -> hval_ok tg h v = true ->
  as_std_bytes tg l h v = Some bs ->
  (exists s, from_bytes tg t bs = Some s /\ from_std tg l h s = Some v)
  /\ (forall w, hval_ok tg h w = true -> as_std_bytes tg l h w = Some bs -> w = v).
Proof. exact C20_round_trip_bytes_proof. Qed.
Print Assumptions C20_round_trip_bytes.

(** C22.  Byte strings of length [size_of::<Output>()] and [Output] values are in
    bijection: decoding is total, [as_bytes] inverts it, and [as_bytes] always has
    length [size_of]. *)
Theorem C22_pod_bijection : forall tg l h t,
  target_ok tg = true -> out_ty tg l h = Some t ->
  (forall bs, len bs = size_of tg t ->
     exists s, has_sty t s = true /\ from_bytes tg t bs = Some s /\ bytes_of tg t s = Some bs)
  /\ (forall s, has_sty t s = true ->
     exists bs, bytes_of tg t s = Some bs /\ len bs = size_of tg t /\ from_bytes tg t bs = Some s).
Proof. exact C22_pod_bijection_proof. Qed.
Print Assumptions C22_pod_bijection.

(** C23.  A shader that reads a variable of the corresponding GLSL type at any
    position where the bytes of [x.as_stdN()] were placed sees the value of [x]. *)
Theorem C23_gpu_reads_host_value : forall tg l h t g v bs buf off,
  target_ok tg = true -> out_ty tg l h = Some t -> gty_of h = Some g -> hval_ok tg h v = true ->
  as_std_bytes tg l h v = Some bs -> read_at buf off (len bs) = Some bs ->
  exists x, gval_of tg h v = Some x /\ gread tg l g buf off = Some x.
Proof. exact C23_gpu_reads_host_value_proof. Qed.
Print Assumptions C23_gpu_reads_host_value.

(** C24.  For any buffer contents, decoding [Output] and calling [from_stdN] gives
    the value a shader reading the same bytes sees. *)
Theorem C24_host_reads_gpu_value : forall tg l h t g buf off bs,
  target_ok tg = true -> out_ty tg l h = Some t -> gty_of h = Some g ->
  read_at buf off (size_of tg t) = Some bs ->
  exists s v x, from_bytes tg t bs = Some s /\ from_std tg l h s = Some v /\ hval_ok tg h v = true
    /\ gval_of tg h v = Some x /\ gread tg l g buf off = Some x.
Proof. exact C24_host_reads_gpu_value_proof. Qed.
Print Assumptions C24_host_reads_gpu_value.

(** C21.  Converting any [Output] value to the host and back keeps the GLSL value it
    denotes, zeroes the padding, and is idempotent. *)
Theorem C21_normalisation : forall tg l h t g s bs,
  target_ok tg = true -> out_ty tg l h = Some t -> gty_of h = Some g -> no_raw h = true ->
  bytes_of tg t s = Some bs ->
  exists v s' bs', from_std tg l h s = Some v /\ as_std tg l h v = Some s' /\ bytes_of tg t s' = Some bs'
    /\ (exists x, gread tg l g bs 0 = Some x /\ gread tg l g bs' 0 = Some x)
    /\ (forall i, i < len bs' -> gcovers l g i = false -> byte_at bs' i = Some x00)
    /\ from_std tg l h s' = Some v.
Proof. exact C21_normalisation_proof. Qed.
Print Assumptions C21_normalisation.

(** C26.  [true] becomes the word 1 and [false] the word 0; a word read back is
    [true] exactly when it is not zero. *)
Theorem C26_bool_conversions : forall tg l,
  (forall b, as_std_bytes tg l HBool (HVBool b) = Some (enc_prim tg PU32 (if b then 1 else 0)))
  /\ (forall n, from_std tg l HBool (SBits n) = Some (HVBool (if n =? 0 then false else true))).
Proof. exact C26_bool_conversions_proof. Qed.
Print Assumptions C26_bool_conversions.

(** C27.  Two [Bool]s compare equal exactly when their words are equal; this agrees
    with equality of the booleans they stand for when both were made from Rust
    booleans (words 0 and 1) or when one of them is false. *)
Theorem C27_bool_equality : forall a b,
  (Bool_eq a b = true <-> a = b)
  /\ (Bool_eq a b = Bool.eqb (bool_from_Bool a) (bool_from_Bool b) <-> a = b \/ a = 0 \/ b = 0)
  /\ (forall x y, Bool_eq (Bool_from_bool x) (Bool_from_bool y) = Bool.eqb x y).
Proof. exact C27_bool_equality_proof. Qed.
Print Assumptions C27_bool_equality.

(** C27.  The [Debug] text of a [Bool] shows the boolean, not the word: two [Bool]s have the same
    text exactly when they stand for the same boolean, so unequal [Bool]s can print alike. *)
Theorem C27_debug_text : forall a b,
  (Bool_debug a = Bool_debug b <-> bool_from_Bool a = bool_from_Bool b)
  /\ Bool_debug 0 = "Bool(false)" /\ Bool_debug 1 = "Bool(true)"
  /\ (exists c d, Bool_debug c = Bool_debug d /\ Bool_eq c d = false).
Proof. exact C27_debug_text_proof. Qed.
Print Assumptions C27_debug_text.

(** C27.  The claim that [Bool] equality is equality of booleans is false: words 1 and 2
    both mean [true] (a GPU may store any nonzero word) but compare unequal. *)
Theorem C27_bool_equality_is_boolean_refuted :
  ~ (forall a b, pbits_ok PBool a = true -> pbits_ok PBool b = true ->
       Bool_eq a b = Bool.eqb (bool_from_Bool a) (bool_from_Bool b)).
Proof. exact C27_bool_equality_is_boolean_refuted_proof. Qed.
Print Assumptions C27_bool_equality_is_boolean_refuted.

(** C44.  [max] and [max_arr] compute maxima and [max_arr] never indexes out of bounds. *)
Theorem C44_max :
  (forall a b, Internal.max a b = N.max a b)
  /\ (forall xs, exists m, max_arr xs = Some m /\ (forall x, In x xs -> x <= m)
        /\ (xs = [] -> m = 0) /\ (xs <> [] -> In m xs)).
Proof. exact C44_max_proof. Qed.
Print Assumptions C44_max.

(** C25.  The built-in layout types: exactly the documented names exist in both
    layouts, with the alignment, size and component / column offsets of the GLSL
    type they are documented to correspond to. *)
Theorem C25_builtin_types : forall tg l, target_ok tg = true ->
  (map vr_name (vectors l) ++ map mr_name (matrices l))%list = map fst std_names
  /\ forall name g, In (name, g) std_names ->
     exists t, find_std l name = Some t
       /\ std_align l t = Some (base_align l g) /\ size_of tg t = gsize l g
       /\ (forall c o g', gpath_offset l g [c] = Some (o, g') ->
             exists u, path_offset tg t [c] = Some (o, u) /\ size_of tg u = gsize l g').
Proof. exact C25_builtin_types_proof. Qed.
Print Assumptions C25_builtin_types.

(** C25.  Every supported mint, cgmath, glam and nalgebra type (the list [math_names])
    implements both traits and its [Output] has the alignment and size of the GLSL type
    of that shape; the crate's tables contain no other type. *)
Theorem C25_math_types : forall name g, In (name, g) math_names ->
  exists h, In (Some h) all_math_types /\ rust_name h = name /\ gty_of h = Some g
    /\ forall tg l, target_ok tg = true ->
         exists t, out_ty tg l h = Some t /\ std_align l t = Some (base_align l g) /\ size_of tg t = gsize l g.
Proof. exact C25_math_types_proof. Qed.
Print Assumptions C25_math_types.

(** C25.  ... and no other: the tables hold exactly these types, in number and names. *)
Theorem C25_no_other_math_types :
  (forall oh, In oh all_math_types -> exists h, oh = Some h /\ In (rust_name h) (map fst math_names))
  /\ length all_math_types = length math_names
  /\ NoDup (map fst math_names).
Proof. exact C25_no_other_math_types_proof. Qed.
Print Assumptions C25_no_other_math_types.

(** C31.  ALIGNMENT is a power of two, or 0; it is 0 only for std430 structs of size 0
    (a derived struct without fields, or with only such structs as fields). *)
Theorem C31_alignment_power_of_two : forall tg l h a,
  target_ok tg = true -> out_align tg l h = Some a ->
  (exists k, a = 2 ^ k) \/ (a = 0 /\ l = L430 /\ std_size_static tg l h = Some 0).
Proof. exact C31_alignment_power_of_two_proof. Qed.
Print Assumptions C31_alignment_power_of_two.

(** C31.  "Must be a power of two" (documentation of [Std430::ALIGNMENT]) fails for the
    derived std430 struct without fields. *)
Theorem C31_power_of_two_refuted :
  ~ (forall tg l h a, target_ok tg = true -> out_align tg l h = Some a -> exists k, a = 2 ^ k).
Proof. exact C31_power_of_two_refuted_proof. Qed.
Print Assumptions C31_power_of_two_refuted.

(** C46.  The Rust alignment of a layout type divides its ALIGNMENT: a position aligned for
    the GPU is aligned for a Rust reference, on every target; and it divides the size. *)
Theorem C46_rust_alignment : forall tg l h t a o,
  target_ok tg = true -> out_ty tg l h = Some t -> std_align l t = Some a -> aligned a o ->
  (align_of tg t | o) /\ (align_of tg t | size_of tg t) /\ exists k, align_of tg t = 2 ^ k.
Proof. exact C46_rust_alignment_proof. Qed.
Print Assumptions C46_rust_alignment.

(** C32.  std430 alignment, size and field offsets never exceed the std140 ones. *)
Theorem C32_std430_not_larger : forall tg h a140 a430 n140 n430,
  target_ok tg = true ->
  out_align tg L140 h = Some a140 -> out_align tg L430 h = Some a430 ->
  std_size_static tg L140 h = Some n140 -> std_size_static tg L430 h = Some n430 ->
  a430 <= a140 /\ n430 <= n140
  /\ (forall name fs t140 t430 f o140 o430, h = HStruct name fs ->
        out_ty tg L140 h = Some t140 -> out_ty tg L430 h = Some t430 ->
        assoc f (field_offsets tg t140) = Some o140 -> assoc f (field_offsets tg t430) = Some o430 ->
        o430 <= o140).
Proof. exact C32_std430_not_larger_proof. Qed.
Print Assumptions C32_std430_not_larger.

(** C43.  Scalars, vectors and all matrices except [mat2] have the same bytes in both
    layouts. *)
Theorem C43_same_bytes : forall tg h g v bs140 bs430,
  target_ok tg = true -> gty_of h = Some g -> layout_independent g = true -> hval_ok tg h v = true ->
  as_std_bytes tg L140 h v = Some bs140 -> as_std_bytes tg L430 h v = Some bs430 -> bs140 = bs430.
Proof. exact C43_same_bytes_proof. Qed.
Print Assumptions C43_same_bytes.

(** C33.  For every glam and nalgebra row, with the library's own conversions
    [into_mint] and [of_mint] left arbitrary: the [Output] is that of the mint type, the
    layout value is that of the converted value, and the round trip through the layout
    type gives back [x] whenever [of_mint (into_mint x) = x]. *)
Theorem C33_minty_types : forall r, In r (glam_rows ++ nalgebra_rows)%list ->
  exists m, mint_hty (my_ty r) (my_elem r) = Some m /\ minty_hty r = Some (HMinty (my_rust r) m)
    /\ forall tg l, target_ok tg = true ->
       exists t, out_ty tg l m = Some t /\ out_ty tg l (HMinty (my_rust r) m) = Some t
       /\ forall (X : Type) (into_mint : X -> hval) (of_mint : hval -> X) (x : X),
            hval_ok tg m (into_mint x) = true ->
            exists s, minty_as into_mint tg l m x = Some s
              /\ as_std tg l (HMinty (my_rust r) m) (HVMinty (into_mint x)) = Some s
              /\ bytes_of tg t s = as_std_bytes tg l m (into_mint x)
              /\ minty_from of_mint tg l m s = Some (of_mint (into_mint x)).
Proof. exact C33_minty_types_proof. Qed.
Print Assumptions C33_minty_types.

(** C33.  Every cgmath type has the same layout type, layout values and read-back
    values as the mint type of the same shape (the public fields have the same names). *)
Theorem C33_cgmath_types : forall r, In r cgmath_rows ->
  exists c m, cgmath_hty (er_ty r) (er_elem r) = Some c
    /\ mint_hty (mint_counterpart (er_ty r)) (er_elem r) = Some m
    /\ gty_of c = gty_of m
    /\ forall tg l, out_ty tg l c = out_ty tg l m
         /\ (forall v, hval_ok tg c v = hval_ok tg m v /\ as_std tg l c v = as_std tg l m v
                       /\ as_std_bytes tg l c v = as_std_bytes tg l m v)
         /\ (forall s, from_std tg l c s = from_std tg l m s).
Proof. exact C33_cgmath_types_proof. Qed.
Print Assumptions C33_cgmath_types.

(** C34.  A named struct without generics is accepted exactly when every field type
    implements the trait, no field is (directly) a [DynamicUniform], no field is called
    [_pad<i>] with [i] below the number of fields (field names are distinct in any Rust
    struct), and the struct is not too large for the target. *)
Theorem C34_named_struct_accepted_iff : forall tg l name fs, target_ok tg = true ->
  (exists t, out_ty tg l (HStruct name fs) = Some t) <->
  (exists ms, field_metrics tg l fs = Some ms
     /\ next_aligned (extent 0 ms) (fold_right N.max (match l with L140 => 16 | L430 => 0 end) (map fst ms)) < t_obj tg)
  /\ NoDup (map fst fs)
  /\ (forall f text i, In f (map fst fs) -> f = "_pad" ++ text -> numeral text = Some i -> N.of_nat (length fs) <= i)
  /\ (forall f h t, In (f, h) fs -> out_ty tg l h <> Some (TDyn t)).
Proof. exact C34_named_struct_accepted_iff_proof. Qed.
Print Assumptions C34_named_struct_accepted_iff.

(** C34.  The macro itself rejects exactly tuple structs, unit structs, enums and unions;
    the code it generates for a struct with generic parameters never compiles. *)
Theorem C34_macro_rejects_iff : forall l input,
  (emit l input = None <-> forall fs, di_data input <> DNamed fs)
  /\ (forall tg g, emit l input = Some g -> di_generics input <> [] -> compile tg l g = None).
Proof. exact C34_macro_rejects_iff_proof. Qed.
Print Assumptions C34_macro_rejects_iff.

(** C34.  "Any struct which contains only fields that also implement AsStd140 can derive
    AsStd140" (documentation) is false, in four different ways: tuple structs, generic
    structs, a field called [_pad0], a [DynamicUniform] field. *)
Theorem C34_any_struct_can_derive_refuted :
  (forall l, emit l (DeriveInput "Tuple" [] (DUnnamed [TPrim PF32])) = None)
  /\ (forall tg l, match emit l (DeriveInput "Generic" ["T"] (DNamed [("x", TPrim PF32)])) with
                   | Some g => compile tg l g | None => None end = None)
  /\ (forall tg l, target_ok tg = true -> out_ty tg l (HStruct "Padded" [("_pad0", HPrim PF32)]) = None)
  /\ (forall tg, target_ok tg = true -> out_ty tg L140 (HDyn (HPrim PF32)) <> None
        /\ out_ty tg L140 (HStruct "Dyn" [("x", HDyn (HPrim PF32))]) = None).
Proof. exact C34_any_struct_can_derive_refuted_proof. Qed.
Print Assumptions C34_any_struct_can_derive_refuted.

(** C35.  Padding functions generated for different (struct, layout, field index)
    triples have different names, and so have the generated structs. *)
Theorem C35_names_distinct :
  (forall l n i l' n' i', pad_fn_name l n i = pad_fn_name l' n' i' -> l = l' /\ n = n' /\ i = i')
  /\ (forall l l' n n' g g' fs fs', emit l (DeriveInput n [] (DNamed fs)) = Some g ->
        emit l' (DeriveInput n' [] (DNamed fs')) = Some g' -> g_name g = g_name g' -> l = l' /\ n = n')
  /\ (forall l l' n n' g g' fs fs' f, emit l (DeriveInput n [] (DNamed fs)) = Some g ->
        emit l' (DeriveInput n' [] (DNamed fs')) = Some g' ->
        In f (map fst (g_pads g)) -> In f (map fst (g_pads g')) -> l = l' /\ n = n')
  /\ (forall l n g fs, emit l (DeriveInput n [] (DNamed fs)) = Some g -> NoDup (map fst (g_pads g))).
Proof. exact C35_names_distinct_proof. Qed.
Print Assumptions C35_names_distinct.

(** The offsets and sizes asserted by the crate's own tests
    (/repo/crevice-tests/src/lib.rs: mat3_padding,
    proper_offset_calculations_for_differing_member_sizes, bools_and_bool_vectors), and the
    hypotheses of C14-C17, C23, C24, C31, C32, C46 met by them on four targets. *)
Example C15_ex : forall tg, In tg [x86_64; i686; powerpc64; avr_release] ->
  target_ok tg = true
  /\ (exists t g, out_ty tg L140 mat3_padding = Some t /\ gty_of mat3_padding = Some g
        /\ size_of tg t = 64 /\ std_align L140 t = Some 16
        /\ gpath_offset L140 g ["two"] = Some (48, GScalar GFloat)
        /\ path_offset tg t ["two"] = Some (48, TPrim PF32)
        /\ gpath_offset L140 g ["one"; "z"; "y"] = Some (36, GScalar GFloat)
        /\ path_offset tg t ["one"; "z"; "y"] = Some (36, TPrim PF32))
  /\ (exists t, out_ty tg L140 outer_s = Some t /\ size_of tg t = 48 /\ std_align L140 t = Some 16
        /\ path_offset tg t ["leading"; "second"; "x"] = Some (16, TPrim PF32)
        /\ path_offset tg t ["trailing"; "x"] = Some (32, TPrim PF32))
  /\ (exists t g o u, out_ty tg L140 scene = Some t /\ gty_of scene = Some g
        /\ gpath_offset L140 g ["light"; "color"; "z"] = Some (o, GScalar GFloat)
        /\ path_offset tg t ["light"; "color"; "z"] = Some (o, u) /\ o = 40).
Proof. exact C15_ex_proof. Qed.

(** std430: [y] of [ContainsBools] at 8, alignment 8 (crevice-tests), and a [mat2] that is
    tightly packed. *)
Example C16_ex : forall tg, In tg [x86_64; i686; powerpc64; avr_release] ->
  (exists t g, out_ty tg L430 contains_bools = Some t /\ gty_of contains_bools = Some g
        /\ size_of tg t = 16 /\ std_align L430 t = Some 8
        /\ gpath_offset L430 g ["y"; "y"] = Some (12, GScalar GBool)
        /\ path_offset tg t ["y"; "y"] = Some (12, TPrim PBool))
  /\ (exists t g, out_ty tg L430 scene = Some t /\ gty_of scene = Some g
        /\ gpath_offset L430 g ["m"; "y"; "x"] = Some (56, GScalar GFloat)
        /\ path_offset tg t ["m"; "y"; "x"] = Some (56, TPrim PF32)).
Proof. exact C16_ex_proof. Qed.

(** C17, C18: the padding functions of [ContainsBools] in std140 return 4 and 0. *)
Example C18_ex :
  exists t outs g, out_ty x86_64 L140 contains_bools = Some t
  /\ map_opt (fun nf => match out_ty x86_64 L140 (snd nf) with Some u => Some (fst nf, u) | None => None end)
       [("x", HBool); ("y", bvec2)] = Some outs
  /\ emit L140 (DeriveInput "ContainsBools" [] (DNamed outs)) = Some g
  /\ map (fun nf => assoc (fst nf) (field_offsets x86_64 t)) [("x", HBool); ("y", bvec2)] = [Some 0; Some 8]
  /\ ceval x86_64 L140 (g_pads g) 1 (CCall (pad_fn_name L140 "ContainsBools" 0)) = CVal 4
  /\ ceval x86_64 L140 (g_pads g) 2 (CCall (pad_fn_name L140 "ContainsBools" 1)) = CVal 0
  /\ size_of x86_64 t = 16 /\ struct_calls g = Some 3.
Proof. exact C18_ex_proof. Qed.

(** C19: the bytes after [x] of [ContainsBools], the fourth word of each column and the tail
    of [Outer] are padding, and they are zero. *)
Example C19_ex :
  (exists g bs, gty_of contains_bools = Some g /\ no_raw contains_bools = true
     /\ as_std_bytes x86_64 L140 contains_bools (HVRec [("x", HVBool true); ("y", HVRec [("x", HVBool true); ("y", HVBool false)])])
        = Some bs
     /\ bs = [x01; x00; x00; x00; x00; x00; x00; x00; x01; x00; x00; x00; x00; x00; x00; x00]
     /\ map (gcovers L140 g) [3; 4; 7; 8] = [true; false; false; true])
  /\ (exists g bs, gty_of main_uniform = Some g /\ no_raw main_uniform = true
     /\ hval_ok x86_64 main_uniform main1 = true
     /\ as_std_bytes x86_64 L140 main_uniform main1 = Some bs /\ len bs = 64
     /\ gcovers L140 g 12 = false /\ gcovers L140 g 63 = true /\ byte_at bs 63 = Some x3f).
Proof. exact C19_ex_proof. Qed.

(** C19.  Without [no_raw] the claim is false: a [std140::Mat3] obtained from bytes (safe
    [bytemuck] code) keeps whatever its padding contained, and [as_std140] of a struct that
    has it as a field copies it. *)
Theorem C19_raw_values_keep_padding_refuted :
  ~ (forall tg l h g v bs i, target_ok tg = true -> gty_of h = Some g -> hval_ok tg h v = true ->
       as_std_bytes tg l h v = Some bs -> i < len bs -> gcovers l g i = false -> byte_at bs i = Some x00).
Proof. exact C19_raw_values_keep_padding_refuted_proof. Qed.
Print Assumptions C19_raw_values_keep_padding_refuted.

(** C20, C23: a nested value with booleans, doubles and a matrix. *)
Example C20_ex : forall l,
  hval_ok x86_64 scene scene1 = true
  /\ (exists t s bs, out_ty x86_64 l scene = Some t /\ as_std x86_64 l scene scene1 = Some s
        /\ from_std x86_64 l scene s = Some scene1
        /\ as_std_bytes x86_64 l scene scene1 = Some bs /\ bytes_of x86_64 t s = Some bs)
  /\ (exists g x bs, gty_of scene = Some g /\ gval_of x86_64 scene scene1 = Some x
        /\ as_std_bytes x86_64 l scene scene1 = Some bs /\ gread x86_64 l g bs 0 = Some x).
Proof. exact C20_ex_proof. Qed.

(** C21, C24: words a GPU may write ([xff] everywhere: boolean words that are neither 0 nor
    1, nonzero padding) decode, and are normalised when converted back. *)
Example C24_ex :
  exists t s v s', out_ty x86_64 L140 contains_bools = Some t /\ size_of x86_64 t = 16
    /\ from_bytes x86_64 t (repeat xff 16) = Some s
    /\ from_std x86_64 L140 contains_bools s = Some v
    /\ v = HVRec [("x", HVBool true); ("y", HVRec [("x", HVBool true); ("y", HVBool true)])]
    /\ as_std x86_64 L140 contains_bools v = Some s'
    /\ bytes_of x86_64 t s' = Some [x01; x00; x00; x00; x00; x00; x00; x00; x01; x00; x00; x00; x01; x00; x00; x00].
Proof. exact C24_ex_proof. Qed.

(** C31, C32, C46 on a concrete struct. *)
Example C32_ex :
  out_align i686 L140 scene = Some 32 /\ out_align i686 L430 scene = Some 32
  /\ out_align x86_64 L140 contains_bools = Some 16 /\ out_align x86_64 L430 contains_bools = Some 8
  /\ std_size_static x86_64 L140 contains_bools = Some 16 /\ std_size_static x86_64 L430 contains_bools = Some 16
  /\ std_size_static x86_64 L140 mat2f = Some 32 /\ std_size_static x86_64 L430 mat2f = Some 16
  /\ (exists t, out_ty i686 L140 scene = Some t /\ align_of i686 t = 4)
  /\ (exists t, out_ty x86_64 L140 scene = Some t /\ align_of x86_64 t = 8).
Proof. exact C32_ex_proof. Qed.

(** C43: a [dmat3] is layout independent, a [mat2] is not. *)
Example C43_ex :
  layout_independent (GMat GDouble 3 3) = true /\ layout_independent (GMat GFloat 2 2) = false
  /\ as_std_bytes x86_64 L140 vec3f (v3 1 2 3) = as_std_bytes x86_64 L430 vec3f (v3 1 2 3)
  /\ as_std_bytes x86_64 L140 mat2f (HVRec [("x", v2 1 2); ("y", v2 3 4)])
     <> as_std_bytes x86_64 L430 mat2f (HVRec [("x", v2 1 2); ("y", v2 3 4)]).
Proof. exact C43_ex_proof. Qed.

(** C34: an accepted struct whose field [_pad7] is not one of the generated names, and one
    that is rejected because it is larger than a 16-bit target allows. *)
Example C34_ex :
  (exists t, out_ty x86_64 L140 (HStruct "P" [("_pad7", HPrim PF32); ("_pad", HPrim PF32)]) = Some t)
  /\ out_ty x86_64 L140 (HStruct "P" [("a", HPrim PF32); ("_pad1", HPrim PF32)]) = None
  /\ out_ty x86_64 L140 (HStruct "P" [("a", HPrim PU8)]) = None
  /\ (exists ms, field_metrics x86_64 L140 [("x", HBool); ("y", bvec2)] = Some ms /\ ms = [(4, 4); (8, 8)]).
Proof. exact C34_ex_proof. Qed.

(** C14: the generated std140 struct of the scene has explicit padding fields, and its fields
    tile it; a value of it has no uninitialised byte. *)
Example C14_ex :
  exists t s bs, out_ty x86_64 L140 scene = Some t /\ as_std x86_64 L140 scene scene1 = Some s
    /\ has_sty t s = true
    /\ field_offsets x86_64 t
       = [("enabled", 0); ("_pad0", 4); ("light", 16); ("_pad1", 48); ("m", 48); ("_pad2", 80); ("d", 96); ("_pad3", 120);
          ("flags", 128); ("_pad4", 140); ("n", 140); ("_pad5", 144)]
    /\ size_of x86_64 t = 160 /\ mem_of x86_64 t s = Some (map Some bs) /\ len bs = 160.
Proof. exact C14_ex_proof. Qed.

(** C17: the metrics of the fields of the scene, and what follows from them. *)
Example C17_ex :
  exists t g, out_ty i686 L430 scene = Some t /\ gty_of scene = Some g
    /\ field_metrics i686 L430 [("enabled", HBool); ("light", point_light); ("m", mat2f); ("d", dvec3); ("flags", bvec3); ("n", HPrim PI32)]
       = Some [(4, 4); (16, 32); (8, 16); (32, 24); (16, 12); (4, 4)]
    /\ starts 0 [(4, 4); (16, 32); (8, 16); (32, 24); (16, 12); (4, 4)] = [0; 16; 48; 64; 96; 108]
    /\ extent 0 [(4, 4); (16, 32); (8, 16); (32, 24); (16, 12); (4, 4)] = 112
    /\ size_of i686 t = 128 /\ std_align L430 t = Some 32 /\ gsize L430 g = 128 /\ base_align L430 g = 32.
Proof. exact C17_ex_proof. Qed.

(** C21: nonzero padding and boolean words other than 1 are normalised. *)
Example C21_ex :
  exists t g s v s', out_ty x86_64 L140 contains_bools = Some t /\ gty_of contains_bools = Some g
    /\ no_raw contains_bools = true
    /\ from_bytes x86_64 t (repeat x07 16) = Some s /\ bytes_of x86_64 t s = Some (repeat x07 16)
    /\ from_std x86_64 L140 contains_bools s = Some v
    /\ as_std x86_64 L140 contains_bools v = Some s'
    /\ bytes_of x86_64 t s' = Some [x01; x00; x00; x00; x00; x00; x00; x00; x01; x00; x00; x00; x01; x00; x00; x00].
Proof. exact C21_ex_proof. Qed.

(** C22: any 16 bytes are a value of the generated struct. *)
Example C22_ex :
  exists t s, out_ty powerpc64 L430 contains_bools = Some t
    /\ from_bytes powerpc64 t [x00; x01; x02; x03; x04; x05; x06; x07; x08; x09; x0a; x0b; x0c; x0d; x0e; x0f] = Some s
    /\ has_sty t s = true
    /\ bytes_of powerpc64 t s = Some [x00; x01; x02; x03; x04; x05; x06; x07; x08; x09; x0a; x0b; x0c; x0d; x0e; x0f]
    /\ from_bytes powerpc64 t [x00; x01] = None.
Proof. exact C22_ex_proof. Qed.

(** C23: a light in the middle of a larger buffer, as the shader sees it. *)
Example C23_ex :
  exists t g bs, out_ty x86_64 L430 point_light = Some t /\ gty_of point_light = Some g
    /\ hval_ok x86_64 point_light light1 = true /\ as_std_bytes x86_64 L430 point_light light1 = Some bs
    /\ read_at (repeat xee 16 ++ bs ++ [xff])%list 16 (len bs) = Some bs
    /\ gread x86_64 L430 g (repeat xee 16 ++ bs ++ [xff])%list 16
       = Some (GVStruct [("position", GVVec [GVBits 1065353216; GVBits 2; GVBits 3]); ("color", GVVec [GVBits 4; GVBits 5; GVBits 6]);
                         ("brightness", GVBits 1065353216)]).
Proof. exact C23_ex_proof. Qed.

(** C25: the tables are not empty; some rows. *)
Example C25_ex :
  In ("DMat3", GMat GDouble 3 3) std_names /\ In ("BVec3", GVec GBool 3) std_names
  /\ base_align L140 (GMat GDouble 3 3) = 32 /\ gsize L140 (GMat GDouble 3 3) = 96
  /\ gpath_offset L430 (GMat GDouble 3 3) ["y"] = Some (32, GVec GDouble 3)
  /\ (length std_names = 21)%nat.
Proof. exact C25_ex_proof. Qed.

(** C26: big-endian [true]; any nonzero word reads as [true]. *)
Example C26_ex :
  as_std_bytes powerpc64 L140 HBool (HVBool true) = Some [x00; x00; x00; x01]
  /\ from_std powerpc64 L140 HBool (SBits 4294967295) = Some (HVBool true)
  /\ from_std powerpc64 L140 HBool (SBits 0) = Some (HVBool false).
Proof. exact C26_ex_proof. Qed.

(** C27: two words that both read as [true] but are not equal. *)
Example C27_ex :
  pbits_ok PBool 1 = true /\ pbits_ok PBool 2 = true /\ Bool_eq 1 2 = false
  /\ bool_from_Bool 1 = true /\ bool_from_Bool 2 = true.
Proof. exact C27_ex_proof. Qed.

(** C31: the largest alignment of a built-in type, a [DynamicUniform], and the empty struct. *)
Example C31_ex :
  out_align x86_64 L430 scene = Some 32 /\ out_align x86_64 L140 (HDyn scene) = Some 256
  /\ out_align x86_64 L430 (HStruct "Empty" []) = Some 0 /\ std_size_static x86_64 L430 (HStruct "Empty" []) = Some 0
  /\ out_align x86_64 L140 (HStruct "Empty" []) = Some 16.
Proof. exact C31_ex_proof. Qed.

(** C33: a glam, a nalgebra and a cgmath row. *)
Example C33_ex :
  existsb (fun r => String.eqb (my_rust r) "glam::Vec3") glam_rows = true
  /\ (0 < length nalgebra_rows)%nat
  /\ existsb (fun r => String.eqb (er_ty r) "Matrix3" && elem_eqb (er_elem r) EF32) cgmath_rows = true
  /\ hval_ok x86_64 vec3f (v3 1 2 3) = true.
Proof. exact C33_ex_proof. Qed.

(** C35: the names of the helpers of one derive. *)
Example C35_ex :
  exists g, emit L140 (DeriveInput "Foo" [] (DNamed [("x", TPrim PF32); ("y", TPrim PF32)])) = Some g
    /\ g_name g = "Std140Foo"
    /\ map fst (g_pads g) = ["_Foo__Std140Pad0"; "_Foo__Std140Pad1"].
Proof. exact C35_ex_proof. Qed.

(** C44. *)
Example C44_ex : max_arr [4; 16; 8] = Some 16 /\ max_arr [] = Some 0 /\ Internal.max 3 3 = 3.
Proof. exact C44_ex_proof. Qed.

(** C45: the padding functions of a struct of twelve floats. *)
Example C45_ex :
  exists g, emit L430 (DeriveInput "T" [] (DNamed (map (fun i => (dec i, TPrim PF32)) (seq 0 12)))) = Some g
    /\ struct_calls g = Some 4095.
Proof. exact C45_ex_proof. Qed.

(** C46: the Rust alignment of the scene is 8 on x86-64, 4 on i686, 1 on AVR. *)
Example C46_ex :
  (exists t, out_ty x86_64 L140 scene = Some t /\ std_align L140 t = Some 32 /\ align_of x86_64 t = 8 /\ size_of x86_64 t = 160)
  /\ (exists t, out_ty i686 L140 scene = Some t /\ align_of i686 t = 4)
  /\ (exists t, out_ty avr_release L140 scene = Some t /\ align_of avr_release t = 1).
Proof. exact C46_ex_proof. Qed.
