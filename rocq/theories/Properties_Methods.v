(** * Property theorems (generated from Proofs_Methods.v by tools/genprops.py; statements only) *)

From Coq Require Import NArith String Bool List Lia ZArith PeanoNat.
From Coq Require Import ZifyBool ZifyN ZifyNat.
From Coq Require Import Strings.Byte.
From Verif Require Import Proofs_Methods Rust Internal Prims Derive Host Buffer Custom CustomAny Methods SpecGlsl SpecHost SpecTypes SpecBuf SpecLayout SpecCustom SpecAny SpecMethods
  Arith RustFacts DeriveFacts TypeFacts LayoutFacts HostFacts GlslFacts PadFacts BufferFacts WriterFacts Proofs_Buffer Proofs_Types Proofs_Use
  Proofs_Custom Proofs_Layout Proofs_Any Samples.
Import ListNotations.
Local Open Scope string_scope.
Local Open Scope N_scope.


(** C91.  The method that the generated code calls: a method that takes the value comes before one that takes a
    reference, and at the same receiver an inherent one before those of traits; without a first one there is none. *)
Theorem C91_lookup : forall X imported (F : ftype X) m, resolve imported F = Some m <-> called imported F m.
Proof. exact C91_lookup_proof. Qed.
Print Assumptions C91_lookup.

(** C91.  The derive compiles exactly when every call denotes a method that returns the [Output] of the field's
    [AsStdN], and does not take the value unless the type is [Copy]. *)
Theorem C91_compiles : forall X imported name (fs : list (string * ftype X)),
  elaborate imported name fs <> None
  <-> forall f F, In (f, F) fs -> exists m, called imported F m /\ me_ret m = ai_out (ft_impl F) /\ (me_by_value m = true -> ft_copy F = true).
Proof. exact C91_compiles_proof. Qed.
Print Assumptions C91_compiles.

(** C91.  If the trait is imported and no other method has its name, the conversions are those of the trait, as
    everywhere else in this model. *)
Theorem C91_usual : forall X name (fs : list (string * ftype X)),
  (forall f F, In (f, F) fs -> ft_inherent F = None /\ ft_others F = []) ->
  elaborate true name fs = Some (YStruct name (map (fun nf => (fst nf, YLeaf (ft_impl (snd nf)))) fs)).
Proof. exact C91_usual_proof. Qed.
Print Assumptions C91_usual.

(** C91.  Without the import a field whose type has no other method of this name does not compile. *)
Theorem C91_not_imported : forall X name (fs : list (string * ftype X)) f F,
  In (f, F) fs -> ft_inherent F = None -> ft_others F = [] -> elaborate false name fs = None.
Proof. exact C91_not_imported_proof. Qed.
Print Assumptions C91_not_imported.

(** C91.  [as_stdN().as_bytes()]: either every method called returns, and at the offset of every field are the bytes
    of what the called method returns, and zeros everywhere else; or one of the methods panics, and so does the whole. *)
Theorem C91_bytes : forall X tg l imported name (fs : list (string * ftype X)) T t vs,
  target_ok tg = true -> ftypes_ok tg l fs -> elaborate imported name fs = Some T -> y_out tg l T = Some t ->
  map fst vs = map fst fs ->
  (exists s bs, y_as tg l T (record_of vs) = Some s /\ has_sty t s = true /\ bytes_of tg t s = Some bs /\ len bs = size_of tg t
     /\ (forall f F x, In (f, F) fs -> In (f, x) vs ->
           exists m s' b o, called imported F m /\ me_fn m x = Some s' /\ bytes_of tg (ai_out (ft_impl F)) s' = Some b
             /\ assoc f (field_offsets tg t) = Some o /\ read_at bs o (size_of tg (ai_out (ft_impl F))) = Some b)
     /\ (forall i, i < size_of tg t ->
           (forall f F o, In (f, F) fs -> assoc f (field_offsets tg t) = Some o -> ~ (o <= i < o + size_of tg (ai_out (ft_impl F)))) ->
           byte_at bs i = Some x00))
  \/ (y_as tg l T (record_of vs) = None
      /\ exists f F x m, In (f, F) fs /\ In (f, x) vs /\ called imported F m /\ me_fn m x = None).
Proof. exact C91_bytes_proof. Qed.
Print Assumptions C91_bytes.

(** C91.  [from_stdN] is called by its path: it is always the one of the trait.  So the round trip holds exactly when
    that undoes the method called, on every field. *)
Theorem C91_round_trip : forall X tg l imported name (fs : list (string * ftype X)) T t vs s,
  target_ok tg = true -> ftypes_ok tg l fs -> elaborate imported name fs = Some T -> y_out tg l T = Some t ->
  map fst vs = map fst fs -> y_as tg l T (record_of vs) = Some s ->
  (y_from tg l T s = Some (record_of vs)
   <-> forall f F x m, In (f, F) fs -> In (f, x) vs -> called imported F m ->
         exists s', me_fn m x = Some s' /\ ai_from (ft_impl F) s' = Some x).
Proof. exact C91_round_trip_proof. Qed.
Print Assumptions C91_round_trip.

(** C91.  So a round trip can fail although every [impl AsStd140] round-trips: the field's type has an inherent
    method [as_std140]. *)
Theorem C91_round_trip_refuted :
  exists (fs : list (string * ftype N)) T t vs s,
    ftypes_ok x86_64 L140 fs
    /\ (forall f F x, In (f, F) fs -> In (f, x) vs -> exists s', ai_as (ft_impl F) x = Some s' /\ ai_from (ft_impl F) s' = Some x)
    /\ elaborate true "S" fs = Some T /\ y_out x86_64 L140 T = Some t /\ map fst vs = map fst fs
    /\ y_as x86_64 L140 T (record_of vs) = Some s /\ y_from x86_64 L140 T s <> Some (record_of vs).
Proof. exact C91_round_trip_refuted_proof. Qed.
Print Assumptions C91_round_trip_refuted.

Example C91_ex :
  (* the import matters, unless another method is there *)
  elaborate true "S" [("a", plain_num)] = Some (YStruct "S" [("a", YLeaf num)])
  /\ elaborate false "S" [("a", plain_num)] = None
  /\ elaborate false "S" [("a", shadowed)] <> None
  /\ elaborate false "S" [("a", rival false true)] <> None
  (* two traits: ambiguous, unless one takes the value, and the type is Copy *)
  /\ elaborate true "S" [("a", rival false true)] = None
  /\ elaborate true "S" [("a", rival true true)] <> None
  /\ elaborate true "S" [("a", rival true false)] = None
  (* the bytes of a struct where the inherent method is called for one of two fields *)
  /\ exists T t s, elaborate true "S" [("a", plain_num); ("b", shadowed)] = Some T /\ y_out x86_64 L140 T = Some t
       /\ y_as x86_64 L140 T (record_of [("a", 1000); ("b", 1000)]) = Some s
       /\ bytes_of x86_64 t s = Some [xe8; x03; x00; x00; xff; x00; x00; x00; x00; x00; x00; x00; x00; x00; x00; x00].
Proof. exact C91_ex_proof. Qed.

(** C91: the hypotheses are met *)
Example C91_ex_hypotheses :
  ftypes_ok x86_64 L140 [("a", plain_num); ("b", shadowed); ("c", rival true true)]
  /\ called true shadowed (clamp false) /\ called true (rival true true) (clamp true)
  /\ (exists T t s, elaborate true "S" [("a", plain_num); ("b", shadowed); ("c", rival true true)] = Some T /\ y_out x86_64 L140 T = Some t
        /\ y_as x86_64 L140 T (record_of [("a", 5); ("b", 6); ("c", 7)]) = Some s
        /\ y_from x86_64 L140 T s = Some (record_of [("a", 5); ("b", 6); ("c", 7)])
        /\ y_as x86_64 L140 T (record_of [("a", 4294967296); ("b", 6); ("c", 7)]) = None).
Proof. exact C91_ex_hypotheses_proof. Qed.
