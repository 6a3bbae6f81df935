(** * Property theorems (generated from Proofs_Custom.v by tools/genprops.py; statements only) *)

From Coq Require Import NArith String Bool List Lia ZArith PeanoNat.
From Coq Require Import ZifyBool ZifyN ZifyNat.
From Coq Require Import Strings.Byte.
From Verif Require Import Proofs_Custom Rust Internal Prims Derive Host Rows Buffer Custom SpecGlsl SpecHost SpecTypes SpecBuf SpecUse SpecGpu SpecCustom
  Arith RustFacts DeriveFacts TypeFacts HostFacts GlslFacts PadFacts BufferFacts Proofs_Types Proofs_Use GpuFacts Proofs_Gpu Samples.
Import ListNotations.
Local Open Scope string_scope.
Local Open Scope N_scope.


(** C85.  The layout depends on the user's code only through the [Output] types. *)
Theorem C85_layout : forall X tg l (T : xty X), x_out tg l T = out_ty tg l (plain_ty l T).
Proof. exact C85_layout_proof. Qed.
Print Assumptions C85_layout.

(** C85.  Bytes and writing: as if every part of a user type had been replaced by what the
    user's function returns; a panic in it happens before the writer is touched, and nothing
    else can go wrong. *)
Theorem C85_bytes : forall X W tg l (wi : write_impl W) (T : xty X) t v,
  target_ok tg = true -> x_out tg l T = Some t -> returns_output tg l T -> x_ok tg T v = true ->
  (forall p, plain_val T v = Some p ->
     hval_ok tg (plain_ty l T) p = true
     /\ (exists s bs, x_as tg l T v = Some s /\ has_sty t s = true /\ x_bytes tg l T v = Some bs /\ len bs = size_of tg t)
     /\ x_bytes tg l T v = as_std_bytes tg l (plain_ty l T) p
     /\ forall w, x_write tg l wi T v w = writer_write tg l wi w (WLeaf (plain_ty l T) p))
  /\ (plain_val T v = None <-> exists u x, In (u, x) (user_parts T v) /\ ui_as u x = None)
  /\ (plain_val T v = None -> x_as tg l T v = None /\ forall w, x_write tg l wi T v w = (w, WPanic)).
Proof. exact C85_bytes_proof. Qed.
Print Assumptions C85_bytes.

(** C85.  A shader reads the replaced values. *)
Theorem C85_shader : forall X tg l (T : xty X) t g v bs buf off,
  target_ok tg = true -> x_out tg l T = Some t -> returns_output tg l T -> x_ok tg T v = true ->
  gty_of (plain_ty l T) = Some g -> x_bytes tg l T v = Some bs -> read_at buf off (len bs) = Some bs ->
  exists p x, plain_val T v = Some p /\ gval_of tg (plain_ty l T) p = Some x /\ gread tg l g buf off = Some x.
Proof. exact C85_shader_proof. Qed.
Print Assumptions C85_shader.

(** C85.  The derived [from_stdN] undoes the derived [as_stdN] on a value exactly when the user's
    functions do so on its parts. *)
Theorem C85_round_trip : forall X tg l (T : xty X) t v s,
  target_ok tg = true -> x_out tg l T = Some t -> returns_output tg l T -> x_ok tg T v = true ->
  x_as tg l T v = Some s ->
  (x_from tg l T s = Some v
   <-> forall u x, In (u, x) (user_parts T v) -> exists s', ui_as u x = Some s' /\ ui_from u s' = Some x).
Proof. exact C85_round_trip_proof. Qed.
Print Assumptions C85_round_trip.

(** C85.  What a shader has written comes back as the user's [from_stdN] of the parts. *)
Theorem C85_read_back : forall X tg l (T : xty X) t s,
  target_ok tg = true -> x_out tg l T = Some t -> has_sty t s = true ->
  exists p, from_std tg l (plain_ty l T) s = Some p /\ hval_ok tg (plain_ty l T) p = true /\ x_from tg l T s = user_val T p.
Proof. exact C85_read_back_proof. Qed.
Print Assumptions C85_read_back.

(** C85.  Slices and iterators of user values: as the replaced values, one by one; if the
    conversion of an item panics, the items before it have been written as usual. *)
Theorem C85_slices : forall X W tg l (wi : write_impl W) (items : list (xty X * xval X)) ps w,
  target_ok tg = true ->
  Forall2 (fun Tv p => x_out tg l (fst Tv) <> None /\ returns_output tg l (fst Tv) /\ x_ok tg (fst Tv) (snd Tv) = true
                       /\ fst p = plain_ty l (fst Tv) /\ plain_val (fst Tv) (snd Tv) = Some (snd p)) items ps ->
  x_write_seq tg l wi items w = writer_write tg l wi w (WSeq (map (fun p => WLeaf (fst p) (snd p)) ps))
  /\ forall T v post, x_out tg l T <> None -> returns_output tg l T -> x_ok tg T v = true -> plain_val T v = None ->
     x_write_seq tg l wi (items ++ (T, v) :: post)%list w
     = match writer_write tg l wi w (WSeq (map (fun p => WLeaf (fst p) (snd p)) ps)) with
       | (w', WOk _) => (w', WPanic)
       | r => r
       end.
Proof. exact C85_slices_proof. Qed.
Print Assumptions C85_slices.

Example C85_ex :
  (forall l, returns_output x86_64 l lamp)
  /\ (exists t, x_out x86_64 L140 lamp = Some t /\ size_of x86_64 t = 32)
  /\ x_ok x86_64 lamp (lamp_v 90) = true /\ user_parts lamp (lamp_v 90) = [(angle, 90); (angle, 10); (angle, 20)]
  /\ (exists s, x_as x86_64 L140 lamp (lamp_v 90) = Some s /\ x_from x86_64 L140 lamp s = Some (lamp_v 90))
  /\ x_as x86_64 L140 lamp (lamp_v 360) = None.
Proof. exact C85_ex_proof. Qed.

Example C85_ex_lossy :
  let T := XStruct "S" [("a", XUser half); ("b", XUser half)] in
  exists s, x_as x86_64 L430 T (XVRec [("a", XVUser 4); ("b", XVUser 5)]) = Some s
  /\ x_from x86_64 L430 T s = Some (XVRec [("a", XVUser 4); ("b", XVUser 4)]).
Proof. exact C85_ex_lossy_proof. Qed.

(** C85: two lamps, and a lamp the conversion of which panics between them *)
Example C85_ex_slices :
  (exists w, x_write_seq x86_64 L140 vec_sink [(lamp, lamp_v 90); (lamp, lamp_v 180)] (writer_new []) = (w, WOk 0) /\ writer_len w = 64)
  /\ (exists w, x_write_seq x86_64 L140 vec_sink [(lamp, lamp_v 90); (lamp, lamp_v 360); (lamp, lamp_v 180)] (writer_new []) = (w, WPanic) /\ writer_len w = 32).
Proof. exact C85_ex_slices_proof. Qed.
