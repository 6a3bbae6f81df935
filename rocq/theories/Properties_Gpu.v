(** * Property theorems (generated from Proofs_Gpu.v by tools/genprops.py; statements only) *)

From Coq Require Import NArith String Bool List Lia ZArith.
From Coq Require Import ZifyBool ZifyN ZifyNat.
From Coq Require Import Strings.Byte.
From Verif Require Import Proofs_Gpu Rust Internal Prims Derive Host Rows Buffer SpecGlsl SpecHost SpecTypes SpecBuf SpecUse SpecGpu
  Arith RustFacts DeriveFacts TypeFacts HostFacts GlslFacts Proofs_Types Proofs_Use GpuFacts Samples.
Import ListNotations.
Local Open Scope string_scope.
Local Open Scope N_scope.


(** C59.  A shader assigns [x] to the part of a block that a path of names denotes
    (["light"; "color"; "z"]); [x] is the GLSL value of the Rust value [w].  Then the host
    reads from the block what it would have read before, with the same Rust assignment
    [v.light.color.z = w] made to it: exactly the assigned part changes. *)
Theorem C59_shader_assignment : forall tg l h t g h' path o g' v w v' x buf buf' off,
  target_ok tg = true -> out_ty tg l h = Some t -> gty_of h = Some g -> plain h = true ->
  type_at h path h' -> gpath_offset l g path = Some (o, g') ->
  host_reads tg l h buf off v ->
  hval_ok tg h' w = true -> gval_of tg h' w = Some x -> assigned v path w v' ->
  stored tg l g' x (off + o) buf buf' ->
  host_reads tg l h buf' off v'.
Proof. exact C59_shader_assignment_proof. Qed.
Print Assumptions C59_shader_assignment.

(** C60.  The host updates one part of a block in place: it copies
    [w.as_stdN().as_bytes()] to the Rust offset of that part in [Output]
    ([offset_of!(Std140Scene, light.color)]).  Then reading the whole block back gives the
    old value with the corresponding field assigned. *)
Theorem C60_partial_update : forall tg l h t g h' path o u v w v' bs buf buf' off,
  target_ok tg = true -> out_ty tg l h = Some t -> gty_of h = Some g -> plain h = true ->
  type_at h path h' -> path_offset tg t path = Some (o, u) ->
  host_reads tg l h buf off v ->
  hval_ok tg h' w = true -> as_std_bytes tg l h' w = Some bs -> assigned v path w v' ->
  copy_at buf (off + o) bs = Some buf' ->
  host_reads tg l h buf' off v'.
Proof. exact C60_partial_update_proof. Qed.
Print Assumptions C60_partial_update.

(** C58.  [v.as_stdN()] is uploaded, a shader loads the variable and stores it into
    another buffer ([out_data = in_data;]), the host downloads that buffer and calls
    [from_stdN]: it gets [v] back.  (crevice-tests/src/gpu.rs:105-151 checks this for a few
    values on one GPU.) *)
Theorem C58_gpu_round_trip : forall tg l h t g v bs x inb ioff outb outb' ooff,
  target_ok tg = true -> out_ty tg l h = Some t -> gty_of h = Some g -> plain h = true -> hval_ok tg h v = true ->
  as_std_bytes tg l h v = Some bs -> read_at inb ioff (len bs) = Some bs ->
  gread tg l g inb ioff = Some x -> ooff + size_of tg t <= len outb -> stored tg l g x ooff outb outb' ->
  host_reads tg l h outb' ooff v.
Proof. exact C58_gpu_round_trip_proof. Qed.
Print Assumptions C58_gpu_round_trip.

(** C58, the shader of crevice-tests/src/gpu.rs:53-66: [out_data.f = in_data.f;] for every
    field [f], in any order, possibly more than once.  Whatever the output buffer contained
    before, the host gets [v] back. *)
Theorem C58_memberwise_copy : forall tg l n fs t g v bs inb ioff outb outb' ooff names,
  target_ok tg = true -> out_ty tg l (HStruct n fs) = Some t -> gty_of (HStruct n fs) = Some g ->
  plain (HStruct n fs) = true -> hval_ok tg (HStruct n fs) v = true ->
  as_std_bytes tg l (HStruct n fs) v = Some bs -> read_at inb ioff (len bs) = Some bs ->
  ooff + size_of tg t <= len outb -> (forall f, In f (map fst fs) -> In f names) ->
  copied_members tg l g inb ioff ooff names outb outb' ->
  host_reads tg l (HStruct n fs) outb' ooff v.
Proof. exact C58_memberwise_copy_proof. Qed.
Print Assumptions C58_memberwise_copy.

(** C58: an upload of a [PointLight], copied member by member, in another order and one of
    them twice, into a buffer full of garbage. *)
Example C58_ex :
  let tg := x86_64 in let garbage := repeat (byte_of_N 171) 40 in
  exists t g bs outb', out_ty tg L140 point_light = Some t /\ gty_of point_light = Some g /\ plain point_light = true
  /\ as_std_bytes tg L140 point_light light1 = Some bs /\ size_of tg t = 32
  /\ copied_members tg L140 g bs 0 5 ["brightness"; "position"; "color"; "position"] garbage outb'
  /\ host_reads tg L140 point_light outb' 5 light1
  /\ byte_at outb' 17 = Some (byte_of_N 171).
Proof. exact C58_ex_proof. Qed.

(** C59: the shader sets [data.y.y = true] in a [ContainsBools] (std430, big-endian target)
    and represents [true] by the word 7. *)
Example C59_ex :
  let tg := powerpc64 in
  let v := HVRec [("x", HVBool true); ("y", HVRec [("x", HVBool true); ("y", HVBool false)])] in
  let v' := HVRec [("x", HVBool true); ("y", HVRec [("x", HVBool true); ("y", HVBool true)])] in
  exists t g o g' buf buf', out_ty tg L430 contains_bools = Some t /\ gty_of contains_bools = Some g /\ plain contains_bools = true
  /\ type_at contains_bools ["y"; "y"] HBool /\ gpath_offset L430 g ["y"; "y"] = Some (o, g') /\ o = 12
  /\ host_reads tg L430 contains_bools buf 3 v
  /\ assigned v ["y"; "y"] (HVBool true) v'
  /\ stored tg L430 g' (GVBool true) (3 + o) buf buf' /\ read_at buf' 15 4 = Some [x00; x00; x00; x07]
  /\ host_reads tg L430 contains_bools buf' 3 v'.
Proof. exact C59_ex_proof. Qed.

(** C60: the host overwrites [light.color] inside a [Scene]. *)
Example C60_ex :
  let tg := x86_64 in
  exists t g bs o u buf buf' v', out_ty tg L140 scene = Some t /\ gty_of scene = Some g /\ plain scene = true
  /\ type_at scene ["light"; "color"] vec3f /\ path_offset tg t ["light"; "color"] = Some (o, u) /\ o = 32
  /\ host_reads tg L140 scene buf 2 scene1 /\ as_std_bytes tg L140 vec3f (v3 21 22 23) = Some bs
  /\ copy_at buf (2 + o) bs = Some buf' /\ assigned scene1 ["light"; "color"] (v3 21 22 23) v'
  /\ host_reads tg L140 scene buf' 2 v' /\ v' <> scene1.
Proof. exact C60_ex_proof. Qed.
