(** C105: padding in two steps.

    Vocabulary (PadTwice.v; PropsPad.v):
    - [same_kind q q']: equal mode, constants and windows;
    - [resumable q n b a]: on an axis of length n, widths b and a after which the mode of q can be
      resumed - any for replicate, constant, smooth, maximum and minimum; any, with windows that
      take in the whole axis, for mean and median; b + a a multiple of n for circular; b and a
      multiples of n (symmetric kinds) or of n - 1 (reflect kinds);
    - [adds p1 p2 p al]: on every padded axis p has the widths of p1 plus those of p2;
    - [one_axis], [pad_call], [all_axes], [axis_par]: as in PropsPad.v. *)
From Coq Require Import QArith.
From Verif Require Import ExampleUtil PadTwiceEx.
Open Scope Z_scope.

(** ** C105: padding the padded image again is one padding by the summed widths. *)
Theorem C105_one_axis : forall (F : ofield) fuel junk junk' junk'' (p1 p2 p : padder F) (x : tensor F) ax d q1 q2 q,
  one_axis fuel p x ax d q ->
  params p1 0 = Some q1 -> params p2 0 = Some q2 -> same_kind q q1 -> same_kind q q2 ->
  0 <= ap_before q1 -> 0 <= ap_after q1 -> 0 <= ap_before q2 -> 0 <= ap_after q2 ->
  ap_before q = ap_before q1 + ap_before q2 -> ap_after q = ap_after q1 + ap_after q2 ->
  resumable q (nth d (shp x) 0) (ap_before q1) (ap_after q1) ->
  exists y z z', padder_forward fuel junk p1 x ax = Ok y /\ padder_forward fuel junk' p2 y ax = Ok z /\
    padder_forward fuel junk'' p x ax = Ok z' /\ teq z z'.
Proof. exact padding_resumed. Qed.
Print Assumptions C105_one_axis.
(** Several axes at once, for the modes that copy samples. *)
Theorem C105_several_axes : forall (F : ofield) fuel junk junk' junk'' (p1 p2 p : padder F) (x : tensor F) ax al m,
  pad_call fuel p x ax al -> m = MReplicate \/ m = MCircular \/ m = MSymmetric \/ m = MReflect ->
  all_axes p x al (fun q n => ap_mode q = m /\ 1 <= n) -> adds p1 p2 p al ->
  (forall d q q1, axis_par p (last_axes p al) d = Some q -> axis_par p1 (last_axes p al) d = Some q1 ->
     resumable q (nth d (shp x) 0) (ap_before q1) (ap_after q1)) ->
  exists y z z', padder_forward fuel junk p1 x ax = Ok y /\ padder_forward fuel junk' p2 y ax = Ok z /\
    padder_forward fuel junk'' p x ax = Ok z' /\ teq z z'.
Proof. exact copies_resumed. Qed.
Print Assumptions C105_several_axes.

(** Without [resumable] the results may differ. *)
Theorem C105_condition_needed : forall m : mode QcF,
  In m [MCircular; MPeriodize; MSymmetric; MReflect; MAntisymmetric; MOddReflect; MOddSymmetric; MLinearRamp; MStat SMean] ->
  exists fuel junk p1 p2 p (x : tensor QcF) q1 q2 q,
    one_axis fuel p x AxNone 0 q /\ ap_mode q = m /\ params p1 0 = Some q1 /\ params p2 0 = Some q2 /\ same_kind q q1 /\ same_kind q q2 /\
    0 <= ap_before q1 /\ 0 <= ap_after q1 /\ 0 <= ap_before q2 /\ 0 <= ap_after q2 /\
    ap_before q = ap_before q1 + ap_before q2 /\ ap_after q = ap_after q1 + ap_after q2 /\
    forall y z z', padder_forward fuel junk p1 x AxNone = Ok y -> padder_forward fuel junk p2 y AxNone = Ok z ->
      padder_forward fuel junk p x AxNone = Ok z' -> ~ teq z z'.
Proof. exact condition_needed. Qed.
Print Assumptions C105_condition_needed.
Theorem C105_constants_differ : exists fuel junk (p1 p2 p : padder QcF) x al, pad_call fuel p x AxNone al /\
  all_axes p x al (fun q n => ap_mode q = MConstant /\ 1 <= n) /\ adds p1 p2 p al /\
  forall y z z', padder_forward fuel junk p1 x AxNone = Ok y -> padder_forward fuel junk p2 y AxNone = Ok z ->
      padder_forward fuel junk p x AxNone = Ok z' -> ~ teq z z'.
Proof. exact constants_differ. Qed.
Print Assumptions C105_constants_differ.

Example C105_example :
  one_axis 20 (pad1d (4, 5) MReflect) line3 AxNone 0 (ap12 (4, 5) MReflect) /\
  params (pad1d (2, 4) MReflect) 0 = Some (ap12 (2, 4) MReflect) /\ params (pad1d (2, 1) MReflect) 0 = Some (ap12 (2, 1) MReflect) /\
  resumable (ap12 (4, 5) MReflect) 3 2 4 /\
  show (twice (pad1d (2, 4) MReflect) (pad1d (2, 1) MReflect) line3) = Some ([12], zq [1; 2; 4; 2; 1; 2; 4; 2; 1; 2; 4; 2]) /\
  show (twice (pad1d (1, 1) MSmooth) (pad1d (1, 2) MSmooth) line3) = Some ([8], zq [-1; 0; 1; 2; 4; 6; 8; 10]) /\
  show (twice (pad1d (3, 6) MOddSymmetric) (pad1d (1, 1) MOddSymmetric) line3) =
  show (padder_forward 20 garbage (pad1d (4, 7) MOddSymmetric) line3 AxNone) /\
  show (twice (pad1d (3, 6) MOddSymmetric) (pad1d (1, 1) MOddSymmetric) line3) <> None.
Proof.
  split; [ex_one|]. do 2 (split; [reflexivity|]). split; [exists 1, 2; lia|].
  do 3 (split; [vm_compute; reflexivity|]). vm_compute. discriminate.
Qed.
Example C105_several_example :
  pad_call 20 (pad2 (2, 2) (4, 2) MCircular MCircular) x23 AxNone [0; 1]%nat /\
  all_axes (pad2 (2, 2) (4, 2) MCircular MCircular) x23 [0; 1]%nat (fun q n => ap_mode q = MCircular /\ 1 <= n) /\
  adds (pad2 (1, 1) (3, 0) MCircular MCircular) (pad2 (1, 1) (1, 2) MCircular MCircular) (pad2 (2, 2) (4, 2) MCircular MCircular) [0; 1]%nat /\
  resumable (par2 (2, 2) MCircular) 2 1 1 /\ resumable (par2 (4, 2) MCircular) 3 3 0 /\
  show (twice (pad2 (1, 1) (3, 0) MCircular MCircular) (pad2 (1, 1) (1, 2) MCircular MCircular) x23) =
  show (padder_forward 20 garbage (pad2 (2, 2) (4, 2) MCircular MCircular) x23 AxNone).
Proof.
  split; [ex_call|]. split; [ex_axes|]. split.
  - split; [reflexivity|]. split; [reflexivity|]. intros d q E. change (last_axes _ _) with [0; 1]%nat in *.
    destruct d as [|[|d]]; cbn in E; inv E; do 2 eexists; (split; [reflexivity|]); (split; [reflexivity|]); cbn; repeat split; lia.
  - split; [exists 1; lia|]. split; [exists 1; lia|]. vm_compute; reflexivity.
Qed.
