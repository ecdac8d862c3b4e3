(** C01-C21, C23, C24: padding.

    Vocabulary (definitions in PadderCor.v, PadPropLemmas.v, PadSeq.v):
    - [pad_call fuel p x ax al]: x has at least one axis, the argument ax denotes the
      distinct axes al, and fuel is at least the longest output axis;
    - [one_axis fuel p x ax a q]: the call pads the single axis a with parameters q;
    - [axis_par p (last_axes p al) d]: the parameters that apply to axis d, if it is padded;
    - [all_axes p x al P]: all padded axes have nonnegative widths and satisfy P. *)
From Verif Require Import PadTight ExampleUtil PadSeq AxisSlice.
Open Scope Z_scope.

(** C01: the element at j is the input element whose coordinate on every padded
    axis is (j_d - before) mod n. *)
Theorem C01_circular : forall (F : ofield) fuel junk (p : padder F) x ax al,
  pad_call fuel p x ax al ->
  all_axes p x al (fun q n => ap_mode q = MCircular /\ 1 <= n) ->
  exists y, padder_forward fuel junk p x ax = Ok y /\ shp y = grown p al (shp x) /\
    forall j, valid (shp y) j -> at_ y j = at_ x (from (fun n t => t mod n) p al (shp x) j).
Proof. exact circular_copy. Qed.
Print Assumptions C01_circular.
Example C01_example :
  let p := pad2 (4, 1) (2, 5) MCircular MCircular in
  pad_call 20 p x23 AxNone [0%nat; 1%nat] /\
  all_axes p x23 [0%nat; 1%nat] (fun q n => ap_mode q = MCircular /\ 1 <= n) /\
  show (padder_forward 20 garbage (pad1d (4, 5) MCircular) x23 (AxInt 1)) =
  Some ([2; 12], zq [4; 1; 2; 4; 1; 2; 4; 1; 2; 4; 1; 2; 40; 10; 20; 40; 10; 20; 40; 10; 20; 40; 10; 20]).
Proof. split; [ex_call|]. split; [ex_axes|]. vm_compute; reflexivity. Qed.

Theorem C02_symmetric : forall (F : ofield) fuel junk (p : padder F) x ax al,
  pad_call fuel p x ax al ->
  all_axes p x al (fun q n => ap_mode q = MSymmetric /\ 1 <= n) ->
  exists y, padder_forward fuel junk p x ax = Ok y /\ shp y = grown p al (shp x) /\
    forall j, valid (shp y) j ->
      at_ y j = at_ x (from (fun n t => let m := t mod (2 * n) in if m <? n then m else 2 * n - 1 - m) p al (shp x) j).
Proof. exact symmetric_copy. Qed.
Print Assumptions C02_symmetric.
Example C02_example :
  let p := pad2 (4, 1) (2, 5) MSymmetric MSymmetric in
  pad_call 20 p x23 AxNone [0%nat; 1%nat] /\
  all_axes p x23 [0%nat; 1%nat] (fun q n => ap_mode q = MSymmetric /\ 1 <= n) /\
  show (padder_forward 20 garbage (pad1d (4, 5) MSymmetric) x23 (AxInt 1)) =
  Some ([2; 12], zq [4; 4; 2; 1; 1; 2; 4; 4; 2; 1; 1; 2; 40; 40; 20; 10; 10; 20; 40; 40; 20; 10; 10; 20]).
Proof. split; [ex_call|]. split; [ex_axes|]. vm_compute; reflexivity. Qed.

(** For several axes see C14: they are padded one after the other. *)
Theorem C03_antisymmetric : forall (F : ofield) fuel junk (p : padder F) x ax a q,
  one_axis fuel p x ax a q -> ap_mode q = MAntisymmetric ->
  exists y, padder_forward fuel junk p x ax = Ok y /\
    shp y = upd a (ap_before q + nth a (shp x) 0 + ap_after q) (shp x) /\
    forall j, valid (shp y) j ->
      let n := nth a (shp x) 0 in let m := (nth a j 0 - ap_before q) mod (2 * n) in let f u := at_ x (upd a u j) in
      at_ y j = if m <? n then f m else (- f (2 * n - 1 - m)%Z)%F.
Proof. exact antisymmetric_axis. Qed.
Print Assumptions C03_antisymmetric.
Definition q35 (m : mode QcF) := mkAP 3 5 m (qz 7, qz 8) (qz 0, qz 10) (Some 2, None).
Example C03_example :
  one_axis 20 (pad1d (3, 5) MAntisymmetric) x23 (AxInt (-1)) 1 (q35 MAntisymmetric) /\
  show (padder_forward 20 garbage (pad1d (3, 5) MAntisymmetric) (ofz [1] [6]) AxNone) =
  Some ([9], zq [-6; 6; -6; 6; -6; 6; -6; 6; -6]).
Proof. split; [ex_one|]. vm_compute; reflexivity. Qed.

Theorem C04_reflect : forall (F : ofield) fuel junk (p : padder F) x ax al,
  pad_call fuel p x ax al ->
  all_axes p x al (fun q n => ap_mode q = MReflect /\ 1 <= n) ->
  exists y, padder_forward fuel junk p x ax = Ok y /\ shp y = grown p al (shp x) /\
    forall j, valid (shp y) j ->
      at_ y j = at_ x (from (fun n t => if n =? 1 then 0
                             else let m := t mod (2 * n - 2) in if m <? n then m else 2 * n - 2 - m) p al (shp x) j).
Proof. exact reflect_copy. Qed.
Print Assumptions C04_reflect.
Example C04_example :
  let p := pad2 (4, 1) (2, 5) MReflect MReflect in
  pad_call 20 p x23 AxNone [0%nat; 1%nat] /\
  all_axes p x23 [0%nat; 1%nat] (fun q n => ap_mode q = MReflect /\ 1 <= n) /\
  show (padder_forward 20 garbage (pad1d (3, 5) MReflect) (ofz [3] [1; 2; 4]) AxNone) =
  Some ([11], zq [2; 4; 2; 1; 2; 4; 2; 1; 2; 4; 2]).
Proof. split; [ex_call|]. split; [ex_axes|]. vm_compute; reflexivity. Qed.

(** C05, C06: along the line through any index i, the output is a function g of the
    offset t with the reflection and translation laws. *)
Theorem C05_odd_reflect : forall (F : ofield) fuel junk (p : padder F) x ax a q,
  one_axis fuel p x ax a q -> ap_mode q = MOddReflect ->
  exists y, padder_forward fuel junk p x ax = Ok y /\
    shp y = upd a (ap_before q + nth a (shp x) 0 + ap_after q) (shp x) /\
    forall i, exists g : Z -> F,
      let n := nth a (shp x) 0 in let f u := at_ x (upd a u i) in
      (forall t, valid (shp y) (upd a (t + ap_before q) i) -> at_ y (upd a (t + ap_before q) i) = g t) /\
      (forall t, 0 <= t < n -> g t = f t) /\
      (forall t, g (- t) = (fofZ 2 * f 0%Z - g t)%F) /\
      (forall t, g (t + 2 * (n - 1)) = (g t + fofZ 2 * (f (n - 1)%Z - f 0%Z))%F) /\
      (n = 1 -> forall t, g t = f 0).
Proof. exact odd_reflect_axis. Qed.
Print Assumptions C05_odd_reflect.
Example C05_example :
  one_axis 20 (pad1d (3, 5) MOddReflect) x23 (AxInt (-1)) 1 (q35 MOddReflect) /\
  show (padder_forward 20 garbage (pad1d (3, 5) MOddReflect) (ofz [3] [1; 2; 4]) AxNone) =
  Some ([11], zq [-4; -2; 0; 1; 2; 4; 6; 7; 8; 10; 12]).
Proof. split; [ex_one|]. vm_compute; reflexivity. Qed.

Theorem C06_odd_symmetric : forall (F : ofield) fuel junk (p : padder F) x ax a q,
  one_axis fuel p x ax a q -> ap_mode q = MOddSymmetric ->
  exists y, padder_forward fuel junk p x ax = Ok y /\
    shp y = upd a (ap_before q + nth a (shp x) 0 + ap_after q) (shp x) /\
    forall i, exists g : Z -> F,
      let n := nth a (shp x) 0 in let f u := at_ x (upd a u i) in
      (forall t, valid (shp y) (upd a (t + ap_before q) i) -> at_ y (upd a (t + ap_before q) i) = g t) /\
      (forall t, 0 <= t < n -> g t = f t) /\
      (forall t, g (- 1 - t) = (fofZ 2 * f 0%Z - g t)%F) /\
      (forall t, g (t + 2 * n) = (g t + fofZ 2 * (f (n - 1)%Z - f 0%Z))%F).
Proof. exact odd_symmetric_axis. Qed.
Print Assumptions C06_odd_symmetric.
Example C06_example :
  one_axis 20 (pad1d (3, 5) MOddSymmetric) x23 (AxInt (-1)) 1 (q35 MOddSymmetric) /\
  show (padder_forward 20 garbage (pad1d (3, 5) MOddSymmetric) (ofz [3] [1; 2; 4]) AxNone) =
  Some ([11], zq [-2; 0; 1; 1; 2; 4; 4; 6; 7; 7; 8]).
Proof. split; [ex_one|]. vm_compute; reflexivity. Qed.

Theorem C07_replicate : forall (F : ofield) fuel junk (p : padder F) x ax al,
  pad_call fuel p x ax al ->
  all_axes p x al (fun q n => ap_mode q = MReplicate /\ 1 <= n) ->
  exists y, padder_forward fuel junk p x ax = Ok y /\ shp y = grown p al (shp x) /\
    forall j, valid (shp y) j ->
      at_ y j = at_ x (from (fun n t => Z.max 0 (Z.min (n - 1) t)) p al (shp x) j).
Proof. exact replicate_copy. Qed.
Print Assumptions C07_replicate.
Example C07_example :
  let p := pad2 (4, 1) (2, 5) MReplicate MReplicate in
  pad_call 20 p x23 AxNone [0%nat; 1%nat] /\
  all_axes p x23 [0%nat; 1%nat] (fun q n => ap_mode q = MReplicate /\ 1 <= n) /\
  show (padder_forward 20 garbage (pad2 (1, 0) (1, 2) MReplicate MReplicate) x23 AxNone) =
  Some ([3; 6], zq [1; 1; 2; 4; 4; 4; 1; 1; 2; 4; 4; 4; 10; 10; 20; 40; 40; 40]).
Proof. split; [ex_call|]. split; [ex_axes|]. vm_compute; reflexivity. Qed.

Theorem C08_smooth : forall (F : ofield) fuel junk (p : padder F) x ax a q,
  one_axis fuel p x ax a q -> ap_mode q = MSmooth ->
  exists y, padder_forward fuel junk p x ax = Ok y /\
    shp y = upd a (ap_before q + nth a (shp x) 0 + ap_after q) (shp x) /\
    forall j, valid (shp y) j ->
      let n := nth a (shp x) 0 in let t := nth a j 0 - ap_before q in let f u := at_ x (upd a u j) in
      (0 <= t < n -> at_ y j = f t) /\
      (n = 1 -> at_ y j = f 0) /\
      (forall d, 2 <= n -> 1 <= d -> t = - d -> at_ y j = (f 0%Z - fofZ d * (f 1%Z - f 0%Z))%F) /\
      (forall d, 2 <= n -> 1 <= d -> t = n - 1 + d ->
         at_ y j = (f (n - 1)%Z + fofZ d * (f (n - 1)%Z - f (n - 2)%Z))%F).
Proof. exact smooth_axis. Qed.
Print Assumptions C08_smooth.
Example C08_example :
  one_axis 20 (pad1d (3, 5) MSmooth) x23 (AxInt (-1)) 1 (q35 MSmooth) /\
  show (padder_forward 20 garbage (pad1d (3, 2) MSmooth) (ofz [3] [1; 2; 4]) AxNone) =
  Some ([8], zq [-2; -1; 0; 1; 2; 4; 6; 8]).
Proof. split; [ex_one|]. vm_compute; reflexivity. Qed.

Theorem C09_linear_ramp : forall (F : ofield) fuel junk (p : padder F) x ax a q,
  one_axis fuel p x ax a q -> ap_mode q = MLinearRamp ->
  exists y, padder_forward fuel junk p x ax = Ok y /\
    shp y = upd a (ap_before q + nth a (shp x) 0 + ap_after q) (shp x) /\
    forall j, valid (shp y) j ->
      let n := nth a (shp x) 0 in let t := nth a j 0 - ap_before q in let f u := at_ x (upd a u j) in
      let wb := ap_before q in let wa := ap_after q in
      let '(eb, ea) := ap_end q in
      (0 <= t < n -> at_ y j = f t) /\
      (forall d, 1 <= d -> t = - d -> at_ y j = (f 0%Z + fofZ d * ((eb - f 0%Z) / fofZ wb))%F) /\
      (forall d, 1 <= d -> t = n - 1 + d -> at_ y j = (f (n - 1)%Z + fofZ d * ((ea - f (n - 1)%Z) / fofZ wa))%F) /\
      (t = - wb -> 1 <= wb -> at_ y j = eb) /\
      (t = n - 1 + wa -> 1 <= wa -> at_ y j = ea).
Proof. exact ramp_axis. Qed.
Print Assumptions C09_linear_ramp.
Example C09_example :
  one_axis 20 (pad1d (3, 5) MLinearRamp) x23 (AxInt (-1)) 1 (q35 MLinearRamp) /\
  show (padder_forward 20 garbage (pad1d (3, 2) MLinearRamp) (ofz [2] [6; 4]) AxNone) =
  Some ([7], zq [0; 2; 4; 6; 4; 7; 10]).
Proof. split; [ex_one|]. vm_compute; reflexivity. Qed.

(** C10.  [stat_rel s l v] is is_max / is_min / is_mean / is_lower_median l v (PadSpec.v);
    the windows are those of the line's first / last clip(w, 1, n) elements (all of it for None). *)
Theorem C10_statistics : forall (F : ofield) fuel junk (p : padder F) x ax a q s,
  one_axis fuel p x ax a q -> ap_mode q = MStat s ->
  exists y, padder_forward fuel junk p x ax = Ok y /\
    shp y = upd a (ap_before q + nth a (shp x) 0 + ap_after q) (shp x) /\
    forall j, valid (shp y) j ->
      let n := nth a (shp x) 0 in let t := nth a j 0 - ap_before q in let f u := at_ x (upd a u j) in
      (0 <= t < n -> at_ y j = f t) /\
      (t < 0 -> stat_rel F s (first_window F n (fst (ap_stat q)) f) (at_ y j)) /\
      (n <= t -> stat_rel F s (last_window F n (snd (ap_stat q)) f) (at_ y j)).
Proof. exact stat_axis. Qed.
Print Assumptions C10_statistics.
Theorem C10_statistics_between : forall (F : ofield) s (l : list F) v, l <> [] -> stat_rel F s l v ->
  (exists lo, is_min l lo /\ fle lo v) /\ (exists hi, is_max l hi /\ fle v hi).
Proof. exact stat_bounds. Qed.
Print Assumptions C10_statistics_between.
Example C10_example :
  one_axis 20 (pad1d (3, 5) (MStat SMedian)) x23 (AxInt (-1)) 1 (q35 (MStat SMedian)) /\
  show (padder_forward 20 garbage (pad1d (1, 2) (MStat SMedian)) x23 (AxInt 1)) =
  Some ([2; 6], zq [1; 1; 2; 4; 2; 2; 10; 10; 20; 40; 20; 20]) /\
  show (padder_forward 20 garbage (pad1d (1, 1) (MStat SMean)) (ofz [3] [1; 2; 6]) AxNone) =
  Some ([5], QArith_base.Qmake 3 2 :: zq [1; 2; 6; 3]).
Proof. split; [ex_one|]. split; vm_compute; reflexivity. Qed.

(** C11: [const_at]: the last padded axis that the position leaves decides. *)
Theorem C11_constant : forall (F : ofield) fuel junk (p : padder F) x ax al,
  pad_call fuel p x ax al ->
  all_axes p x al (fun q _ => ap_mode q = MConstant) ->
  exists y, padder_forward fuel junk p x ax = Ok y /\ shp y = grown p al (shp x) /\
    forall j, valid (shp y) j ->
      at_ y j = const_at F p (shp x) (last_axes p al) j (at_ x (from (fun _ t => t) p al (shp x) j)).
Proof. exact constant_nd. Qed.
Print Assumptions C11_constant.
Theorem C11_constant_axis : forall (F : ofield) fuel junk (p : padder F) x ax a q,
  one_axis fuel p x ax a q -> ap_mode q = MConstant ->
  exists y, padder_forward fuel junk p x ax = Ok y /\
    shp y = upd a (ap_before q + nth a (shp x) 0 + ap_after q) (shp x) /\
    forall j, valid (shp y) j ->
      let n := nth a (shp x) 0 in let t := nth a j 0 - ap_before q in
      (t < 0 -> at_ y j = fst (ap_const q)) /\
      (0 <= t < n -> at_ y j = at_ x (upd a t j)) /\
      (n <= t -> at_ y j = snd (ap_const q)).
Proof. exact constant_axis. Qed.
Print Assumptions C11_constant_axis.
Example C11_example :
  let p := pad2 (4, 1) (2, 5) MConstant MConstant in
  pad_call 20 p x23 AxNone [0%nat; 1%nat] /\
  all_axes p x23 [0%nat; 1%nat] (fun q _ => ap_mode q = MConstant) /\
  show (padder_forward 20 garbage (pad2 (1, 0) (1, 1) MConstant MConstant) x23 AxNone) =
  Some ([3; 5], zq [7; 7; 7; 7; 8; 7; 1; 2; 4; 8; 7; 10; 20; 40; 8]).
Proof. split; [ex_call|]. split; [ex_axes|]. vm_compute; reflexivity. Qed.

(** C12 holds for widths other than (0,0) ... *)
Theorem C12_periodize_partial : forall (F : ofield) fuel junk (p : padder F) x ax a q,
  one_axis fuel p x ax a q -> ap_mode q = MPeriodize -> (ap_before q, ap_after q) <> (0, 0) ->
  let n := nth a (shp x) 0 in let n' := n + n mod 2 in
  exists y, padder_forward fuel junk p x ax = Ok y /\
    shp y = upd a (ap_before q + n' + ap_after q) (shp x) /\
    forall j, valid (shp y) j ->
      let t := nth a j 0 - ap_before q in
      at_ y j = at_ x (upd a (Z.min (n - 1) (t mod n')) j).
Proof. exact periodize_axis. Qed.
Print Assumptions C12_periodize_partial.
(** ... and fails for (0,0): an axis of length 3 stays as it is (generic_pad.py:251-252). *)
Theorem C12_periodize_zero_width_refuted : exists (x : tensor QcF) p,
  params p 0 = Some (mkAP 0 0 MPeriodize (f0, f0) (f0, f0) (None, None)) /\ shp x = [3] /\
  forall fuel junk, padder_forward fuel junk p x AxNone = Ok x.
Proof. exact zero_width_refuted. Qed.
Print Assumptions C12_periodize_zero_width_refuted.
Example C12_example :
  one_axis 20 (pad1d (3, 5) MPeriodize) x23 (AxInt (-1)) 1 (q35 MPeriodize) /\
  show (padder_forward 20 garbage (pad1d (3, 1) MPeriodize) (ofz [3] [1; 2; 4]) AxNone) =
  Some ([8], zq [2; 4; 4; 1; 2; 4; 4; 1]).
Proof. split; [ex_one|]. vm_compute; reflexivity. Qed.

(** C13.  [all_fine]: every padded axis has nonnegative widths and a mode that is an
    extension or "empty" (zeros: see C16; user functions: C98), and a nonempty
    axis unless the mode accepts an empty one. *)
Theorem C13_shape_and_block : forall (F : ofield) fuel junk (p : padder F) x ax al,
  pad_call fuel p x ax al -> all_fine F p x al ->
  exists y, padder_forward fuel junk p x ax = Ok y /\ shp y = full_shape p al (shp x) /\
    forall i, valid (shp x) i ->
      at_ y (map (fun d => nth d i 0 + match axis_par p (last_axes p al) d with Some q => ap_before q | None => 0 end)
                 (seq 0 (ndim x))) = at_ x i.
Proof. exact forward_keeps. Qed.
Print Assumptions C13_shape_and_block.
(** The constructor establishes the parameter part of [all_fine]. *)
Theorem C13_constructor : forall (F : ofield) w m c e s p (al : list nat),
  @padder_init F w m c e s = Ok p ->
  nonempty_list w -> nonempty_list m -> nonempty_list c -> nonempty_list e -> nonempty_list s ->
  forall r, (r < length (last_axes p al))%nat ->
  exists q, params p r = Some q /\ 0 <= ap_before q /\ 0 <= ap_after q.
Proof. exact padder_init_params. Qed.
Print Assumptions C13_constructor.
Example C13_example :
  let p := pad2 (4, 1) (2, 5) MEmpty MPeriodize in
  pad_call 20 p x23 AxNone [0%nat; 1%nat] /\ all_fine QcF p x23 [0%nat; 1%nat] /\
  full_shape p [0%nat; 1%nat] (shp x23) = [7; 11] /\
  (exists p', padder_init (NList [(4, 1); (2, 5)]) (NList [MEmpty; MPeriodize]) (NItem (qz 7, qz 8))
     (NItem (qz 0, qz 10)) (NItem (Some 2, None)) = Ok p' /\ p' = p).
Proof.
  split; [ex_call|]. split; [ex_fine|].
  split; [vm_compute; reflexivity|]. eexists. split; reflexivity.
Qed.

(** C14: the whole-tensor call equals calls that pad one axis each. *)
Theorem C14_one_axis_at_a_time : forall (F : ofield) fuel junk junk' (p : padder F) x ax al,
  pad_call fuel p x ax al -> all_fine F p x al ->
  (forall a q, axis_par p (last_axes p al) a = Some q -> is_empty_mode F (ap_mode q) = false) ->
  exists y y', padder_forward fuel junk p x ax = Ok y /\
    one_by_one fuel junk' p x (last_axes p al) = Ok y' /\ teq y y'.
Proof. exact forward_one_by_one. Qed.
Print Assumptions C14_one_axis_at_a_time.
Example C14_example :
  let p := pad2 (1, 1) (2, 0) MSmooth (MStat SMax) in
  pad_call 20 p x23 (AxSeq [1; 0]) [1%nat; 0%nat] /\ all_fine QcF p x23 [1%nat; 0%nat] /\
  show (padder_forward 20 garbage p x23 (AxSeq [1; 0])) =
  show (one_by_one 20 (fun _ => qz 5) p x23 [1%nat; 0%nat]) /\
  show (padder_forward 20 garbage p x23 (AxSeq [1; 0])) <> None.
Proof.
  split; [ex_call|]. split; [ex_fine|].
  split; vm_compute; [reflexivity|discriminate].
Qed.

(** C15 holds for all modes but "empty" and "zeros" (C16); user functions: C98. *)
Theorem C15_no_uninitialised_memory_partial : forall (F : ofield) fuel junk1 junk2 (p : padder F) x ax al,
  pad_call fuel p x ax al -> all_fine F p x al ->
  (forall a q, In a (last_axes p al) -> axis_par p (last_axes p al) a = Some q -> is_empty_mode F (ap_mode q) = false) ->
  exists y1 y2, padder_forward fuel junk1 p x ax = Ok y1 /\ padder_forward fuel junk2 p x ax = Ok y2 /\ teq y1 y2.
Proof. exact forward_no_junk. Qed.
Print Assumptions C15_no_uninitialised_memory_partial.

(** C16 fails: with mode "zeros" every padded element is whatever torch.empty left there,
    for every tensor, axes and widths (generic_pad.py:164). *)
Theorem C16_zeros_refuted : forall (F : ofield) fuel junk (p : padder F) x ax al,
  (0 < ndim x)%nat -> (forall d, (d < ndim x)%nat -> 0 <= nth d (shp x) 0) ->
  check_axes (Z.of_nat (ndim x)) ax = Ok (map Z.of_nat al) ->
  (forall a, In a al -> (a < ndim x)%nat) -> NoDup al -> params_ok F p al ->
  (forall r q, (r < length (last_axes p al))%nat -> params p r = Some q -> ap_mode q = MZeros) ->
  shp x <> out_shape p (shp x) al ->
  exists y, padder_forward fuel junk p x ax = Ok y /\ shp y = out_shape p (shp x) al /\
    forall j, valid (shp y) j ->
      ~ (forall d, (d < ndim x)%nat -> nth d (heads F p x al) 0 <= nth d j 0 < nth d (heads F p x al) 0 + nth d (shp x) 0) ->
      at_ y j = junk j.
Proof. exact zeros_uninitialised. Qed.
Print Assumptions C16_zeros_refuted.
(** After a "zeros" axis, an axis with any extension mode raises TypeError. *)
Theorem C16_zeros_then_other_refuted : forall (F : ofield) fuel junk (p : padder F) x ax a b qa qb e,
  (0 < ndim x)%nat -> (forall d, (d < ndim x)%nat -> 0 <= nth d (shp x) 0) ->
  check_axes (Z.of_nat (ndim x)) ax = Ok [Z.of_nat a; Z.of_nat b] ->
  (a < ndim x)%nat -> (b < ndim x)%nat -> a <> b ->
  last_axes p [a; b] = [a; b] -> params p 1 = Some qa -> params p 0 = Some qb ->
  0 <= ap_before qa -> 0 <= ap_after qa -> 0 <= ap_before qb -> 0 <= ap_after qb ->
  (ap_before qa, ap_after qa) <> (0, 0) -> (ap_before qb, ap_after qb) <> (0, 0) ->
  ap_mode qa = MZeros ->
  mode_ext (ap_mode qb) (ap_before qb) (ap_after qb) (ap_const qb) (ap_end qb) (ap_stat qb) = Some e ->
  padder_forward fuel junk p x ax = Err TypeError.
Proof. exact zeros_then_other. Qed.
Print Assumptions C16_zeros_then_other_refuted.
Example C16_example :
  show (padder_forward 20 garbage (pad1d (1, 2) MZeros) (ofz [2] [5; 6]) AxNone) = Some ([5], zq [99; 5; 6; 99; 99]) /\
  padder_forward 20 garbage (pad2 (1, 2) (1, 0) MZeros MCircular) x23 AxNone = Err TypeError.
Proof. split; vm_compute; reflexivity. Qed.

(** C17 holds when the padded axes are not empty (and without user functions) ... *)
Theorem C17_terminates_partial : forall (F : ofield) fuel junk (p : padder F) x ax al,
  pad_call fuel p x ax al -> params_ok F p al ->
  (forall r q, (r < length (last_axes p al))%nat -> params p r = Some q -> no_user_fun F (ap_mode q)) ->
  (forall a, In a (last_axes p al) -> 1 <= nth a (shp x) 0) ->
  padder_forward fuel junk p x ax <> Err OutOfFuel.
Proof. exact forward_terminates. Qed.
Print Assumptions C17_terminates_partial.
(** ... and fails on an empty axis: the loop never ends. *)
Theorem C17_empty_axis_refuted : forall (F : ofield) (m : mode F) fuel junk c,
  m = MCircular \/ m = MSymmetric \/ m = MAntisymmetric \/ m = MOddSymmetric ->
  padder_forward fuel junk (simple_padder F 1 0 m) (mkT [0] c) AxNone = Err OutOfFuel.
Proof. exact forward_diverges_on_empty. Qed.
Print Assumptions C17_empty_axis_refuted.
Example C17_example :
  let p := pad2 (4, 1) (2, 5) MZeros MUnknown in
  pad_call 20 p x23 AxNone [0%nat; 1%nat] /\ params_ok QcF p [0%nat; 1%nat].
Proof.
  split; [ex_call|]. intros r Hr. change (r < 2)%nat in Hr.
  destruct r as [|[|r]]; [exists (par2 (2, 5) MUnknown)|exists (par2 (4, 1) MZeros)|lia]; (split; [reflexivity|cbn; lia]).
Qed.

(** C18 holds unless mode is "periodize" and the length is odd ([parity_slot] is n mod 2 for
    periodize and 0 for the other modes). *)
Theorem C18_pad_axis_partial : forall (F : ofield) fuel junk junk' (p : padder F) x i ax a q e,
  (forall d, (d < ndim x)%nat -> 0 <= nth d (shp x) 0) ->
  check_axes (Z.of_nat (ndim x)) ax = Ok [Z.of_nat a] -> (a < ndim x)%nat ->
  at_item F p i q ->
  mode_ext (ap_mode q) (ap_before q) (ap_after q) (ap_const q) (ap_end q) (ap_stat q) = Some e ->
  0 <= ap_before q -> 0 <= ap_after q ->
  1 <= nth a (shp x) 0 \/ empty_ok (ap_mode q) = true ->
  (forall d, (d < ndim x)%nat -> nth d (shp x) 0 + ap_before q + ap_after q <= Z.of_nat fuel) ->
  parity_slot (ap_mode q) (nth a (shp x) 0) = 0 ->
  exists y y', pad_axis fuel junk p x i ax = Ok y /\ padder_forward fuel junk' (only F q) x ax = Ok y' /\ teq y y'.
Proof. exact pad_axis_forward. Qed.
Print Assumptions C18_pad_axis_partial.
Theorem C18_pad_axis_periodize_refuted : exists (x : tensor QcF) p,
  shp x = [3] /\ at_item QcF p 0 (mkAP 1 0 MPeriodize (f0, f0) (f0, f0) (None, None)) /\
  forall junk, exists y, padder_forward 10 junk p x (AxInt 0) = Ok y /\ shp y = [5] /\
    (forall z, pad_axis 10 junk p x 0 (AxInt 0) = Ok z -> shp z <> shp y).
Proof. exact pad_axis_periodize_refuted. Qed.
Print Assumptions C18_pad_axis_periodize_refuted.
(** What pad_axis does there: with a slot after the data it returns forward's result without
    the last sample; without one the copy raises, except that two slots before the data (an
    even number of them for a single sample) are filled by repeating the last sample. *)
Theorem C18_periodize_odd : forall (F : ofield) fuel junk junk' (p : padder F) x i ax a q,
  (forall d, (d < ndim x)%nat -> 0 <= nth d (shp x) 0) ->
  check_axes (Z.of_nat (ndim x)) ax = Ok [Z.of_nat a] -> (a < ndim x)%nat ->
  at_item F p i q -> ap_mode q = MPeriodize -> 0 <= ap_before q -> 1 <= ap_after q ->
  nth a (shp x) 0 mod 2 = 1 ->
  (forall d, (d < ndim x)%nat -> nth d (shp x) 0 + ap_before q + ap_after q + 1 <= Z.of_nat fuel) ->
  exists y y', pad_axis fuel junk p x i ax = Ok y /\ padder_forward fuel junk' (only F q) x ax = Ok y' /\
    shp y' = upd a (nth a (shp y) 0 + 1) (shp y) /\ forall j, valid (shp y) j -> at_ y j = at_ y' j.
Proof. exact pad_axis_periodize_forward. Qed.
Print Assumptions C18_periodize_odd.
Theorem C18_periodize_odd_error : forall (F : ofield) fuel junk (p : padder F) x i ax a q,
  (forall d, (d < ndim x)%nat -> 0 <= nth d (shp x) 0) ->
  check_axes (Z.of_nat (ndim x)) ax = Ok [Z.of_nat a] -> (a < ndim x)%nat ->
  at_item F p i q -> ap_mode q = MPeriodize -> 1 <= ap_before q -> ap_after q = 0 ->
  nth a (shp x) 0 mod 2 = 1 -> Z.min (ap_before q) (nth a (shp x) 0 + 1) <> 2 ->
  pad_axis (S fuel) junk p x i ax = Err RuntimeError.
Proof. exact pad_axis_periodize_error. Qed.
Print Assumptions C18_periodize_odd_error.
Theorem C18_periodize_odd_two : forall (F : ofield) fuel junk junk' (p : padder F) x i ax a q,
  (forall d, (d < ndim x)%nat -> 0 <= nth d (shp x) 0) ->
  check_axes (Z.of_nat (ndim x)) ax = Ok [Z.of_nat a] -> (a < ndim x)%nat ->
  at_item F p i q -> ap_mode q = MPeriodize -> ap_after q = 0 -> nth a (shp x) 0 mod 2 = 1 ->
  ap_before q = 2 \/ nth a (shp x) 0 = 1 /\ 1 <= ap_before q /\ ap_before q mod 2 = 0 ->
  (forall d, (d < ndim x)%nat -> nth d (shp x) 0 + ap_before q + 1 <= Z.of_nat fuel) ->
  exists y y', pad_axis fuel junk p x i ax = Ok y /\ padder_forward fuel junk' (only F q) x ax = Ok y' /\
    shp y' = upd a (nth a (shp y) 0 + 1) (shp y) /\ forall j, valid (shp y) j -> at_ y j = at_ y' j.
Proof. exact pad_axis_periodize_two. Qed.
Print Assumptions C18_periodize_odd_two.
Theorem C18_periodize_one_error : forall (F : ofield) fuel junk (p : padder F) x i ax a q,
  (forall d, (d < ndim x)%nat -> 0 <= nth d (shp x) 0) ->
  check_axes (Z.of_nat (ndim x)) ax = Ok [Z.of_nat a] -> (a < ndim x)%nat ->
  at_item F p i q -> ap_mode q = MPeriodize -> 0 <= ap_before q -> ap_after q = 0 ->
  nth a (shp x) 0 = 1 -> ap_before q mod 2 = 1 -> ap_before q < 2 * Z.of_nat fuel ->
  pad_axis fuel junk p x i ax = Err RuntimeError.
Proof. exact pad_axis_periodize_one. Qed.
Print Assumptions C18_periodize_one_error.
Example C18_periodize_tight_example :
  show (pad_axis 20 garbage (pad2 (2, 0) (1, 1) MPeriodize MPeriodize) x23 0 (AxInt 1)) =
  Some ([2; 5], zq [4; 4; 1; 2; 4; 40; 40; 10; 20; 40]) /\
  show (pad_axis 20 garbage (pad2 (4, 0) (1, 1) MPeriodize MPeriodize) (mkT [1] (fun _ => qz 5)) 0 (AxInt 0)) = Some ([5], zq [5; 5; 5; 5; 5]) /\
  pad_axis 20 garbage (pad2 (3, 0) (1, 1) MPeriodize MPeriodize) (mkT [1] (fun _ => qz 5)) 0 (AxInt 0) = Err RuntimeError.
Proof. split; [|split]; vm_compute; reflexivity. Qed.
Example C18_periodize_example :
  at_item QcF (pad2 (1, 2) (1, 1) MPeriodize MPeriodize) 0 (mkAP 1 2 MPeriodize (qz 7, qz 8) (qz 0, qz 10) (Some 2, None)) /\
  show (pad_axis 20 garbage (pad2 (1, 2) (1, 1) MPeriodize MPeriodize) x23 0 (AxInt 1)) =
  Some ([2; 6], zq [4; 1; 2; 4; 4; 1; 40; 10; 20; 40; 40; 10]) /\
  pad_axis 20 garbage (pad2 (1, 0) (1, 1) MPeriodize MPeriodize) x23 0 (AxInt 1) = Err RuntimeError.
Proof. split; [repeat split|]. split; vm_compute; reflexivity. Qed.
Example C18_example :
  at_item QcF (pad2 (4, 1) (2, 3) MCircular MOddSymmetric) 1 (mkAP 2 3 MOddSymmetric (qz 7, qz 8) (qz 0, qz 10) (Some 2, None)) /\
  show (pad_axis 20 garbage (pad2 (4, 1) (2, 3) MCircular MOddSymmetric) x23 1 (AxInt 0)) =
  Some ([7; 3], zq [-8; -16; -32; 1; 2; 4; 1; 2; 4; 10; 20; 40; 10; 20; 40; 19; 38; 76; 19; 38; 76]).
Proof. split; [repeat split|]. vm_compute; reflexivity. Qed.

(** C19.  [window_count n k s m]: exactly the positions 0, s, ..., (m-1)s fit a window of
    size k into n elements; [is_ceil_div n s m]: m = ceil(n/s). *)
Theorem C19_same_padding : forall k s n, 1 <= k -> 1 <= s -> 1 <= n ->
  exists b a m, same_padding_width k (Some s) (Some n) = Ok (b, a) /\
    0 <= a /\ 0 <= b /\ 0 <= b - a <= 1 /\
    is_ceil_div n s m /\ window_count (n + b + a) k s m /\ (s = 1 -> m = n).
Proof. exact same_padding_windows. Qed.
Print Assumptions C19_same_padding.
Theorem C19_same_padding_default_stride : forall k n, 1 <= k -> 1 <= n ->
  exists b a m, same_padding_width k None (Some n) = Ok (b, a) /\
    0 <= a /\ 0 <= b /\ 0 <= b - a <= 1 /\ is_ceil_div n k m /\ window_count (n + b + a) k k m.
Proof. exact same_padding_none_windows. Qed.
Print Assumptions C19_same_padding_default_stride.
Theorem C19_same_padding_unknown_size : forall k s, s <> Some 1 -> same_padding_width k s None = Err ValueError.
Proof. exact same_padding_needs_size. Qed.
Print Assumptions C19_same_padding_unknown_size.
Example C19_example : same_padding_width 4 (Some 3) (Some 8) = Ok (1, 1) /\
  same_padding_width 4 (Some 1) None = Ok (2, 1) /\ same_padding_width 5 None (Some 7) = Ok (2, 1).
Proof. repeat split. Qed.

(** C20 holds when the kernel is at least as large as the stride ... *)
Theorem C20_cover_partial : forall k s n b a m, 1 <= s <= k -> 1 <= n ->
  same_padding_width k (Some s) (Some n) = Ok (b, a) -> is_ceil_div n s m ->
  forall e, 0 <= e < n -> covered k s b m e.
Proof. exact same_padding_covers_all. Qed.
Print Assumptions C20_cover_partial.
(** ... and fails whenever it is smaller and the axis has at least a stride of elements. *)
Theorem C20_cover_refuted : forall k s n b a m, 1 <= k < s -> s <= n ->
  same_padding_width k (Some s) (Some n) = Ok (b, a) -> is_ceil_div n s m ->
  exists e, 0 <= e < n /\ ~ covered k s b m e.
Proof. exact same_padding_gap. Qed.
Print Assumptions C20_cover_refuted.
(** The exact condition. *)
Theorem C20_cover_iff : forall k s n b a m, 1 <= k -> 1 <= s -> 1 <= n ->
  same_padding_width k (Some s) (Some n) = Ok (b, a) -> is_ceil_div n s m ->
  ((forall e, 0 <= e < n -> covered k s b m e) <-> s <= k \/ n <= k).
Proof. exact same_padding_cover_iff. Qed.
Print Assumptions C20_cover_iff.
Example C20_example : same_padding_width 2 (Some 3) (Some 7) = Ok (1, 0) /\ is_ceil_div 7 3 3 /\
  same_padding_width 3 (Some 2) (Some 6) = Ok (1, 0) /\ is_ceil_div 6 2 3.
Proof. unfold is_ceil_div. repeat split; lia. Qed.

(** C21.  [flat l] is the list of pairs as numpy-style nested lists. *)
Theorem C21_numpy_torch_numpy : forall l,
  pw_torch_to_numpy (pw_numpy_to_torch (flat l)) (Some (Z.of_nat (length l))) = Ok (flat l).
Proof. exact numpy_torch_numpy_id. Qed.
Print Assumptions C21_numpy_torch_numpy.
Theorem C21_torch_numpy : forall l nd, pw_torch_to_numpy (torch_form l) (Some nd) =
  Ok (flat (repeat (0, 0) (Z.to_nat (nd - Z.of_nat (length l))) ++ l)).
Proof. exact torch_numpy. Qed.
Print Assumptions C21_torch_numpy.
Theorem C21_torch_numpy_torch : forall l nd z, pw_torch_to_numpy (torch_form l) (Some nd) = Ok z ->
  pw_numpy_to_torch z = torch_form l ++ repeat 0 (2 * Z.to_nat (nd - Z.of_nat (length l))).
Proof. exact torch_numpy_torch. Qed.
Print Assumptions C21_torch_numpy_torch.
(** A torch list of odd length is accepted: the last width alone forms an entry before the pairs. *)
Theorem C21_odd : forall l a nd, pw_torch_to_numpy (torch_form l ++ [a]) (Some nd) =
  Ok (flat (repeat (0, 0) (Z.to_nat (nd - Z.of_nat (length l)))) ++ [a] :: flat l).
Proof. exact torch_numpy_odd. Qed.
Print Assumptions C21_odd.
Example C21_odd_example : pw_torch_to_numpy [3; 4; 1; 2; 7] (Some 3) = Ok [[0; 0]; [7]; [1; 2]; [3; 4]].
Proof. reflexivity. Qed.
Example C21_example : pw_numpy_to_torch [[1; 2]; [3; 4]] = [3; 4; 1; 2] /\
  pw_torch_to_numpy [3; 4; 1; 2] (Some 3) = Ok [[0; 0]; [1; 2]; [3; 4]].
Proof. split; reflexivity. Qed.

(** C23 holds for None, slices, ints and sequences within [-ndim, ndim) ... *)
Theorem C23_none : forall nd, 0 <= nd -> check_axes nd AxNone = Ok (zrange nd).
Proof. exact check_axes_none. Qed.
Print Assumptions C23_none.
Theorem C23_slice : forall nd s, 0 <= nd ->
  (s_st s = 0 -> check_axes nd (AxSlice s) = Err ValueError) /\
  (s_st s <> 0 -> exists l, check_axes nd (AxSlice s) = Ok l /\ (forall a, In a l -> 0 <= a < nd) /\ NoDup l /\
     forall k, (S k < length l)%nat -> nth (S k) l 0 = nth k l 0 + s_st s).
Proof. exact check_axes_slice. Qed.
Print Assumptions C23_slice.
(** Which axes: in the bounds, and a multiple of the step away from the first one. *)
Theorem C23_slice_members : forall nd s l, 0 <= nd -> check_axes nd (AxSlice s) = Ok l -> forall a, In a l <-> sliced nd s a.
Proof. exact slice_members. Qed.
Print Assumptions C23_slice_members.
Example C23_slice_members_example : sliced 5 (mkS (Some 9) (Some (-5)) (-2)) 2 /\ ~ sliced 5 (mkS (Some 9) (Some (-5)) (-2)) 0 /\
  ~ sliced 5 (mkS (Some 9) (Some (-5)) (-2)) 3 /\ check_axes 5 (AxSlice (mkS (Some 9) (Some (-5)) (-2))) = Ok [4; 2] /\
  check_axes 5 (AxSlice (mkS (Some 0) None (-1))) = Ok [0] /\ check_axes 5 (AxSlice (mkS (Some (-9)) (Some 7) 3)) = Ok [0; 3].
Proof. repeat split; unfold sliced; cbn; intuition lia. Qed.
Theorem C23_reversed : forall nd, 0 <= nd -> check_axes nd (AxSlice (mkS None None (-1))) = Ok (rev (zrange nd)).
Proof. exact check_axes_reversed. Qed.
Print Assumptions C23_reversed.
Theorem C23_int_partial : forall nd a, - nd <= a < nd ->
  check_axes nd (AxInt a) = Ok [norm_axis nd a] /\ 0 <= norm_axis nd a < nd.
Proof. exact check_axes_int. Qed.
Print Assumptions C23_int_partial.
Theorem C23_seq_partial : forall nd l, (forall a, In a l -> - nd <= a < nd) ->
  check_axes nd (AxSeq l) = Ok (map (norm_axis nd) l) /\ forall a, In a (map (norm_axis nd) l) -> 0 <= a < nd.
Proof. exact check_axes_seq. Qed.
Print Assumptions C23_seq_partial.
Theorem C23_seq_rejects : forall nd l a, In a l -> (a < - nd \/ nd < a) -> 0 <= nd ->
  check_axes nd (AxSeq l) = Err AssertionError.
Proof. exact check_axes_seq_rejects. Qed.
Print Assumptions C23_seq_rejects.
Theorem C23_seq_exact : forall nd l, 0 <= nd ->
  ((forall a, In a l -> - nd <= a <= nd) /\ check_axes nd (AxSeq l) = Ok (map (norm_axis nd) l)) \/
  ((exists a, In a l /\ (a < - nd \/ nd < a)) /\ check_axes nd (AxSeq l) = Err AssertionError).
Proof. exact check_axes_seq_exact. Qed.
Print Assumptions C23_seq_exact.
(** ... and fails for every tensor: axis number ndim in a sequence, and any int out of range. *)
Theorem C23_out_of_range_refuted : forall nd, 0 <= nd ->
  check_axes nd (AxSeq [nd]) = Ok [nd] /\
  (forall a, nd <= a -> check_axes nd (AxInt a) = Ok [a]) /\
  (forall a, a < - nd -> check_axes nd (AxInt a) = Ok [nd + a] /\ nd + a < 0).
Proof. exact check_axes_refuted. Qed.
Print Assumptions C23_out_of_range_refuted.
Example C23_example : check_axes 4 (AxSlice (mkS (Some (-3)) None 2)) = Ok [1; 3] /\
  check_axes 4 (AxSlice (mkS (Some 9) (Some (-4)) (-2))) = Ok [3; 1] /\
  check_axes 4 (AxSlice (mkS None None 0)) = Err ValueError /\ check_axes 4 (AxSeq [-1; 0]) = Ok [3; 0].
Proof. repeat split. Qed.

Theorem C24_check_stride : forall s,
  ((exists r, check_stride s = Ok r) <-> (s = None \/ exists v, s = Some v /\ 1 <= v)) /\
  (forall r, check_stride s = Ok r -> r = s) /\ (forall e, check_stride s = Err e -> e = ValueError).
Proof. exact (fun s => conj (check_stride_spec s) (conj (check_stride_same s) (check_stride_err s))). Qed.
Print Assumptions C24_check_stride.
Theorem C24_check_pad_width : forall b a,
  ((exists r, check_pad_width b a = Ok r) <-> 0 <= b /\ 0 <= a) /\
  (forall r, check_pad_width b a = Ok r -> r = (b, a)) /\ (forall e, check_pad_width b a = Err e -> e = ValueError).
Proof. exact (fun b a => conj (check_pad_width_spec b a) (conj (check_pad_width_same b a) (check_pad_width_err b a))). Qed.
Print Assumptions C24_check_pad_width.
Example C24_example : check_stride (Some 0) = Err ValueError /\ check_stride (Some 3) = Ok (Some 3) /\
  check_pad_width 0 4 = Ok (0, 4) /\ check_pad_width 0 (-1) = Err ValueError.
Proof. repeat split. Qed.
