(** C70-C72: padding as an operator on images.

    Vocabulary (PadderCor.v, PadPropLemmas.v, PadLinear.v):
    - [pad_call], as in PropsPad.v; [all_fine F p x al]: on every padded axis the widths are
      nonnegative and (0, 0), or the mode is empty, or the mode is a built-in extension and the axis
      is nonempty (any length for constant);
    - [all_par P p al]: P holds of the parameters of every padded axis;
    - [linear_par]: all modes but maximum, minimum, median, zeros, empty, unless the constant or end
      values are not 0; [const_par]: all modes but antisymmetric, constant, linear_ramp, zeros, empty;
      [range_par lo hi]: all modes but antisymmetric, odd_*, smooth, zeros, empty, with constant and end
      values in [lo, hi]. *)
From Verif Require Import ExampleUtil PadLinear.
Open Scope Z_scope.

Theorem C70_linear : forall (F : ofield) fuel junk p a b (x y z : tensor F) ax al,
  pad_call fuel p x ax al -> all_fine F p x al ->
  all_par F linear_par p al -> combination a b x y z ->
  exists x' y' z', padder_forward fuel junk p x ax = Ok x' /\ padder_forward fuel junk p y ax = Ok y' /\
    padder_forward fuel junk p z ax = Ok z' /\ combination a b x' y' z'.
Proof. exact padding_linear. Qed.
Print Assumptions C70_linear.
Theorem C71_constant : forall (F : ofield) fuel junk p c (x : tensor F) ax al,
  pad_call fuel p x ax al -> all_fine F p x al ->
  all_par F const_par p al -> constant_image c x ->
  exists x', padder_forward fuel junk p x ax = Ok x' /\ constant_image c x'.
Proof. exact padding_constant. Qed.
Print Assumptions C71_constant.
Theorem C72_range : forall (F : ofield) fuel junk p lo hi (x : tensor F) ax al,
  pad_call fuel p x ax al -> all_fine F p x al ->
  all_par F (range_par lo hi) p al -> in_range lo hi x ->
  exists x', padder_forward fuel junk p x ax = Ok x' /\ in_range lo hi x'.
Proof. exact padding_range. Qed.
Print Assumptions C72_range.

Definition y23 := ofz [2; 3] [3; 0; -1; 2; 5; 7].
Definition z23 := ofz [2; 3] [-1; 4; 9; 18; 35; 73].
Lemma pad2_par w1 w2 m1 m2 a b (P : axis_params QcF -> Prop) : Nat.eqb a b = false ->
  P (par2 w1 m1) -> P (par2 w2 m2) -> all_par QcF P (pad2 w1 w2 m1 m2) [a; b].
Proof.
  intros Hab H1 H2 c q Hc Hq.
  destruct (pad2_axes w1 w2 m1 m2 a b (fun _ => P) Hab H1 H2 c Hc) as (q' & E & H). congruence.
Qed.
Example C70_example : let p := pad2 (2, 3) (1, 2) MSmooth MOddReflect in
  pad_call 20 p x23 AxNone [0%nat; 1%nat] /\ all_fine QcF p x23 [0%nat; 1%nat] /\
  all_par QcF linear_par p [0%nat; 1%nat] /\
  show (padder_forward 20 garbage (pad1d (1, 2) MSmooth) (ofz [3] [1; 2; 4]) AxNone) = Some ([6], zq [0; 1; 2; 4; 6; 8]) /\
  show (padder_forward 20 garbage (pad1d (1, 2) MSmooth) (ofz [3] [3; 0; -1]) AxNone) = Some ([6], zq [6; 3; 0; -1; -2; -3]) /\
  show (padder_forward 20 garbage (pad1d (1, 2) MSmooth) (ofz [3] [-1; 4; 9]) AxNone) = Some ([6], zq [-6; -1; 4; 9; 14; 19]).
Proof.
  split; [ex_call|]. split; [ex_fine|].
  split; [apply pad2_par; exact I || reflexivity|]. split; [|split]; vm_compute; reflexivity.
Qed.
Example C71_example : let p := pad2 (2, 3) (1, 2) (MStat SMean) MOddSymmetric in
  pad_call 20 p (mkT [2; 3] (fun _ => qz 5)) AxNone [0%nat; 1%nat] /\ all_par QcF const_par p [0%nat; 1%nat] /\
  show (padder_forward 20 garbage p (mkT [2; 3] (fun _ => qz 5)) AxNone) = Some ([7; 6], zq (repeat 5 42)).
Proof. split; [ex_call|]. split; [apply pad2_par; exact I || reflexivity|]. vm_compute; reflexivity. Qed.
Example C72_example : let p := pad2 (2, 3) (1, 2) MReflect MLinearRamp in
  pad_call 20 p x23 AxNone [0%nat; 1%nat] /\ all_par QcF (range_par (qz 0) (qz 40)) p [0%nat; 1%nat] /\
  show (padder_forward 20 garbage (pad1d (2, 2) MLinearRamp) (ofz [3] [6; 2; 4]) AxNone) = Some ([7], zq [0; 3; 6; 2; 4; 7; 10]).
Proof.
  split; [ex_call|]. split; [|vm_compute; reflexivity].
  apply pad2_par; [reflexivity|exact I|]. repeat split; vm_compute; reflexivity.
Qed.
