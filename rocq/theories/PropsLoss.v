(** C85-C90: GaussianEdgeLoss, WeightedMul, WeightedDiv, WeightedSum (contrib/edge_loss.py) over the reals.

    Vocabulary (EdgeLossModel.v, EdgeLossProofs.v, EdgeLossGauss.v; PropsGauss.v, PropsExtra.v):
    - [score_l1], [score_mul], [score_div], [score_sum]: the scores of the four classes;
    - [gauss_loss score fuel junk ks sigma order x y]: forward(x, y) of a new module built with
      (ks, sigma, order); [loss_value ... v]: it is the scalar v;
    - [edge_maps fuel junk ks sigma order x d2 d3]: d2, d3 are the components of GaussianGrad(ks, sigma,
      edge_order=order, same_padder="reflect") of x along the axes 2 and 3 (C47 says what they are);
    - [loss_args fuel ks sigma order n c h w]: ks >= 1, sigma <> 0, order >= 0, a non-empty shape
      (n, c, h, w) and enough fuel;
    - [all_pixels s L]: L lists the indices of shape s, each once; [lsumR f L]: the sum of f over L;
    - [flat n c h w v]: the constant image v. *)
From Coq Require Import Reals Lra.
From Verif Require Import EdgeLossGauss.
Open Scope Z_scope.

(** ** C85: values *)
Theorem C85_edge_maps : forall fuel junk ks sigma order n c h w, loss_args fuel ks sigma order n c h w ->
  forall x : tensor RF, shp x = [n; c; h; w] -> exists d2 d3, edge_maps fuel junk ks sigma order x d2 d3.
Proof. exact maps_exist. Qed.
Print Assumptions C85_edge_maps.
Theorem C85_l1 : forall fuel junk ks sigma order n c h w, loss_args fuel ks sigma order n c h w ->
  forall (x y p2 p3 t2 t3 : tensor RF) L, shp x = [n; c; h; w] -> shp y = [n; c; h; w] ->
  edge_maps fuel junk ks sigma order x p2 p3 -> edge_maps fuel junk ks sigma order y t2 t3 -> all_pixels [n; c; h; w] L ->
  loss_value score_l1 fuel junk ks sigma order x y (lsumR (fun i => Rabs (at_ p2 i - at_ t2 i) + Rabs (at_ p3 i - at_ t3 i)) L / IZR (2 * (n * c * h * w)))%R.
Proof. exact gl_l1_value. Qed.
Print Assumptions C85_l1.
Theorem C85_mul : forall fuel junk ks sigma order n c h w, loss_args fuel ks sigma order n c h w ->
  forall (x y p2 p3 t2 t3 : tensor RF) L, shp x = [n; c; h; w] -> shp y = [n; c; h; w] ->
  edge_maps fuel junk ks sigma order x p2 p3 -> edge_maps fuel junk ks sigma order y t2 t3 -> all_pixels [n; c; h; w] L ->
  loss_value score_mul fuel junk ks sigma order x y
    (lsumR (fun i => Rabs (at_ t2 i - at_ p2 i) * at_ t2 i + Rabs (at_ t3 i - at_ p3 i) * at_ t3 i) L / IZR (2 * (n * c * h * w)))%R.
Proof. exact gl_mul_value. Qed.
Print Assumptions C85_mul.
Theorem C85_div : forall fuel junk ks sigma order n c h w, loss_args fuel ks sigma order n c h w ->
  forall (x y p2 p3 t2 t3 : tensor RF) L, shp x = [n; c; h; w] -> shp y = [n; c; h; w] ->
  edge_maps fuel junk ks sigma order x p2 p3 -> edge_maps fuel junk ks sigma order y t2 t3 -> all_pixels [n; c; h; w] L ->
  (forall i, valid [n; c; h; w] i -> at_ t2 i <> 0%R /\ at_ t3 i <> 0%R) ->
  loss_value score_div fuel junk ks sigma order x y
    (lsumR (fun i => Rabs (at_ t2 i - at_ p2 i) / at_ t2 i + Rabs (at_ t3 i - at_ p3 i) / at_ t3 i) L / IZR (2 * (n * c * h * w)))%R.
Proof. exact gl_div_value. Qed.
Print Assumptions C85_div.
Theorem C85_sum : forall fuel junk ks sigma order n c h w, loss_args fuel ks sigma order n c h w ->
  forall (x y p2 p3 t2 t3 : tensor RF) L P, shp x = [n; c; h; w] -> shp y = [n; c; h; w] ->
  edge_maps fuel junk ks sigma order x p2 p3 -> edge_maps fuel junk ks sigma order y t2 t3 -> all_pixels [n; c] L -> all_pixels [h; w] P ->
  let m (d : tensor RF) j := (lsumR (fun q => Rabs (at_ d (j ++ q))) P / IZR (h * w))%R in
  loss_value score_sum fuel junk ks sigma order x y (lsumR (fun j => Rabs (m t2 j - m p2 j) + Rabs (m t3 j - m p3 j)) L / IZR (2 * (n * c)))%R.
Proof. exact gl_sum_value. Qed.
Print Assumptions C85_sum.
(** Such lists of pixels exist. *)
Example C85_pixels : forall s, all_pixels s (tindices s).
Proof. exact pixels_list. Qed.
Example C85_example : forall junk, loss_args 18 3 1 2 1 1 3 3 /\
  loss_value score_l1 18 junk 3 1 2 (flat 1 1 3 3 0) (flat 1 1 3 3 2) (2 / (1 + 2 * exp (- (1 / 2))))%R.
Proof.
  intros junk. assert (A := small_args 18 3 1%R 2 (le_n _) ltac:(lia) ltac:(lra) ltac:(lia)). split; auto.
  destruct order2_gain as [kn [K G]].
  assert (H := gl_l1_constant 18 junk 3 1 2 1 1 3 3 (flat 1 1 3 3 0) (flat 1 1 3 3 2) kn 0%R 2%R A K eq_refl eq_refl (flat_const _ _ _ _ _) (flat_const _ _ _ _ _)).
  rewrite G in H. pose proof dip_neg. replace (2 / (1 + 2 * exp (- (1 / 2))))%R with (Rabs ((0 - 2) * dip)); auto.
  rewrite Rabs_pos_eq by lra. unfold dip. assert (0 < exp (- (1 / 2)))%R by apply exp_pos. field. lra.
Qed.
(** The result of a call does not depend on earlier calls of the module. *)
Theorem C85_history : forall ks sigma order (e : edge_filter RF) cs score fuel junk x y, edge_loss_init (NItem ks) (NItem sigma) order = Ok e ->
  snd (edge_loss (F := RF) Rtrunc score fuel junk (loss_after e cs) x y) = snd (edge_loss (F := RF) Rtrunc score fuel junk e x y).
Proof. exact gl_history. Qed.
Print Assumptions C85_history.

(** ** C86: GaussianEdgeLoss is a pseudometric; it is 0 exactly when the edge maps agree *)
Theorem C86_metric : forall fuel junk ks sigma order n c h w, loss_args fuel ks sigma order n c h w ->
  forall x y : tensor RF, shp x = [n; c; h; w] -> shp y = [n; c; h; w] ->
  (exists v, loss_value score_l1 fuel junk ks sigma order x y v /\ loss_value score_l1 fuel junk ks sigma order y x v /\ (0 <= v)%R) /\
  loss_value score_l1 fuel junk ks sigma order x x 0%R.
Proof. exact gl_l1_metric. Qed.
Print Assumptions C86_metric.
Theorem C86_triangle : forall fuel junk ks sigma order n c h w, loss_args fuel ks sigma order n c h w ->
  forall (x y z : tensor RF) u v t, shp x = [n; c; h; w] -> shp y = [n; c; h; w] -> shp z = [n; c; h; w] ->
  loss_value score_l1 fuel junk ks sigma order x z u -> loss_value score_l1 fuel junk ks sigma order x y v -> loss_value score_l1 fuel junk ks sigma order y z t ->
  (u <= v + t)%R.
Proof. exact gl_l1_triangle. Qed.
Print Assumptions C86_triangle.
Theorem C86_zero : forall fuel junk ks sigma order n c h w, loss_args fuel ks sigma order n c h w ->
  forall x y p2 p3 t2 t3 : tensor RF, shp x = [n; c; h; w] -> shp y = [n; c; h; w] ->
  edge_maps fuel junk ks sigma order x p2 p3 -> edge_maps fuel junk ks sigma order y t2 t3 ->
  (loss_value score_l1 fuel junk ks sigma order x y 0%R <-> teq p2 t2 /\ teq p3 t3).
Proof. exact gl_l1_zero. Qed.
Print Assumptions C86_zero.

(** ** C87: common brightness offsets (any image z) and scalings *)
Theorem C87_translate : forall fuel junk ks sigma order n c h w, loss_args fuel ks sigma order n c h w ->
  forall (x y z x' y' : tensor RF) v, shp x = [n; c; h; w] -> shp y = [n; c; h; w] ->
  combination (F := RF) 1%R 1%R x z x' -> combination (F := RF) 1%R 1%R y z y' ->
  loss_value score_l1 fuel junk ks sigma order x y v -> loss_value score_l1 fuel junk ks sigma order x' y' v.
Proof. exact gl_l1_translate. Qed.
Print Assumptions C87_translate.
Theorem C87_scale : forall fuel junk ks sigma order n c h w, loss_args fuel ks sigma order n c h w ->
  forall a (x y x' y' : tensor RF) v, shp x = [n; c; h; w] -> shp y = [n; c; h; w] ->
  combination (F := RF) a 0%R x x x' -> combination (F := RF) a 0%R y y y' ->
  loss_value score_l1 fuel junk ks sigma order x y v -> loss_value score_l1 fuel junk ks sigma order x' y' (Rabs a * v)%R.
Proof. exact gl_l1_scale. Qed.
Print Assumptions C87_scale.
Example C87_example : loss_args 18 3 1 2 1 1 3 3 /\
  combination (F := RF) 1%R 1%R (flat 1 1 3 3 2) (flat 1 1 3 3 5) (flat 1 1 3 3 (2 + 5)) /\
  combination (F := RF) (-1)%R 0%R (flat 1 1 3 3 2) (flat 1 1 3 3 2) (flat 1 1 3 3 (-2)).
Proof. split; [apply small_args; try lia; lra|]. split; [apply flat_add|]. split; [reflexivity|]. split; [reflexivity|]. intros i _. cbn. ring. Qed.

(** ** C88: odd orders and odd sizes: the loss ignores a constant added to one of the images only *)
Theorem C88_bright_partial : forall fuel junk ks sigma order n c h w, loss_args fuel ks sigma order n c h w ->
  forall (x y z x' : tensor RF) u v, Z.odd ks = true -> Z.odd order = true -> shp x = [n; c; h; w] -> shp y = [n; c; h; w] ->
  combination (F := RF) 1%R 1%R x z x' -> constant_image (F := RF) u z ->
  loss_value score_l1 fuel junk ks sigma order x y v -> loss_value score_l1 fuel junk ks sigma order x' y v.
Proof. exact gl_l1_bright. Qed.
Print Assumptions C88_bright_partial.
(** Not so for order 2, nor for even sizes. *)
Theorem C88_bright_refuted : forall fuel junk, (18 <= fuel)%nat ->
  exists ks sigma order n c h w (x y z x' : tensor RF) u v v', (Z.odd ks = false \/ Z.odd order = false) /\ loss_args fuel ks sigma order n c h w /\ shp x = [n; c; h; w] /\ shp y = [n; c; h; w] /\
    combination (F := RF) 1%R 1%R x z x' /\ constant_image (F := RF) u z /\
    loss_value score_l1 fuel junk ks sigma order x y v /\ loss_value score_l1 fuel junk ks sigma order x' y v' /\ v <> v'.
Proof. exact gl_bright_refuted. Qed.
Print Assumptions C88_bright_refuted.
Theorem C88_even_size_refuted : forall fuel junk, (18 <= fuel)%nat ->
  exists (x y z x' : tensor RF) u v v', loss_args fuel 2 1 1 1 1 3 3 /\ shp x = [1; 1; 3; 3] /\ shp y = [1; 1; 3; 3] /\
    combination (F := RF) 1%R 1%R x z x' /\ constant_image (F := RF) u z /\
    loss_value score_l1 fuel junk 2 1 1 x y v /\ loss_value score_l1 fuel junk 2 1 1 x' y v' /\ v <> v'.
Proof. exact gl_bright_even_refuted. Qed.
Print Assumptions C88_even_size_refuted.
(** In general two constant images u, v are at distance |(u - v) g|, g the sum of the derivative kernel. *)
Theorem C88_constants : forall fuel junk ks sigma order n c h w (x y : tensor RF) kn u v, loss_args fuel ks sigma order n c h w ->
  gaussian_kernel_1d ks sigma order = Ok kn -> shp x = [n; c; h; w] -> shp y = [n; c; h; w] -> constant_image (F := RF) u x -> constant_image (F := RF) v y ->
  loss_value score_l1 fuel junk ks sigma order x y (Rabs ((u - v) * @wsum RF (used_kernel Rtrunc kn)))%R.
Proof. exact gl_l1_constant. Qed.
Print Assumptions C88_constants.
Example C88_example : loss_args 18 5 2 1 1 1 3 3 /\ Z.odd 5 = true /\ Z.odd 1 = true /\ constant_image (F := RF) 5%R (flat 1 1 3 3 5) /\
  combination (F := RF) 1%R 1%R (flat 1 1 3 3 2) (flat 1 1 3 3 5) (flat 1 1 3 3 (2 + 5)).
Proof. split; [apply small_args; try lia; lra|]. split; [reflexivity|]. split; [reflexivity|]. split; [apply flat_const|apply flat_add]. Qed.

(** ** C89: WeightedSum *)
Theorem C89_metric_partial : forall fuel junk ks sigma order n c h w, loss_args fuel ks sigma order n c h w ->
  forall x y : tensor RF, shp x = [n; c; h; w] -> shp y = [n; c; h; w] ->
  (exists v, loss_value score_sum fuel junk ks sigma order x y v /\ loss_value score_sum fuel junk ks sigma order y x v /\ (0 <= v)%R) /\
  loss_value score_sum fuel junk ks sigma order x x 0%R.
Proof. exact gl_sum_metric. Qed.
Print Assumptions C89_metric_partial.
Theorem C89_triangle : forall fuel junk ks sigma order n c h w, loss_args fuel ks sigma order n c h w ->
  forall (x y z : tensor RF) u v t, shp x = [n; c; h; w] -> shp y = [n; c; h; w] -> shp z = [n; c; h; w] ->
  loss_value score_sum fuel junk ks sigma order x z u -> loss_value score_sum fuel junk ks sigma order x y v -> loss_value score_sum fuel junk ks sigma order y z t ->
  (u <= v + t)%R.
Proof. exact gl_sum_triangle. Qed.
Print Assumptions C89_triangle.
Theorem C89_scale : forall fuel junk ks sigma order n c h w, loss_args fuel ks sigma order n c h w ->
  forall a (x y x' y' : tensor RF) v, shp x = [n; c; h; w] -> shp y = [n; c; h; w] ->
  combination (F := RF) a 0%R x x x' -> combination (F := RF) a 0%R y y y' ->
  loss_value score_sum fuel junk ks sigma order x y v -> loss_value score_sum fuel junk ks sigma order x' y' (Rabs a * v)%R.
Proof. exact gl_sum_scale. Qed.
Print Assumptions C89_scale.
(** It cannot tell an image from its negative ... *)
Theorem C89_negated : forall fuel junk ks sigma order n c h w, loss_args fuel ks sigma order n c h w ->
  forall (x y x' : tensor RF) v, shp x = [n; c; h; w] -> shp y = [n; c; h; w] -> combination (F := RF) (-1)%R 0%R x x x' ->
  loss_value score_sum fuel junk ks sigma order x y v -> loss_value score_sum fuel junk ks sigma order x' y v.
Proof. exact gl_sum_negated. Qed.
Print Assumptions C89_negated.
(** ... so it can be 0 for different edge maps. *)
Theorem C89_zero_refuted : forall fuel junk, (18 <= fuel)%nat ->
  exists ks sigma order n c h w (x y p2 p3 t2 t3 : tensor RF), loss_args fuel ks sigma order n c h w /\ shp x = [n; c; h; w] /\ shp y = [n; c; h; w] /\
    edge_maps fuel junk ks sigma order x p2 p3 /\ edge_maps fuel junk ks sigma order y t2 t3 /\
    loss_value score_sum fuel junk ks sigma order x y 0%R /\ ~ teq p2 t2 /\ ~ teq p3 t3.
Proof. exact gl_sum_refuted. Qed.
Print Assumptions C89_zero_refuted.

(** ** C90: WeightedMul and WeightedDiv *)
Theorem C90_mul_self_partial : forall fuel junk ks sigma order n c h w, loss_args fuel ks sigma order n c h w ->
  forall x : tensor RF, shp x = [n; c; h; w] -> loss_value score_mul fuel junk ks sigma order x x 0%R.
Proof. exact gl_mul_self. Qed.
Print Assumptions C90_mul_self_partial.
(** Two constant images: |(v - u) g| (v g), g the sum of the derivative kernel. *)
Theorem C90_mul_constants : forall fuel junk ks sigma order n c h w, loss_args fuel ks sigma order n c h w ->
  forall (x y : tensor RF) kn u v, gaussian_kernel_1d ks sigma order = Ok kn -> shp x = [n; c; h; w] -> shp y = [n; c; h; w] ->
  constant_image (F := RF) u x -> constant_image (F := RF) v y ->
  let g := @wsum RF (used_kernel Rtrunc kn) in
  loss_value score_mul fuel junk ks sigma order x y (Rabs ((v - u) * g) * (v * g))%R.
Proof. exact gl_mul_constant. Qed.
Print Assumptions C90_mul_constants.
Theorem C90_mul_nonneg_refuted : forall fuel junk, (18 <= fuel)%nat ->
  exists ks sigma order n c h w (x y : tensor RF) v, loss_args fuel ks sigma order n c h w /\ shp x = [n; c; h; w] /\ shp y = [n; c; h; w] /\
    loss_value score_mul fuel junk ks sigma order x y v /\ (v < 0)%R.
Proof. exact gl_mul_refuted. Qed.
Print Assumptions C90_mul_nonneg_refuted.
(** A single zero in the edge maps of the true image makes WeightedDiv divide by zero; for odd orders and sizes
    every constant true image does. *)
Theorem C90_div_zero_refuted : forall fuel junk ks sigma order n c h w, loss_args fuel ks sigma order n c h w ->
  forall (x y p2 p3 t2 t3 : tensor RF) i, shp x = [n; c; h; w] -> shp y = [n; c; h; w] ->
  edge_maps fuel junk ks sigma order x p2 p3 -> edge_maps fuel junk ks sigma order y t2 t3 ->
  valid [n; c; h; w] i -> at_ t2 i = 0%R \/ at_ t3 i = 0%R ->
  gauss_loss score_div fuel junk ks sigma order x y = Err ZeroDivisionError.
Proof. exact gl_div_zero. Qed.
Print Assumptions C90_div_zero_refuted.
Theorem C90_div_constant_refuted : forall fuel junk ks sigma order n c h w, loss_args fuel ks sigma order n c h w ->
  forall (x y : tensor RF) v, Z.odd ks = true -> Z.odd order = true -> shp x = [n; c; h; w] -> shp y = [n; c; h; w] -> constant_image (F := RF) v y ->
  gauss_loss score_div fuel junk ks sigma order x y = Err ZeroDivisionError.
Proof. exact gl_div_constant. Qed.
Print Assumptions C90_div_constant_refuted.
Example C90_example : loss_args 18 3 1 1 1 1 3 3 /\ Z.odd 3 = true /\ Z.odd 1 = true /\ constant_image (F := RF) 5%R (flat 1 1 3 3 5).
Proof. split; [apply small_args; try lia; lra|]. split; [reflexivity|]. split; [reflexivity|apply flat_const]. Qed.
