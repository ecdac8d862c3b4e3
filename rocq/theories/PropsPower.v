(** C136: safe_power with fractional exponents is the signed power v -> sign(v) |v|^e.

    Vocabulary (PowerReal.v; MiscModel.v for [safe_power], [operand]):
    - [real_pow pow]: torch.pow on reals (the real power of positive bases, integer powers of all bases but 0);
    - [rfrac e]: e is not an integer;
    - [fits x e]: the exponent (a number or a tensor) broadcasts to the shape of x;
    - [exponent_at e i]: the exponent used at position i. *)
From Coq Require Import Reals Lra Lia.
From Verif Require Import ExampleUtil PowerReal.
Open Scope Z_scope.

Theorem C136_sign : forall pow, real_pow pow -> forall (x : tensor RF) e (eps : R), fits x e -> (0 < eps)%R ->
  (forall i, valid (shp x) i -> rfrac (exponent_at e i) = true) ->
  exists y, safe_power pow rfrac (Tens x) e eps = Ok y /\ shp y = shp x /\ forall i, valid (shp x) i ->
    ((0 < at_ x i)%R -> (0 < at_ y i)%R) /\ ((at_ x i < 0)%R -> (at_ y i < 0)%R) /\
    (at_ x i = 0%R -> at_ y i = Rpower eps (exponent_at e i)) /\ at_ y i <> 0%R.
Proof. exact power_sign. Qed.
Print Assumptions C136_sign.
Theorem C136_odd : forall pow, real_pow pow -> forall (x x' y y' : tensor RF) e (eps : R), fits x e -> shp x' = shp x ->
  (forall i, valid (shp x) i -> at_ x' i = (- at_ x i)%R) ->
  safe_power pow rfrac (Tens x) e eps = Ok y -> safe_power pow rfrac (Tens x') e eps = Ok y' ->
  forall i, valid (shp x) i -> rfrac (exponent_at e i) = true -> at_ x i <> 0%R -> at_ y' i = (- at_ y i)%R.
Proof. exact power_odd. Qed.
Print Assumptions C136_odd.
Theorem C136_increasing : forall pow, real_pow pow -> forall (x y : tensor RF) e (w eps : R), fits x e -> safe_power pow rfrac (Tens x) e eps = Ok y ->
  (forall i, valid (shp x) i -> exponent_at e i = w) -> rfrac w = true -> (0 < w)%R ->
  forall i j, valid (shp x) i -> valid (shp x) j -> at_ x i <> 0%R -> at_ x j <> 0%R -> (at_ x i < at_ x j)%R -> (at_ y i < at_ y j)%R.
Proof. exact power_increasing. Qed.
Print Assumptions C136_increasing.
(** 0 is treated as epsilon, so numbers between 0 and epsilon are placed below it. *)
Theorem C136_near_zero_differs : forall pow, real_pow pow -> forall (w eps : R), rfrac w = true -> (0 < w)%R -> (0 < eps)%R ->
  forall x y : tensor RF, shp x = [2] -> at_ x [0] = 0%R -> (0 < at_ x [1%Z] < eps)%R ->
  safe_power pow rfrac (Tens x) (Scalar (F := RF) w) eps = Ok y -> (at_ x [0%Z] < at_ x [1%Z])%R /\ (at_ y [1%Z] < at_ y [0%Z])%R.
Proof. exact power_near_zero. Qed.
Print Assumptions C136_near_zero_differs.
Theorem C136_product : forall pow, real_pow pow -> forall (x x' p y y' q : tensor RF) e (eps : R), fits x e -> shp x' = shp x -> shp p = shp x ->
  (forall i, valid (shp x) i -> at_ p i = (at_ x i * at_ x' i)%R) ->
  safe_power pow rfrac (Tens x) e eps = Ok y -> safe_power pow rfrac (Tens x') e eps = Ok y' -> safe_power pow rfrac (Tens p) e eps = Ok q ->
  forall i, valid (shp x) i -> rfrac (exponent_at e i) = true -> at_ p i <> 0%R -> at_ q i = (at_ y i * at_ y' i)%R.
Proof. exact power_product. Qed.
Print Assumptions C136_product.
Theorem C136_compose : forall pow, real_pow pow -> forall (x y z t : tensor RF) e e' e'' (eps : R), fits x e -> fits x e' -> fits x e'' -> (0 < eps)%R ->
  safe_power pow rfrac (Tens x) e eps = Ok y -> safe_power pow rfrac (Tens y) e' eps = Ok z -> safe_power pow rfrac (Tens x) e'' eps = Ok t ->
  forall i, valid (shp x) i -> rfrac (exponent_at e i) = true -> rfrac (exponent_at e' i) = true -> rfrac (exponent_at e'' i) = true ->
  exponent_at e'' i = (exponent_at e i * exponent_at e' i)%R -> at_ z i = at_ t i.
Proof. exact power_compose. Qed.
Print Assumptions C136_compose.
(** The reciprocal exponent: a fractional or odd one undoes the power, an even one loses the sign. *)
Theorem C136_inverse : forall pow, real_pow pow -> forall (x y z : tensor RF) e e' (eps : R), fits x e -> fits x e' -> (0 < eps)%R ->
  safe_power pow rfrac (Tens x) e eps = Ok y -> safe_power pow rfrac (Tens y) e' eps = Ok z ->
  shp z = shp x /\ forall i, valid (shp x) i -> rfrac (exponent_at e i) = true -> (exponent_at e i * exponent_at e' i = 1)%R ->
  (at_ x i = 0%R -> at_ z i = eps) /\
  (at_ x i <> 0%R -> rfrac (exponent_at e' i) = true -> at_ z i = at_ x i) /\
  (forall n, at_ x i <> 0%R -> exponent_at e' i = IZR n -> at_ z i = if Z.odd n then at_ x i else Rabs (at_ x i)).
Proof. exact power_inverse. Qed.
Print Assumptions C136_inverse.
(** Away from 0 the slope is finite: w |v|^(w-1). *)
Theorem C136_slope : forall pow, real_pow pow -> forall (f : R -> R) (v w eps : R),
  (forall u, exists y, safe_power pow rfrac (Scalar (F := RF) u) (Scalar (F := RF) w) eps = Ok y /\ shp y = [] /\ at_ y [] = f u) ->
  rfrac w = true -> (v <> 0)%R -> derivable_pt_lim f v (w * Rpower (Rabs v) (w - 1))%R.
Proof. exact power_slope. Qed.
Print Assumptions C136_slope.

Lemma half_frac : rfrac (/ 2) = true.
Proof.
  destruct (rfrac (/ 2)) eqn:E; auto. apply rfrac_int in E as [z E]. exfalso. assert (H : (IZR (2 * z) = 1)%R) by (rewrite mult_IZR; lra).
  apply eq_IZR in H. lia.
Qed.
Definition pix : tensor RF := mkT [3] (fun i => match i with [0] => (-4)%R | [1] => 0%R | _ => 9%R end).
Example C136_example :
  real_pow some_pow /\ rfrac (/ 2) = true /\ (forall z, rfrac (IZR z) = false) /\ fits pix (Scalar (F := RF) (/ 2)%R) /\
  exists y z, safe_power some_pow rfrac (Tens pix) (Scalar (F := RF) (/ 2)%R) (1 / 100)%R = Ok y /\ safe_power some_pow rfrac (Tens y) (Scalar (F := RF) 2%R) (1 / 100)%R = Ok z /\
    at_ y [0] = (-2)%R /\ at_ y [2] = 3%R /\ (0 < at_ y [1%Z])%R /\ at_ z [0] = 4%R /\ at_ z [1] = (1 / 100)%R /\ at_ z [2] = 9%R.
Proof.
  split; [exact some_pow_real|]. split; [exact half_frac|]. split; [intros z; apply rfrac_int; eauto|]. assert (H : fits pix (Scalar (F := RF) (/ 2)%R)) by reflexivity. split; [exact H|].
  destruct (sp_at some_pow pix _ (1 / 100)%R H) as [y [Y1 [Y2 Y3]]]. assert (H2 : fits y (Scalar (F := RF) 2%R)) by (unfold fits; rewrite Y2; reflexivity).
  destruct (sp_at some_pow y _ (1 / 100)%R H2) as [z [Z1 [Z2 Z3]]]. exists y, z. split; [exact Y1|]. split; [exact Z1|].
  assert (V : forall k, 0 <= k < 3 -> valid [3] [k]) by (intros k Hk; constructor; [exact Hk|constructor]).
  destruct (power_inverse some_pow some_pow_real pix y z _ _ (1 / 100)%R H (eq_refl : fits pix (Scalar (F := RF) 2%R)) ltac:(lra) Y1 Z1) as [_ I].
  assert (A : forall k, 0 <= k < 3 -> at_ y [k] = power_at RF some_pow rfrac (at_ pix [k]) (/ 2)%R (1 / 100)%R) by (intros k Hk; exact (Y3 [k] (V k Hk))).
  rewrite (A 0), (A 1), (A 2) by lia. cbn [at_ pix]. rewrite (pa_neg _ some_pow_real) by (apply half_frac || lra). rewrite (pa_zero _ some_pow_real) by (apply half_frac || lra).
  rewrite (pa_pos _ some_pow_real) by lra. replace (- (-4))%R with (2 * 2)%R by ring. replace 9%R with (3 * 3)%R by ring. rewrite !Rpower_sqrt by lra. rewrite !sqrt_square by lra.
  split; [reflexivity|]. split; [reflexivity|]. split; [apply sqrt_lt_R0; lra|].
  destruct (I [0] (V 0 ltac:(lia)) half_frac ltac:(change ((/ 2 * 2 = 1)%R); lra)) as [_ [_ I0]]. destruct (I [1] (V 1 ltac:(lia)) half_frac ltac:(change ((/ 2 * 2 = 1)%R); lra)) as [I1 _].
  destruct (I [2] (V 2 ltac:(lia)) half_frac ltac:(change ((/ 2 * 2 = 1)%R); lra)) as [_ [_ I2]].
  rewrite (I0 2) by (reflexivity || (cbn; lra)). rewrite I1 by reflexivity. rewrite (I2 2) by (reflexivity || (cbn; lra)). cbn [Z.odd at_ pix]. rewrite Rabs_left, Rabs_right by lra. repeat split; lra.
Qed.
