(** C115: the gradient magnitude.

    Vocabulary (MagnitudeReal.v, EdgeComponent.v, EdgeLinear.v, EdgeAffine.v):
    - [square]: the default exponent p = 2 over the real numbers: [c ** 2] and the square root;
    - [axis_sum f al]: the sum of f over the axes al; [combination a b x y z]: z = a x + b y, one shape;
    - [linear_padder p m]: padding with mode m is linear; [copying m]: reflect, symmetric, replicate or circular;
    - [keeps_constants F m]: padding a constant image gives that constant;
    - [named ...]: a Sobel, Prewitt, Scharr, Farid or Laplace filter with its kernels; [ramp s a x]: slope s along axis a;
    - [edge_image fuel p m x ax al k]: the image x has at least one pixel along each of the axes al, named by ax,
      and the padder p has mode m on all of them. *)
From Coq Require Import QArith Qcanon Reals Lra.
From Verif Require Import EdgeExample PropsEdge GaussEdge PropsGauss PropsMirror EdgeLossProofs MagnitudeReal.
Open Scope Z_scope.

(** ** C115: with p = 2 the magnitude is a norm of the gradient. *)
(** The triangle inequality. *)
Theorem C115_triangle : forall (trunc : RF -> Z) fuel junk ker smooth raw normalize p m shared (e : edge_filter RF) (x y z : tensor RF) ax al k eps,
  edge_init (NItem ker) smooth normalize (Some p) shared = Ok e -> ker <> [] -> (2 <= length al)%nat -> m <> MPeriodize ->
  edge_image fuel p m x ax al (k + 1) -> klen ker <= k -> linear_padder p m ->
  (forall c, In c al -> expand (length (without c al)) smooth = Some (raw c)) -> (forall c s, In s (raw c) -> klen s <= k) ->
  combination (F := RF) 1%R 1%R x y z -> (0 <= eps)%R ->
  exists x' y' z', snd (magnitude trunc fuel junk e x ax eps square) = Ok x' /\ snd (magnitude trunc fuel junk e y ax eps square) = Ok y' /\
    snd (magnitude trunc fuel junk e z ax eps square) = Ok z' /\ shp x' = shp x /\ shp y' = shp x /\ shp z' = shp x /\
    forall i, valid (shp x) i -> (0 <= at_ z' i <= at_ x' i + at_ y' i)%R.
Proof. exact magnitude_triangle. Qed.
Print Assumptions C115_triangle.
(** Magnitudes differ by at most the magnitude (without epsilon) of the difference of the images. *)
Theorem C115_lipschitz : forall (trunc : RF -> Z) fuel junk ker smooth raw normalize p m shared (e : edge_filter RF) (x y z : tensor RF) ax al k eps,
  edge_init (NItem ker) smooth normalize (Some p) shared = Ok e -> ker <> [] -> (2 <= length al)%nat -> m <> MPeriodize ->
  edge_image fuel p m x ax al (k + 1) -> klen ker <= k -> linear_padder p m ->
  (forall c, In c al -> expand (length (without c al)) smooth = Some (raw c)) -> (forall c s, In s (raw c) -> klen s <= k) ->
  combination (F := RF) 1%R (-1)%R x y z -> (0 <= eps)%R ->
  exists x' y' z', snd (magnitude trunc fuel junk e x ax eps square) = Ok x' /\ snd (magnitude trunc fuel junk e y ax eps square) = Ok y' /\
    snd (magnitude trunc fuel junk e z ax 0%R square) = Ok z' /\ shp x' = shp x /\ shp y' = shp x /\ shp z' = shp x /\
    forall i, valid (shp x) i -> (Rabs (at_ x' i - at_ y' i) <= at_ z' i)%R.
Proof. exact magnitude_lipschitz. Qed.
Print Assumptions C115_lipschitz.
(** Scaling the image scales the magnitude by the absolute value; epsilon scales by the square. *)
Theorem C115_scale : forall (trunc : RF -> Z) fuel junk ker smooth raw normalize p m shared (e : edge_filter RF) (x z : tensor RF) ax al k eps s,
  edge_init (NItem ker) smooth normalize (Some p) shared = Ok e -> ker <> [] -> (2 <= length al)%nat -> m <> MPeriodize ->
  edge_image fuel p m x ax al (k + 1) -> klen ker <= k -> linear_padder p m ->
  (forall c, In c al -> expand (length (without c al)) smooth = Some (raw c)) -> (forall c t, In t (raw c) -> klen t <= k) ->
  shp z = shp x -> (forall i, valid (shp x) i -> at_ z i = (s * at_ x i)%R) -> (0 <= eps)%R ->
  exists x' z', snd (magnitude trunc fuel junk e x ax eps square) = Ok x' /\
    snd (magnitude trunc fuel junk e z ax (s * s * eps)%R square) = Ok z' /\ shp x' = shp x /\ shp z' = shp x /\
    forall i, valid (shp x) i -> at_ z' i = (Rabs s * at_ x' i)%R.
Proof. exact magnitude_scale. Qed.
Print Assumptions C115_scale.
(** It lies between the largest component and the sum of their absolute values, and vanishes only where all do. *)
Theorem C115_bounds : forall (trunc : RF -> Z) fuel junk ker smooth normalize pd shared (e : edge_filter RF) (x : tensor RF) ax al (cs : nat -> tensor RF) sh,
  edge_init (NItem ker) smooth normalize pd shared = Ok e ->
  check_axes (Z.of_nat (ndim x)) ax = Ok (map Z.of_nat al) -> (2 <= length al)%nat ->
  (forall a, In a al -> snd (component trunc fuel junk e x (AxInt (Z.of_nat a)) (AxSeq (map Z.of_nat al))) = Ok (cs a) /\ shp (cs a) = sh) ->
  exists m, snd (magnitude trunc fuel junk e x ax 0%R square) = Ok m /\ shp m = sh /\ forall i, valid sh i ->
    (forall a, In a al -> (Rabs (at_ (cs a) i) <= at_ m i)%R) /\
    (at_ m i <= axis_sum (F := RF) (fun a => Rabs (at_ (cs a) i)) al)%R /\
    (at_ m i = 0%R <-> forall a, In a al -> at_ (cs a) i = 0%R).
Proof. exact magnitude_bounds. Qed.
Print Assumptions C115_bounds.
(** Brightness does not matter, for every exponent. *)
Theorem C115_brightness : forall (F : ofield) (trunc : F -> Z) fuel junk normalize p m shared (e : edge_filter F) (x y z : tensor F) ker smooth ax al c eps P,
  truncates trunc ->
  named normalize (Some p) shared e ker smooth -> (2 <= length al)%nat -> m <> MPeriodize ->
  edge_image fuel p m x ax al 6 -> linear_padder p m -> keeps_constants F m ->
  constant_image c y -> combination f1 f1 x y z ->
  exists x' z', snd (magnitude trunc fuel junk e x ax eps P) = Ok x' /\ snd (magnitude trunc fuel junk e z ax eps P) = Ok z' /\ teq z' x'.
Proof. exact magnitude_brightness. Qed.
Print Assumptions C115_brightness.
(** Tilted planes: the components are the slopes, at pixels whose window stays inside of the image. *)
Theorem C115_ramp : forall (F : ofield) (trunc : F -> Z) fuel junk normalize p m shared (e : edge_filter F) (x : tensor F) ker smooth ax al eps P (s : nat -> F),
  truncates trunc ->
  named normalize (Some p) shared e ker smooth -> copying m -> (2 <= length al)%nat -> edge_image fuel p m x ax al 5 ->
  (forall a, In a al -> ramp (s a) a x) ->
  exists y, snd (magnitude trunc fuel junk e x ax eps P) = Ok y /\ shp y = shp x /\
    forall j, valid (shp x) j -> (forall a, In a al -> klen ker / 2 <= nth a j 0 /\ nth a j 0 + klen ker / 2 < nth a (shp x) 0) ->
      at_ y j = take_root F P (fadd (axis_sum (fun a => raise_to F P (fmul (fmul (s a) (moment ker))
        (if normalize then f1 else fprod (repeat (gain smooth) (length (without a al)))))) al) eps).
Proof. exact magnitude_ramp. Qed.
Print Assumptions C115_ramp.
(** Normalized Sobel, Prewitt and Scharr filters give twice the length of the slope vector. *)
Theorem C115_plane : forall (trunc : RF -> Z) fuel junk p m shared (e : edge_filter RF) (x : tensor RF) smooth ax al (s : nat -> R),
  truncates trunc ->
  named true (Some p) shared e central_kernel smooth -> copying m -> (2 <= length al)%nat -> edge_image fuel p m x ax al 5 ->
  (forall a, In a al -> ramp (F := RF) (s a) a x) ->
  exists y, snd (magnitude trunc fuel junk e x ax 0%R square) = Ok y /\ shp y = shp x /\
    forall j, valid (shp x) j -> (forall a, In a al -> 1 <= nth a j 0 <= nth a (shp x) 0 - 2) ->
      at_ y j = (2 * sqrt (axis_sum (F := RF) (fun a => s a * s a) al))%R.
Proof. exact magnitude_plane. Qed.
Print Assumptions C115_plane.
(** Planes of slopes u and v. *)
Definition plane34 (u v : Z) : tensor RF := mkT [3; 4] (fun i => IZR (u * nth 0 i 0 + v * nth 1 i 0)).
Definition slope (u v : Z) (a : nat) : R := IZR (match a with 0%nat => u | _ => v end).
Lemma plane_image u v k : k <= 12 -> edge_image (F := RF) 16 replR MReplicate (plane34 u v) AxNone [0%nat; 1%nat] k.
Proof. intros H. destruct (replR_image 16 k ltac:(cbn; lia)) as [[A1 A2 A3] B1 B2 B3 B4 B5]. exact (Build_edge_image RF 16 replR MReplicate (plane34 u v) AxNone [0; 1]%nat k (Build_on_axes _ (plane34 u v) AxNone [0; 1]%nat A1 A2 A3) B1 B2 B3 B4 B5). Qed.
Lemma plane_ramp u v a : In a [0%nat; 1%nat] -> ramp (F := RF) (slope u v a) a (plane34 u v).
Proof.
  intros Ha i w V Hw. apply valid2 in V as [k [l [-> [Hk Hl]]]]. destruct Ha as [<-|[<-|[]]]; cbn [plane34 at_ upd nth slope];
  rewrite RF_ofZ; match goal with |- @eq _ ?l ?r => change (@eq R l r) end; cbn [fadd fmul RF]; unfold slope; cbv beta iota; rewrite <- mult_IZR, <- plus_IZR; f_equal; cbn; lia.
Qed.
Lemma plane_value e u v : named true (Some replR) true e central_kernel (ints [1; 2; 1]) ->
  exists y, snd (magnitude Rtrunc 16 (fun _ => 0%R) e (plane34 u v) AxNone 0%R square) = Ok y /\ at_ y [1; 2] = (2 * sqrt (IZR (u * u + v * v)))%R.
Proof.
  intros N. destruct (magnitude_plane Rtrunc 16 (fun _ => 0%R) replR MReplicate true e (plane34 u v) (ints [1; 2; 1]) AxNone [0; 1]%nat (slope u v)) as [y [Y1 [Y2 Y3]]].
  - exact Rtrunc_ok.
  - exact N.
  - unfold copying; tauto.
  - cbn; lia.
  - apply plane_image; lia.
  - apply plane_ramp.
  - exists y. split; auto. rewrite Y3.
    + rewrite axis_sumR. f_equal. f_equal. unfold slope. cbn [map]. rewrite !sumR_cons. change (sumR []) with 0%R. rewrite plus_IZR, !mult_IZR. ring.
    + repeat constructor; cbn; lia.
    + intros a [<-|[<-|[]]]; cbn; lia.
Qed.
(** Slopes (3, 4), (4, 3) and their sum (7, 7): 10, 10 and 14 sqrt 2. *)
Example C115_example : exists e : edge_filter RF, exists x y z,
  edge_init (NItem central_kernel) (NItem (ints [1; 2; 1])) true (Some replR) true = Ok e /\ named true (Some replR) true e central_kernel (ints [1; 2; 1]) /\
  edge_image (F := RF) 16 replR MReplicate (plane34 3 4) AxNone [0%nat; 1%nat] (5 + 1) /\ linear_padder (F := RF) replR MReplicate /\ keeps_constants RF MReplicate /\
  combination (F := RF) 1%R 1%R (plane34 3 4) (plane34 4 3) (plane34 7 7) /\ (forall a, In a [0%nat; 1%nat] -> ramp (F := RF) (slope 3 4 a) a (plane34 3 4)) /\
  snd (magnitude Rtrunc 16 (fun _ => 0%R) e (plane34 3 4) AxNone 0%R square) = Ok x /\ snd (magnitude Rtrunc 16 (fun _ => 0%R) e (plane34 4 3) AxNone 0%R square) = Ok y /\
  snd (magnitude Rtrunc 16 (fun _ => 0%R) e (plane34 7 7) AxNone 0%R square) = Ok z /\
  at_ x [1; 2] = 10%R /\ at_ y [1; 2] = 10%R /\ at_ z [1; 2] = (14 * sqrt 2)%R.
Proof.
  destruct (named_ok RF true (Some replR) true) as [[e He] _]. assert (N : named true (Some replR) true e central_kernel (ints [1; 2; 1])) by now apply n_sobel.
  destruct (plane_value e 3 4 N) as [x [X1 X2]]. destruct (plane_value e 4 3 N) as [y [Y1 Y2]]. destruct (plane_value e 7 7 N) as [z [Z1 Z2]].
  exists e, x, y, z. split; [exact He|]. split; [exact N|]. split; [apply plane_image; lia|].
  split; [exists (0%R, 0%R), (0%R, 0%R); split; [reflexivity|]; split; [reflexivity|]; exact I|]. split; [exact I|].
  split. { split; [reflexivity|]. split; [reflexivity|]. intros i V. cbn [plane34 at_ fadd fmul RF]. rewrite !Rmult_1_l, <- plus_IZR. f_equal. lia. }
  split; [apply plane_ramp|]. split; [exact X1|]. split; [exact Y1|]. split; [exact Z1|]. rewrite X2, Y2, Z2.
  split; [|split].
  - change (3 * 3 + 4 * 4) with (5 * 5). rewrite mult_IZR, sqrt_square by lra. lra.
  - change (4 * 4 + 3 * 3) with (5 * 5). rewrite mult_IZR, sqrt_square by lra. lra.
  - change (7 * 7 + 7 * 7) with (7 * 7 * 2). replace (IZR (7 * 7 * 2)) with (7 * 7 * 2)%R by (rewrite !mult_IZR; ring). rewrite sqrt_mult, sqrt_square by lra. lra.
Qed.
(** With exponent 1 (a signed sum, edges.py:109-110) the result can vanish where the components do not. *)
Definition diag33 := ofz [3; 3] [0; -1; -2; 1; 0; -1; 2; 1; 0].
Theorem C115_exponent_one_differs : exists (e : edge_filter QcF) c d y,
  named false (Some repl) true e central_kernel (ints [1; 2; 1]) /\
  snd (component qtrunc 16 garbage e diag33 (AxInt 0) AxNone) = Ok c /\ snd (component qtrunc 16 garbage e diag33 (AxInt 1) AxNone) = Ok d /\
  snd (magnitude qtrunc 16 garbage e diag33 AxNone f0 P1) = Ok y /\
  at_ c [1; 1] = qz 8 /\ at_ d [1; 1] = qz (-8) /\ at_ y [1; 1] = f0.
Proof.
  destruct (named_ok QcF false (Some repl) true) as [[e He] _]. exists e.
  assert (S1 : show (snd (component qtrunc 16 garbage e diag33 (AxInt 0) AxNone)) = Some ([3; 3], zq [4; 4; 4; 8; 8; 8; 4; 4; 4])).
  { rewrite (get_ok filter0 _ _ He). clear He. vm_compute. reflexivity. }
  assert (S2 : show (snd (component qtrunc 16 garbage e diag33 (AxInt 1) AxNone)) = Some ([3; 3], zq [-4; -8; -4; -4; -8; -4; -4; -8; -4])).
  { rewrite (get_ok filter0 _ _ He). clear He. vm_compute. reflexivity. }
  assert (S3 : show (snd (magnitude qtrunc 16 garbage e diag33 AxNone f0 P1)) = Some ([3; 3], zq [0; -4; 0; 4; 0; 4; 0; -4; 0])).
  { rewrite (get_ok filter0 _ _ He). clear He. vm_compute. reflexivity. }
  destruct (snd (component qtrunc 16 garbage e diag33 (AxInt 0) AxNone)) as [c|]; [|discriminate].
  destruct (snd (component qtrunc 16 garbage e diag33 (AxInt 1) AxNone)) as [d|]; [|discriminate].
  destruct (snd (magnitude qtrunc 16 garbage e diag33 AxNone f0 P1)) as [y|]; [|discriminate]. exists c, d, y.
  split; [now apply n_sobel|]. do 3 (split; [reflexivity|]).
  destruct (show_nth c _ _ 4 S1) as [_ C2]; [vm_compute; lia|]. destruct (show_nth d _ _ 4 S2) as [_ D2]; [vm_compute; lia|].
  destruct (show_nth y _ _ 4 S3) as [_ Y2]; [vm_compute; lia|].
  change (nth 4 (indices [3; 3]) []) with [1; 1] in C2, D2, Y2.
  split; [apply Qc_is_canon; rewrite C2; reflexivity|]. split; apply Qc_is_canon; [rewrite D2|rewrite Y2]; reflexivity.
Qed.
Print Assumptions C115_exponent_one_differs.
