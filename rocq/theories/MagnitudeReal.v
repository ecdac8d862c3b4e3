(** The gradient magnitude (edges.py:108-136) of the combination of two images, for every exponent;
    over the real numbers with the default exponent p = 2 it behaves like a norm. *)
From Coq Require Import Reals Lra.
From Verif Require Export MetricLaws EdgeConst EdgeAffine EdgeLinear.
Open Scope Z_scope.

Section Mag.
Variable F : ofield.
Add Field Fmag : (f_field F).
Notation T := (tensor F).
Variable trunc : F -> Z.

(** Images whose components are all computed, as three families. *)
Theorem magnitude_comb fuel junk ker smooth raw normalize p m shared (e : edge_filter F) a b (x y z : T) ax al k :
  edge_init (NItem ker) smooth normalize (Some p) shared = Ok e -> ker <> [] -> (2 <= length al)%nat -> m <> MPeriodize ->
  edge_image fuel p m x ax al (k + 1) -> klen ker <= k -> linear_padder p m ->
  (forall c, In c al -> expand (length (without c al)) smooth = Some (raw c)) -> (forall c s, In s (raw c) -> klen s <= k) ->
  combination a b x y z ->
  exists cx cy cz : nat -> T,
    (forall c, In c al -> snd (component trunc fuel junk e x (AxInt (Z.of_nat c)) (AxSeq (map Z.of_nat al))) = Ok (cx c) /\
       snd (component trunc fuel junk e y (AxInt (Z.of_nat c)) (AxSeq (map Z.of_nat al))) = Ok (cy c) /\
       snd (component trunc fuel junk e z (AxInt (Z.of_nat c)) (AxSeq (map Z.of_nat al))) = Ok (cz c) /\
       shp (cx c) = shp x /\ combination a b (cx c) (cy c) (cz c)) /\
    forall eps P, exists x' y' z', snd (magnitude trunc fuel junk e x ax eps P) = Ok x' /\ snd (magnitude trunc fuel junk e y ax eps P) = Ok y' /\
      snd (magnitude trunc fuel junk e z ax eps P) = Ok z' /\ shp x' = shp x /\ shp y' = shp x /\ shp z' = shp x /\
      forall i, valid (shp x) i ->
        at_ x' i = take_root F P (fadd (axis_sum (fun c => raise_to F P (at_ (cx c) i)) al) eps) /\
        at_ y' i = take_root F P (fadd (axis_sum (fun c => raise_to F P (at_ (cy c) i)) al) eps) /\
        at_ z' i = take_root F P (fadd (axis_sum (fun c => raise_to F P (at_ (cz c) i)) al) eps).
Proof.
  intros HI Hk Hl Hm EI Hlk LP Hr Hs C. pose proof C as [S1 [S2 _]]. pose proof EI as [[A1 A2 A3] _ _ _ _ _].
  destruct (choose (fun c (t : T * T * T) =>
     snd (component trunc fuel junk e x (AxInt (Z.of_nat c)) (AxSeq (map Z.of_nat al))) = Ok (fst (fst t)) /\
     snd (component trunc fuel junk e y (AxInt (Z.of_nat c)) (AxSeq (map Z.of_nat al))) = Ok (snd (fst t)) /\
     snd (component trunc fuel junk e z (AxInt (Z.of_nat c)) (AxSeq (map Z.of_nat al))) = Ok (snd t) /\
     shp (fst (fst t)) = shp x /\ combination a b (fst (fst t)) (snd (fst t)) (snd t)) (x, x, x) al Nat.eq_dec) as [g G].
  { intros c Hc. destruct (component_linear F trunc fuel junk ker smooth (raw c) normalize p m shared e a b x y z (AxInt (Z.of_nat c)) ax
      (AxSeq (map Z.of_nat al)) c al k) as [x' [y' [z' [X1 [X2 [X3 X4]]]]]]; auto.
    - apply check_one.
    - apply check_axes_seq_nat; auto.
    - intros s; apply Hs.
    - exists (x', y', z'). do 3 (split; auto). split; auto. cbn.
      apply (component_shape F trunc fuel junk ker smooth (raw c) normalize p m shared e x x' (AxInt (Z.of_nat c)) ax (AxSeq (map Z.of_nat al)) c al (k + 1)); auto; try lia.
      + apply check_one.
      + apply check_axes_seq_nat; auto.
      + intros s I. specialize (Hs c s I). lia. }
  exists (fun c => fst (fst (g c))), (fun c => snd (fst (g c))), (fun c => snd (g c)). split; auto.
  assert (Gy : forall c, In c al -> shp (snd (fst (g c))) = shp x /\ shp (snd (g c)) = shp x).
  { intros c Hc. destruct (G c Hc) as [_ [_ [_ [E3 [E1 [E2 _]]]]]]. split; congruence. }
  intros eps P.
  destruct (magnitude_ok F trunc fuel junk ker smooth normalize (Some p) shared e x ax al eps P (fun c => fst (fst (g c))) (shp x) HI A1 Hl) as [x' [X1 [X2 X3]]].
  { intros c Hc. split; apply G; auto. } { auto. }
  destruct (magnitude_ok F trunc fuel junk ker smooth normalize (Some p) shared e y ax al eps P (fun c => snd (fst (g c))) (shp x) HI) as [y' [Y1 [Y2 Y3]]]; auto.
  { unfold ndim in *; now rewrite S1. } { intros c Hc. split; [apply G; auto|apply Gy; auto]. }
  destruct (magnitude_ok F trunc fuel junk ker smooth normalize (Some p) shared e z ax al eps P (fun c => snd (g c)) (shp x) HI) as [z' [Z1 [Z2 Z3]]]; auto.
  { unfold ndim in *; now rewrite S2. } { intros c Hc. split; [apply G; auto|apply Gy; auto]. }
  exists x', y', z'. do 6 (split; auto).
Qed.
Lemma axis_sum_ext (f g : nat -> F) al : (forall c, In c al -> f c = g c) -> axis_sum f al = axis_sum g al.
Proof. intros H. unfold axis_sum. f_equal. now apply map_ext_in. Qed.

(** Brightness: adding a constant changes nothing. *)
Theorem magnitude_brightness fuel junk normalize p m shared (e : edge_filter F) (x y z : T) ker smooth ax al c eps P : truncates trunc ->
  named normalize (Some p) shared e ker smooth -> (2 <= length al)%nat -> m <> MPeriodize ->
  edge_image fuel p m x ax al 6 -> linear_padder p m -> keeps_constants F m ->
  constant_image c y -> combination f1 f1 x y z ->
  exists x' z', snd (magnitude trunc fuel junk e x ax eps P) = Ok x' /\ snd (magnitude trunc fuel junk e z ax eps P) = Ok z' /\ teq z' x'.
Proof.
  intros TR N Hl Hm EI LP KC Hc C. pose proof C as [S1 [S2 S3]]. destruct (named_len _ _ _ _ _ _ _ N) as [L1 L2].
  assert (Hk : ker <> []) by (destruct N; discriminate).
  assert (EY : edge_image fuel p m y ax al 6). { destruct EI as [[A1 A2 A3] B1 B2 B3 B4 B5]. unfold ndim in *. rewrite <- S1 in *. now constructor. }
  pose proof EI as [[A1 A2 A3] _ _ _ _ _].
  destruct (magnitude_comb fuel junk ker (NItem smooth) (fun c => repeat smooth (length (without c al))) normalize p m shared e f1 f1 x y z ax al 5)
    as [cx [cy [cz [G M]]]]; auto.
  { now apply named_init in N. }
  { intros d s Hs. apply repeat_spec in Hs. now subst. }
  destruct (M eps P) as [x' [y' [z' [X1 [Y1 [Z1 [X2 [Y2 [Z2 V]]]]]]]]]. exists x', z'. split; auto. split; auto. split; [congruence|].
  intros i Hi. rewrite Z2 in Hi. destruct (V i Hi) as [-> [_ ->]]. f_equal. f_equal. apply axis_sum_ext. intros d Hd. f_equal.
  destruct (G d Hd) as [_ [GY [_ [E [E1 [E2 E3]]]]]]. rewrite E3 by congruence.
  destruct (named_component F trunc fuel junk normalize p m shared e y ker smooth (AxInt (Z.of_nat d)) ax (AxSeq (map Z.of_nat al)) d al c) as [w [W1 [W2 W3]]]; auto.
  - unfold ndim. rewrite S1. apply check_one.
  - unfold ndim. rewrite S1. now apply check_axes_seq_nat.
  - assert (w = cy d) by congruence. subst w. rewrite W2 by congruence. ring.
Qed.
(** A tilted plane: the components are the slopes. *)
Theorem magnitude_ramp fuel junk normalize p m shared (e : edge_filter F) (x : T) ker smooth ax al eps P (s : nat -> F) : truncates trunc ->
  named normalize (Some p) shared e ker smooth -> copying m -> (2 <= length al)%nat -> edge_image fuel p m x ax al 5 ->
  (forall a, In a al -> ramp (s a) a x) ->
  exists y, snd (magnitude trunc fuel junk e x ax eps P) = Ok y /\ shp y = shp x /\
    forall j, valid (shp x) j -> (forall a, In a al -> klen ker / 2 <= nth a j 0 /\ nth a j 0 + klen ker / 2 < nth a (shp x) 0) ->
      at_ y j = take_root F P (fadd (axis_sum (fun a => raise_to F P (fmul (fmul (s a) (moment ker))
        (if normalize then f1 else fprod (repeat (gain smooth) (length (without a al)))))) al) eps).
Proof.
  intros TR N Hm Hl EI HR. pose proof EI as [[A1 A2 A3] _ _ _ _ _].
  destruct (choose (fun a y => snd (component trunc fuel junk e x (AxInt (Z.of_nat a)) (AxSeq (map Z.of_nat al))) = Ok y /\ shp y = shp x /\
    forall j, valid (shp x) j -> klen ker / 2 <= nth a j 0 -> nth a j 0 + klen ker / 2 < nth a (shp x) 0 ->
      at_ y j = fmul (fmul (s a) (moment ker)) (if normalize then f1 else fprod (repeat (gain smooth) (length (without a al))))) x al Nat.eq_dec) as [g G].
  { intros a Ha. apply (named_ramp F trunc fuel junk normalize p m shared e x ker smooth (AxInt (Z.of_nat a)) ax (AxSeq (map Z.of_nat al)) a al (s a)); auto.
    - apply check_one.
    - now apply check_axes_seq_nat. }
  assert (Hk0 : ker <> []) by (destruct N; discriminate). 
  destruct (magnitude_ok F trunc fuel junk ker (NItem smooth) normalize (Some p) shared e x ax al eps P g (shp x)) as [y [Y1 [Y2 Y3]]]; auto.
  { now apply named_init in N. }
  { intros a Ha. split; apply G; auto. }
  exists y. do 2 (split; auto). intros j V HJ. rewrite Y3 by auto. f_equal. f_equal. apply axis_sum_ext. intros a Ha. f_equal.
  destruct (G a Ha) as [_ [_ H]]. destruct (HJ a Ha). now apply H.
Qed.
End Mag.

(** ** Over the real numbers, p = 2 *)
Open Scope R_scope.
Notation TR := (tensor RF).
(** [c ** 2] and [v ** (1 / 2)] (edges.py:125-136); torch gives nan for negative v, which does not
    occur with epsilon >= 0. *)
Definition square : exponent RF := PGen (fun v : RF => v * v) sqrt.

Lemma axis_sumR (f : nat -> R) al : @axis_sum RF f al = sumR (map f al).
Proof. reflexivity. Qed.
(** Norm of a family with an offset: the triangle inequality, by adding sqrt eps as a coordinate of both. *)
Lemma norm_triangle (f g h : nat -> R) al eps : 0 <= eps -> (forall c, In c al -> h c = f c + g c) ->
  sqrt (sumR (map (fun c => h c * h c) al) + eps) <= sqrt (sumR (map (fun c => f c * f c) al) + eps) + sqrt (sumR (map (fun c => g c * g c) al) + eps).
Proof.
  intros He H.
  assert (L : sqrt (sumR (map (fun c => h c * h c) al) + eps) <= sqrt (sumR (map (fun c => f c * f c) al) + eps) + sqrt (sumR (map (fun c => g c * g c) al))).
  { pose (u := fun o : option nat => match o with Some c => h c | None => sqrt eps end).
    pose (v := fun o : option nat => match o with Some c => f c | None => sqrt eps end).
    pose (w := fun o : option nat => match o with Some c => g c | None => 0 end).
    pose proof (minkowski v w u (None :: map Some al)) as M. cbn [map] in M. rewrite !sumR_cons, !map_map in M. cbn [u v w] in M.
    rewrite !sqrt_sqrt in M by auto. rewrite !(Rplus_comm eps), Rmult_0_l, Rplus_0_l in M. apply M.
    intros o [<- |Ho]; [cbn; lra|]. apply in_map_iff in Ho. destruct Ho as [c [<- Hc]]. cbn. auto. }
  eapply Rle_trans; [exact L|]. apply Rplus_le_compat_l, sqrt_le_1_alt. lra.
Qed.
Lemma norm_lipschitz (f g h : nat -> R) al eps : 0 <= eps -> (forall c, In c al -> h c = f c - g c) ->
  Rabs (sqrt (sumR (map (fun c => f c * f c) al) + eps) - sqrt (sumR (map (fun c => g c * g c) al) + eps)) <= sqrt (sumR (map (fun c => h c * h c) al)).
Proof.
  assert (K : forall f g h : nat -> R, 0 <= eps -> (forall c, In c al -> f c = g c + h c) ->
    sqrt (sumR (map (fun c => f c * f c) al) + eps) <= sqrt (sumR (map (fun c => g c * g c) al) + eps) + sqrt (sumR (map (fun c => h c * h c) al))).
  { clear. intros h f g He H. pose (u := fun o : option nat => match o with Some c => h c | None => sqrt eps end).
    pose (v := fun o : option nat => match o with Some c => f c | None => sqrt eps end).
    pose (w := fun o : option nat => match o with Some c => g c | None => 0 end).
    pose proof (minkowski v w u (None :: map Some al)) as M. cbn [map] in M. rewrite !sumR_cons, !map_map in M. cbn [u v w] in M.
    rewrite !sqrt_sqrt in M by auto. rewrite !(Rplus_comm eps), Rmult_0_l, Rplus_0_l in M. apply M.
    intros o [<- |Ho]; [cbn; lra|]. apply in_map_iff in Ho. destruct Ho as [c [<- Hc]]. cbn. auto. }
  intros He H. pose proof (K f g h He) as K1. pose proof (K g f (fun c => - h c) He) as K2.
  assert (E : sumR (map (fun c => - h c * - h c) al) = sumR (map (fun c => h c * h c) al)).
  { f_equal. apply map_ext. intros; lra. }
  cbv beta in K2. rewrite E in K2. unfold Rabs. destruct Rcase_abs.
  - enough (sqrt (sumR (map (fun c => g c * g c) al) + eps) <= sqrt (sumR (map (fun c => f c * f c) al) + eps) + sqrt (sumR (map (fun c => h c * h c) al))) by lra.
    apply K2. intros c Hc. rewrite H by auto. lra.
  - enough (sqrt (sumR (map (fun c => f c * f c) al) + eps) <= sqrt (sumR (map (fun c => g c * g c) al) + eps) + sqrt (sumR (map (fun c => h c * h c) al))) by lra.
    apply K1. intros c Hc. rewrite H by auto. lra.
Qed.
Lemma norm_scale (f h : nat -> R) al eps s : 0 <= eps -> (forall c, In c al -> h c = s * f c) ->
  sqrt (sumR (map (fun c => h c * h c) al) + s * s * eps) = Rabs s * sqrt (sumR (map (fun c => f c * f c) al) + eps).
Proof.
  intros He H. assert (E : sumR (map (fun c => h c * h c) al) = s * s * sumR (map (fun c => f c * f c) al)).
  { clear -H. induction al as [|c l IH]; [cbn; lra|]. cbn [map]. rewrite !sumR_cons, IH by (intros; apply H; now right). rewrite (H c) by now left. ring. }
  rewrite E. rewrite <- Rmult_plus_distr_l. pose proof (sumsq_nonneg f al). rewrite sqrt_mult by nra. f_equal. fold (Rsqr s). apply sqrt_Rsqr_abs.
Qed.
Lemma sumsq_member (f : nat -> R) al c : In c al -> f c * f c <= sumR (map (fun c => f c * f c) al).
Proof.
  induction al as [|d l IH]; [intros []|]. cbn [map]. rewrite sumR_cons. pose proof (sumsq_nonneg f l). intros [-> |I]; [lra|]. specialize (IH I). nra.
Qed.
Lemma norm_bounds (f : nat -> R) al : (forall c, In c al -> Rabs (f c) <= sqrt (sumR (map (fun c => f c * f c) al))) /\
  sqrt (sumR (map (fun c => f c * f c) al)) <= sumR (map (fun c => Rabs (f c)) al).
Proof.
  split.
  - intros c Hc. rewrite <- sqrt_Rsqr_abs. apply sqrt_le_1_alt. unfold Rsqr. now apply (sumsq_member f).
  - assert (P : forall l, 0 <= sumR (map (fun c => Rabs (f c)) l)).
    { induction l as [|c l IH]; [apply Rle_refl|]. cbn [map]. rewrite sumR_cons. pose proof (Rabs_pos (f c)). lra. }
    induction al as [|c l IH]; [cbn; rewrite sqrt_0; apply Rle_refl|]. cbn [map]. rewrite !sumR_cons.
    pose proof (sumsq_nonneg f l). pose proof (Rabs_pos (f c)). pose proof (sqrt_pos (sumR (map (fun c => f c * f c) l))). pose proof (sqrt_sqrt _ H) as E.
    set (S := sumR (map (fun c => f c * f c) l)) in *. set (q := sqrt S) in *. set (t := sumR _) in *. specialize (P l). fold t in P.
    apply Rsqr_incr_0_var; [|lra]. rewrite Rsqr_sqrt by nra. unfold Rsqr. replace (f c * f c) with (Rabs (f c) * Rabs (f c)); [nra|].
    fold (Rsqr (Rabs (f c))). rewrite <- Rsqr_abs. reflexivity.
Qed.

Section Norm.
Variable trunc : RF -> Z.

Theorem magnitude_triangle fuel junk ker smooth raw normalize p m shared (e : edge_filter RF) (x y z : TR) ax al k eps :
  edge_init (NItem ker) smooth normalize (Some p) shared = Ok e -> ker <> [] -> (2 <= length al)%nat -> m <> MPeriodize ->
  edge_image fuel p m x ax al (k + 1)%Z -> (klen ker <= k)%Z -> linear_padder p m ->
  (forall c, In c al -> expand (length (without c al)) smooth = Some (raw c)) -> (forall c s, In s (raw c) -> (klen s <= k)%Z) ->
  combination (F := RF) 1 1 x y z -> 0 <= eps ->
  exists x' y' z', snd (magnitude trunc fuel junk e x ax eps square) = Ok x' /\ snd (magnitude trunc fuel junk e y ax eps square) = Ok y' /\
    snd (magnitude trunc fuel junk e z ax eps square) = Ok z' /\ shp x' = shp x /\ shp y' = shp x /\ shp z' = shp x /\
    forall i, valid (shp x) i -> 0 <= at_ z' i <= at_ x' i + at_ y' i.
Proof.
  intros HI Hk Hl Hm EI Hlk LP Hr Hs C He.
  destruct (magnitude_comb RF trunc fuel junk ker smooth raw normalize p m shared e 1 1 x y z ax al k HI Hk Hl Hm EI Hlk LP Hr Hs C) as [cx [cy [cz [G M]]]].
  destruct (M eps square) as [x' [y' [z' [X1 [Y1 [Z1 [X2 [Y2 [Z2 V]]]]]]]]]. exists x', y', z'. do 6 (split; auto).
  intros i Hi. destruct (V i Hi) as [-> [-> ->]]. cbn [take_root raise_to square]. rewrite !axis_sumR. split; [apply sqrt_pos|].
  apply (norm_triangle (fun c => at_ (cx c) i) (fun c => at_ (cy c) i) (fun c => at_ (cz c) i)); auto.
  intros c Hc. destruct (G c Hc) as [_ [_ [_ [E [E1 [E2 E3]]]]]]. rewrite E3 by congruence. cbn. lra.
Qed.
Theorem magnitude_lipschitz fuel junk ker smooth raw normalize p m shared (e : edge_filter RF) (x y z : TR) ax al k eps :
  edge_init (NItem ker) smooth normalize (Some p) shared = Ok e -> ker <> [] -> (2 <= length al)%nat -> m <> MPeriodize ->
  edge_image fuel p m x ax al (k + 1)%Z -> (klen ker <= k)%Z -> linear_padder p m ->
  (forall c, In c al -> expand (length (without c al)) smooth = Some (raw c)) -> (forall c s, In s (raw c) -> (klen s <= k)%Z) ->
  combination (F := RF) 1 (-1) x y z -> 0 <= eps ->
  exists x' y' z', snd (magnitude trunc fuel junk e x ax eps square) = Ok x' /\ snd (magnitude trunc fuel junk e y ax eps square) = Ok y' /\
    snd (magnitude trunc fuel junk e z ax 0 square) = Ok z' /\ shp x' = shp x /\ shp y' = shp x /\ shp z' = shp x /\
    forall i, valid (shp x) i -> Rabs (at_ x' i - at_ y' i) <= at_ z' i.
Proof.
  intros HI Hk Hl Hm EI Hlk LP Hr Hs C He.
  destruct (magnitude_comb RF trunc fuel junk ker smooth raw normalize p m shared e 1 (-1) x y z ax al k HI Hk Hl Hm EI Hlk LP Hr Hs C) as [cx [cy [cz [G M]]]].
  destruct (M eps square) as [x' [y' [z0 [X1 [Y1 [_ [X2 [Y2 [_ V]]]]]]]]]. destruct (M 0 square) as [x0 [y0 [z' [_ [_ [Z1 [_ [_ [Z2 W]]]]]]]]].
  exists x', y', z'. do 6 (split; auto).
  intros i Hi. destruct (V i Hi) as [-> [-> _]]. destruct (W i Hi) as [_ [_ ->]]. cbn [take_root raise_to square]. rewrite !axis_sumR. cbn [fadd RF]. rewrite Rplus_0_r.
  apply (norm_lipschitz (fun c => at_ (cx c) i) (fun c => at_ (cy c) i) (fun c => at_ (cz c) i)); auto.
  intros c Hc. destruct (G c Hc) as [_ [_ [_ [E [E1 [E2 E3]]]]]]. rewrite E3 by congruence. cbn. lra.
Qed.
Theorem magnitude_scale fuel junk ker smooth raw normalize p m shared (e : edge_filter RF) (x z : TR) ax al k eps s :
  edge_init (NItem ker) smooth normalize (Some p) shared = Ok e -> ker <> [] -> (2 <= length al)%nat -> m <> MPeriodize ->
  edge_image fuel p m x ax al (k + 1)%Z -> (klen ker <= k)%Z -> linear_padder p m ->
  (forall c, In c al -> expand (length (without c al)) smooth = Some (raw c)) -> (forall c t, In t (raw c) -> (klen t <= k)%Z) ->
  shp z = shp x -> (forall i, valid (shp x) i -> at_ z i = s * at_ x i) -> 0 <= eps ->
  exists x' z', snd (magnitude trunc fuel junk e x ax eps square) = Ok x' /\
    snd (magnitude trunc fuel junk e z ax (s * s * eps) square) = Ok z' /\ shp x' = shp x /\ shp z' = shp x /\
    forall i, valid (shp x) i -> at_ z' i = Rabs s * at_ x' i.
Proof.
  intros HI Hk Hl Hm EI Hlk LP Hr Hs Sz Vz He.
  assert (C : combination (F := RF) s 0 x x z). { split; auto. split; auto. intros i Hi. rewrite Vz by auto. cbn. lra. }
  destruct (magnitude_comb RF trunc fuel junk ker smooth raw normalize p m shared e s 0 x x z ax al k HI Hk Hl Hm EI Hlk LP Hr Hs C) as [cx [cy [cz [G M]]]].
  destruct (M eps square) as [x' [y1 [z1 [X1 [_ [_ [X2 [_ [_ V]]]]]]]]]. destruct (M (s * s * eps) square) as [x2 [y2 [z' [_ [_ [Z1 [_ [_ [Z2 W]]]]]]]]].
  exists x', z'. do 4 (split; auto).
  intros i Hi. destruct (V i Hi) as [-> _]. destruct (W i Hi) as [_ [_ ->]]. cbn [take_root raise_to square]. rewrite !axis_sumR.
  apply (norm_scale (fun c => at_ (cx c) i) (fun c => at_ (cz c) i)); auto.
  intros c Hc. destruct (G c Hc) as [_ [_ [_ [E [E1 [E2 E3]]]]]]. rewrite E3 by congruence. cbn. lra.
Qed.
(** Against the components. *)
Theorem magnitude_bounds fuel junk ker smooth normalize pd shared (e : edge_filter RF) (x : TR) ax al (cs : nat -> TR) sh :
  edge_init (NItem ker) smooth normalize pd shared = Ok e ->
  check_axes (Z.of_nat (ndim x)) ax = Ok (map Z.of_nat al) -> (2 <= length al)%nat ->
  (forall a, In a al -> snd (component trunc fuel junk e x (AxInt (Z.of_nat a)) (AxSeq (map Z.of_nat al))) = Ok (cs a) /\ shp (cs a) = sh) ->
  exists m, snd (magnitude trunc fuel junk e x ax 0 square) = Ok m /\ shp m = sh /\ forall i, valid sh i ->
    (forall a, In a al -> Rabs (at_ (cs a) i) <= at_ m i) /\
    at_ m i <= axis_sum (F := RF) (fun a => Rabs (at_ (cs a) i)) al /\
    (at_ m i = 0 <-> forall a, In a al -> at_ (cs a) i = 0).
Proof.
  intros HI HA Hl HC. destruct (magnitude_ok RF trunc fuel junk ker smooth normalize pd shared e x ax al 0 square cs sh HI HA Hl HC ltac:(discriminate)) as [m [M1 [M2 M3]]].
  exists m. do 2 (split; auto). intros i Hi. rewrite M3 by auto. cbn [take_root raise_to square]. rewrite !axis_sumR. cbn [fadd RF]. rewrite Rplus_0_r.
  destruct (norm_bounds (fun c => at_ (cs c) i) al) as [B1 B2]. split; [exact B1|]. split; [exact B2|]. split.
  - intros Z a Ha. specialize (B1 a Ha). cbv beta in B1. rewrite Z in B1. destruct (Req_dec (at_ (cs a) i) 0) as [E|N]; auto. pose proof (Rabs_pos_lt _ N). cbn in *. lra.
  - intros Z. apply Rle_antisym; [|apply sqrt_pos]. eapply Rle_trans; [exact B2|]. right.
    clear -Z. induction al as [|c l IH]; [reflexivity|]. cbn [map]. rewrite sumR_cons, IH by (intros; apply Z; now right). rewrite (Z c) by now left. rewrite Rabs_R0. lra.
Qed.
End Norm.

(** Normalized Sobel, Prewitt and Scharr: twice the length of the slope vector. *)
Theorem magnitude_plane trunc fuel junk p m shared (e : edge_filter RF) (x : TR) smooth ax al (s : nat -> R) : truncates trunc ->
  named true (Some p) shared e central_kernel smooth -> copying m -> (2 <= length al)%nat -> edge_image fuel p m x ax al 5%Z ->
  (forall a, In a al -> ramp (F := RF) (s a) a x) ->
  exists y, snd (magnitude trunc fuel junk e x ax 0 square) = Ok y /\ shp y = shp x /\
    forall j, valid (shp x) j -> (forall a, In a al -> (1 <= nth a j 0 <= nth a (shp x) 0 - 2)%Z) ->
      at_ y j = 2 * sqrt (axis_sum (F := RF) (fun a => s a * s a) al).
Proof.
  intros TR N Hm Hl EI HR.
  destruct (magnitude_ramp RF trunc fuel junk true p m shared e x central_kernel smooth ax al 0 square s TR N Hm Hl EI HR) as [y [Y1 [Y2 Y3]]].
  exists y. do 2 (split; auto). intros j V HJ. rewrite Y3; [|auto|].
  2:{ intros a Ha. specialize (HJ a Ha). change (klen (@central_kernel RF) / 2)%Z with 1%Z. lia. }
  cbn [take_root raise_to square]. rewrite !axis_sumR. cbn [fadd fmul f1 RF]. rewrite (central_moment RF).
  pose proof (norm_scale s (fun a => s a * fofZ 2 * 1) al 0 2 (Rle_refl 0)) as H. rewrite Rmult_0_r, !Rplus_0_r in H. rewrite Rplus_0_r.
  etransitivity; [apply H|].
  - intros c _. rewrite RF_ofZ. lra.
  - rewrite Rabs_pos_eq by lra. reflexivity.
Qed.
