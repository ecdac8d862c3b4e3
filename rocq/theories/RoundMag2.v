(** The rounding error of an edge magnitude with p = 2, over the reals (C147). *)
From Coq Require Import Reals Lra Sorting.Permutation.
From Verif Require Export RField RoundPsnr MagnitudeReal RoundMag.
From Verif Require Import AliasProofs.
Open Scope R_scope.

Lemma RF_errs (c S v w : R) : errs RF c S v w <-> Rabs (v - w) <= (c - 1) * S /\ Rabs w <= S.
Proof. unfold errs. rewrite !RF_le, !RF_abs. reflexivity. Qed.
(** A rounded sum of numbers >= 0, with e <= 1, is >= 0. *)
Lemma fl_sum_nonneg (e : R) (p : nat -> R) l v : 0 <= e <= 1 -> fl_sum (F := RF) e p l v -> (forall a, In a l -> 0 <= p a) -> 0 <= v.
Proof.
  intros He. induction 1 as [o|l m n u v w H1 IH1 H2 IH2 P R0]; intros E; [apply E; now left|].
  assert (U : 0 <= u) by (apply IH1; intros a Ha; apply E; eapply Permutation_in; [apply Permutation_sym; exact P|apply in_or_app; auto]).
  assert (V : 0 <= v) by (apply IH2; intros a Ha; apply E; eapply Permutation_in; [apply Permutation_sym; exact P|apply in_or_app; auto]).
  apply RF_rounds in R0. change (fadd u v) with (u + v) in R0. rewrite (Rabs_pos_eq (u + v)) in R0 by lra. apply Rabs_le_inv in R0. nra.
Qed.
Lemma rounds_nonneg (e v w : R) : 0 <= e <= 1 -> 0 <= v -> rounds (F := RF) e v w -> 0 <= w.
Proof. intros He Hv R0. apply RF_rounds in R0. rewrite (Rabs_pos_eq v) in R0 by lra. apply Rabs_le_inv in R0. nra. Qed.
(** The relative error of a square root. *)
Lemma sqrt_rel (t v w : R) : 0 <= v -> 0 <= w -> Rabs (v - w) <= (t - 1) * w -> Rabs (sqrt v - sqrt w) <= (t - 1) * sqrt w.
Proof.
  intros Hv Hw H. pose proof (sqrt_pos v). pose proof (sqrt_pos w). pose proof (sqrt_sqrt v Hv) as E1. pose proof (sqrt_sqrt w Hw) as E2.
  set (a := sqrt v) in *. set (b := sqrt w) in *. rewrite <- E1, <- E2 in H. apply Rabs_le_inv in H.
  destruct (Req_dec b 0) as [Z|Z].
  { rewrite Z in *. assert (AA : a * a = 0) by lra. assert (A0 : a = 0) by (apply Rmult_integral in AA; destruct AA; auto). rewrite A0, Rminus_0_r, Rabs_R0. lra. }
  assert (P : 0 < b) by lra. assert (BB : 0 < b * b) by (apply Rmult_lt_0_compat; lra). assert (T : 0 <= t - 1) by (apply Rnot_lt_le; intros C; assert ((t - 1) * (b * b) < 0 * (b * b)) by (apply Rmult_lt_compat_r; lra); lra). assert (A : 0 <= (t - 1) * b * a) by (repeat apply Rmult_le_pos; lra).
  apply Rabs_le. split; apply Rnot_lt_le; intros C.
  - assert (Q : (a - b) * (a + b) < - ((t - 1) * b) * (a + b)) by (apply Rmult_lt_compat_r; lra). lra.
  - assert (Q : (t - 1) * b * (a + b) < (a - b) * (a + b)) by (apply Rmult_lt_compat_r; lra). lra.
Qed.
Lemma sumR_le (f h : nat -> R) al : (forall a, In a al -> f a <= h a) -> sumR (map f al) <= sumR (map h al).
Proof.
  induction al as [|a l IH]; intros H; [cbn; lra|]. cbn [map]. rewrite !sumR_cons. apply Rplus_le_compat; [apply H; now left|apply IH; intros; apply H; now right].
Qed.
Lemma sumR_const (c : R) (al : list nat) : sumR (map (fun _ => c) al) = INR (length al) * c.
Proof. induction al as [|a l IH]; [cbn; lra|]. cbn [map]. rewrite sumR_cons, IH. cbn [length]. rewrite S_INR. ring. Qed.

(** Rounded squares of the components, added in any order, plus epsilon, and the root. *)
Lemma norm_err (e c K eps : R) (cs es qs : nat -> R) al (v v1 : R) (n : bool) : 0 <= e <= 1 -> 1 <= c -> 0 <= K -> 0 <= eps ->
  (forall a, In a al -> errs RF c K (cs a) (es a)) -> (forall a, In a al -> rounds (F := RF) e (cs a * cs a) (qs a)) ->
  fl_sum (F := RF) e qs al v -> (if n then v1 = v /\ eps = 0 else rounds (F := RF) e (v + eps) v1) ->
  0 <= v1 /\ errs RF (c * (1 + e) ^ (length al + if n then 0 else 1)) (sqrt (INR (length al) * (K * K) + eps)) (sqrt v1) (sqrt (sumR (map (fun a => es a * es a) al) + eps)).
Proof.
  intros He Hc HK Hp HE HQ HS HV.
  assert (Q0 : forall a, In a al -> 0 <= qs a) by (intros a Ha; apply (rounds_nonneg e (cs a * cs a)); auto; nra).
  assert (V0 : 0 <= v) by (apply (fl_sum_nonneg e qs al); auto).
  assert (V1 : 0 <= v1) by (destruct n; [destruct HV; lra|apply (rounds_nonneg e (v + eps)); auto; lra]). split; auto.
  set (W := sumR (map (fun a => cs a * cs a) al)). assert (W0 : 0 <= W) by apply sumsq_nonneg.
  assert (SE : (0 < length al)%nat /\ errs RF ((1 + e) * (1 + e) ^ (length al - 1)) W v W).
  { destruct (sum_err RF e (1 + e) qs (fun a => cs a * cs a) (fun a => cs a * cs a) al v) as [L E]; auto.
    - apply RF_le. exact (proj1 He).
    - apply RF_le. change (1 <= 1 + e). lra.
    - intros a Ha. apply RF_errs. split; [|rewrite Rabs_pos_eq by nra; lra]. specialize (HQ a Ha). apply RF_rounds in HQ. rewrite (Rabs_pos_eq (cs a * cs a)) in HQ by nra. lra.
    - split; auto. rewrite RF_pow in E. exact E. }
  destruct SE as [Ln SE].
  set (t := (1 + e) ^ (length al + if n then 0 else 1)).
  assert (T1 : 1 <= t) by (apply pow_R1_Rle; lra).
  assert (VE : Rabs (v1 - (W + eps)) <= (t - 1) * (W + eps)).
  { assert (E : (1 + e) * (1 + e) ^ (length al - 1) = (1 + e) ^ length al) by (change ((1 + e) ^ S (length al - 1) = (1 + e) ^ length al); f_equal; lia).
    rewrite E in SE. apply RF_errs in SE as [SE _]. subst t. destruct n.
    - destruct HV as [-> ->]. rewrite Nat.add_0_r, !Rplus_0_r. exact SE.
    - rewrite Nat.add_1_r. cbn [pow]. apply RF_rounds in HV. rewrite (Rabs_pos_eq (v + eps)) in HV by lra. set (c' := (1 + e) ^ length al) in *.
      assert (1 <= c') by (apply pow_R1_Rle; lra). apply Rabs_le_inv in HV. apply Rabs_le_inv in SE.
      assert (CE : 0 <= (c' - 1) * eps) by (apply Rmult_le_pos; lra).
      assert (X : e * (v + eps) <= e * (c' * (W + eps))) by (apply Rmult_le_compat_l; lra). apply Rabs_le. lra. }
  assert (R1 : Rabs (sqrt v1 - sqrt (W + eps)) <= (t - 1) * sqrt (W + eps)) by (apply sqrt_rel; auto; lra).
  set (Z := sqrt (INR (length al) * (K * K) + eps)). assert (Z0 : 0 <= Z) by apply sqrt_pos.
  assert (D0 : 0 <= INR (length al)) by apply pos_INR.
  assert (E1 : forall a, In a al -> Rabs (cs a - es a) <= (c - 1) * K /\ Rabs (es a) <= K) by (intros a Ha; apply RF_errs; auto).
  assert (WZ : sqrt (W + eps) <= c * Z).
  { replace (c * Z) with (sqrt (c * c * (INR (length al) * (K * K) + eps))).
    - apply sqrt_le_1_alt. apply Rle_trans with (INR (length al) * (c * K * (c * K)) + eps).
      + apply Rplus_le_compat_r. unfold W. rewrite <- sumR_const. apply sumR_le. intros a Ha. destruct (E1 a Ha) as [A1 A2]. apply Rabs_le_inv in A1. apply Rabs_le_inv in A2.
        assert (- (c * K) <= cs a <= c * K) by lra. nra.
      + assert (eps <= c * c * eps) by (assert (1 <= c * c) by nra; nra). lra.
    - rewrite sqrt_mult by nra. rewrite sqrt_square by lra. reflexivity. }
  assert (L : Rabs (sqrt (W + eps) - sqrt (sumR (map (fun a => es a * es a) al) + eps)) <= (c - 1) * Z).
  { eapply Rle_trans; [apply (norm_lipschitz cs es (fun a => cs a - es a) al eps); auto|].
    replace ((c - 1) * Z) with (sqrt ((c - 1) * (c - 1) * (INR (length al) * (K * K) + eps))).
    - apply sqrt_le_1_alt. apply Rle_trans with (INR (length al) * ((c - 1) * K * ((c - 1) * K))).
      + rewrite <- sumR_const. apply sumR_le. intros a Ha. destruct (E1 a Ha) as [A1 A2]. apply Rabs_le_inv in A1. nra.
      + assert (0 <= (c - 1) * (c - 1) * eps) by (repeat apply Rmult_le_pos; lra). lra.
    - rewrite sqrt_mult by nra. rewrite sqrt_square by lra. reflexivity. }
  apply RF_errs. split.
  - assert (X : (t - 1) * sqrt (W + eps) <= (t - 1) * (c * Z)) by (apply Rmult_le_compat_l; lra).
    apply Rabs_le_inv in R1. apply Rabs_le_inv in L. apply Rabs_le. lra.
  - rewrite Rabs_pos_eq by apply sqrt_pos. apply sqrt_le_1_alt. apply Rplus_le_compat_r. rewrite <- sumR_const. apply sumR_le.
    intros a Ha. destruct (E1 a Ha) as [_ A2]. apply Rabs_le_inv in A2. nra.
Qed.

Notation real_edge trunc ker normalize raw B := (@gain RF (smoothers normalize raw) * (abs_sum (used_kernel trunc ker) * B)).
Theorem magnitude_rounding2 (trunc : RF -> Z) (e : R) fuel junk ker smooth raw normalize p m shared (g : edge_filter RF) (x y' : TR) ax al k (B eps : R) :
  0 <= e <= 1 -> 0 <= eps -> edge_init (NItem ker) smooth normalize (Some p) shared = Ok g -> ker <> [] ->
  edge_image fuel p m x ax al (k + 1) -> m <> MPeriodize -> (klen ker <= k)%Z ->
  expand (length al - 1) smooth = Some raw -> (forall s, In s raw -> (klen s <= k)%Z) ->
  copy_padder (F := RF) B p m -> copy_padder (F := RF) (abs_sum (used_kernel trunc ker) * B) p m -> bounded (F := RF) B x ->
  fl_magnitude trunc e fuel junk g x ax eps square y' ->
  exists y, snd (magnitude trunc fuel junk g x ax eps square) = Ok y /\ shp y' = shp y /\ forall i, valid (shp y) i ->
    Rabs (at_ y' i - at_ y i) <=
      ((1 + e) ^ (edge_roundings trunc ker + roundings (smoothers normalize raw) + length al + eps_roundings (F := RF) eps + 1) - 1) *
      sqrt (INR (length al) * (real_edge trunc ker normalize raw B * real_edge trunc ker normalize raw B) + eps).
Proof.
  intros He Hp HI Hk EI Hm Hlk Hr Hs CP CP2 HB HF.
  assert (He' : @fle RF 0 e) by (apply RF_le; exact (proj1 He)).
  destruct (mag_parts RF trunc e fuel junk ker smooth raw normalize p m shared g x y' ax al k B eps square He' HI Hk EI Hm Hlk Hr Hs CP CP2 HB HF)
    as [es [cs [qs [y [s [L2 [ND [Y1 [Y2 [Y3 [E [[S1 [S2 S3]] [s1 [Q1 Q2]]]]]]]]]]]]]].
  cbn [square] in Q2. destruct Q2 as [Q2 Q3]. cbn [tmap shp at_] in Q2, Q3.
  assert (Ss : shp s1 = shp x).
  { destruct (fleb eps f0 && fleb f0 eps); [now subst|]. destruct Q1 as [Q _]. rewrite Q. exact S1. }
  exists y. split; auto. split; [congruence|]. intros i Vi. rewrite Y2 in Vi. rewrite Y3 by auto. cbn [take_root raise_to square]. rewrite axis_sumR.
  change (fadd (sumR (map (fun a : nat => at_ (es a) i * at_ (es a) i) al)) eps) with (sumR (map (fun a : nat => at_ (es a) i * at_ (es a) i) al) + eps).
  set (N := edge_count RF trunc ker normalize raw) in *. set (K := edge_bound RF trunc ker normalize raw B) in *.
  change (real_edge trunc ker normalize raw B) with K.
  assert (K0 : 0 <= K).
  { destruct al as [|a al']; [cbn in L2; lia|]. specialize (E a i (or_introl eq_refl) Vi). apply RF_errs in E as [_ E]. eapply Rle_trans; [apply Rabs_pos|exact E]. }
  destruct (norm_err e ((1 + e) ^ N) K eps (fun a => at_ (cs a) i) (fun a => at_ (es a) i) (fun a => at_ (qs a) i) al (at_ s i) (at_ s1 i) (fleb eps f0 && fleb f0 eps)) as [P X]; auto.
  - apply pow_R1_Rle. lra.
  - intros a Ha. pose proof (E a i Ha Vi) as X. rewrite RF_pow in X. exact X.
  - intros a Ha. destruct (S2 a Ha) as [Z1 Z2]. cbn [square fl_powered] in Z2. destruct Z2 as [_ Z2]. apply Z2. cbn [tmap shp]. congruence.
  - destruct (fleb eps f0 && fleb f0 eps) eqn:Z.
    + split; [now rewrite Q1|]. now apply (eps_zero RF).
    + destruct Q1 as [_ Q1]. apply Q1. cbn [tmap shp]. congruence.
  - assert (O : rounds (F := RF) e (sqrt (at_ s1 i)) (at_ y' i)) by (apply Q3; congruence).
    apply (err_round RF e _ _ _ _ _ He' X) in O. apply RF_errs in O as [O _]. 
    assert (EQ : (1 + e) ^ N * (1 + e) ^ (length al + (if fleb eps f0 && fleb f0 eps then 0 else 1)) * (1 + e) =
      (1 + e) ^ (edge_roundings trunc ker + roundings (smoothers normalize raw) + length al + eps_roundings (F := RF) eps + 1)).
    { unfold N, edge_count, eps_roundings. rewrite !Rfunctions.pow_add. destruct (fleb eps f0 && fleb f0 eps); cbn [pow]; ring. }
    rewrite <- EQ. exact O.
Qed.

(** Normalized Sobel, Prewitt and Scharr. *)
Theorem sobel_magnitude_rounding (trunc : RF -> Z) (e : R) fuel junk p m shared (g : edge_filter RF) (x y' : TR) smooth ax al (B eps : R) :
  truncates trunc -> 0 <= e <= 1 -> 0 <= eps -> named true (Some p) shared g central_kernel smooth ->
  edge_image fuel p m x ax al 6 -> m <> MPeriodize -> copy_padder (F := RF) B p m -> bounded (F := RF) B x ->
  fl_magnitude trunc e fuel junk g x ax eps square y' ->
  exists y, snd (magnitude trunc fuel junk g x ax eps square) = Ok y /\ shp y' = shp y /\ forall i, valid (shp y) i ->
    Rabs (at_ y' i - at_ y i) <=
      ((1 + e) ^ (5 * length al - 2 + eps_roundings (F := RF) eps) - 1) * sqrt (INR (length al) * (2 * B * (2 * B)) + eps).
Proof.
  intros TR0 He Hp N EI Hm CP HB HF. pose proof (named_len RF _ _ _ _ _ _ N) as [K1 K2]. pose proof (named_init RF _ _ _ _ _ _ N) as HI.
  pose proof (named_used RF trunc _ _ _ _ _ _ TR0 N) as UK.
  assert (E2 : abs_sum (used_kernel trunc central_kernel) * B = B + B).
  { rewrite UK, abs_central. change (@fadd RF) with Rplus. change (@f1 RF) with 1. ring. }
  assert (L2 : (2 <= length al)%nat).
  { destruct HF as [al' [m0 [m1 [H1 [H2 _]]]]]. pose proof EI as [[A1 _ _] _ _ _ _ _]. rewrite A1 in H1. injection H1 as <-. now rewrite map_length in H2. }
  destruct (magnitude_rounding2 trunc e fuel junk central_kernel (NItem smooth) (repeat smooth (length al - 1)) true p m shared g x y' ax al 5 B eps) as [y [Y1 [Y2 Y3]]]; auto.
  - discriminate.
  - intros s Hs. apply repeat_spec in Hs. now subst.
  - apply (copy_double RF p m B); auto.
  - exists y. split; auto. split; auto. intros i Vi. specialize (Y3 i Vi). rewrite E2, (edge_one RF trunc) in Y3 by auto.
    assert (G : gain (smoothers true (repeat smooth (length al - 1))) = @f1 RF /\ roundings (smoothers true (repeat smooth (length al - 1))) = (4 * (length al - 1))%nat).
    { inversion N; subst; try discriminate; try (apply three_taps; [reflexivity|]; intros z Hz; repeat (destruct Hz as [<-|Hz]; [lia|]); destruct Hz). }
    destruct G as [G1 G2]. rewrite G1, G2 in Y3. change (@f1 RF) with 1 in Y3.
    replace (1 * (B + B)) with (2 * B) in Y3 by ring.
    replace (1 + 4 * (length al - 1) + length al + eps_roundings (F := RF) eps + 1)%nat with (5 * length al - 2 + eps_roundings (F := RF) eps)%nat in Y3 by lia. exact Y3.
Qed.

(** The root is only taken of numbers >= 0: no value of the sum of rounded squares is negative, so the real square root
    of the model and [** 0.5] of torch agree. *)
Lemma loop_nonneg (trunc : RF -> Z) (e : R) fuel junk axes : 0 <= e <= 1 -> forall todo (g : edge_filter RF) (x : TR) acc y,
  (forall m, acc = Some m -> forall i, valid (shp m) i -> 0 <= at_ m i) ->
  fl_mag_loop trunc e fuel junk g x axes todo square acc y -> forall i, valid (shp y) i -> 0 <= at_ y i.
Proof.
  intros He. induction todo as [|a todo IH]; intros g x acc y HA; cbn [fl_mag_loop]; [auto|].
  intros [c [q [m [_ [[Q1 Q2] [H3 H4]]]]]]. cbv zeta in H4. cbn [tmap shp at_] in Q1, Q2.
  assert (Q0 : forall i, valid (shp q) i -> 0 <= at_ q i).
  { intros i Vi. rewrite Q1 in Vi. apply (rounds_nonneg e (at_ c i * at_ c i)); [auto|apply Rle_0_sqr|now apply Q2]. }
  refine (IH _ _ _ _ _ H4). intros m' Em i Vi. injection Em as <-. destruct acc as [m0|]; [|subst m; auto].
  destruct H3 as [d [D1 [D2 D3]]]. unfold tiadd in D1. match type of D1 with (if ?b then _ else _) = _ => destruct b eqn:X end; [|discriminate]. injection D1 as <-. cbn [shp at_] in D2, D3.
  apply (eq_ind _ (fun s => valid s i) Vi) in D2. clear Vi. rename D2 into Vi. refine (rounds_nonneg e _ _ He _ (D3 i Vi)). pose proof (HA m0 eq_refl i Vi) as U. pose proof (Q0 _ (expand_valid _ _ _ X Vi)) as V.
  change (0 <= at_ m0 i + at_ q (bidx (shp q) i)). lra.
Qed.
Theorem radicand_nonneg (trunc : RF -> Z) (e : R) fuel junk (g : edge_filter RF) (x y : TR) axes : 0 <= e <= 1 ->
  fl_mag_loop trunc e fuel junk g x axes axes square None y -> forall i, valid (shp y) i -> 0 <= at_ y i.
Proof. intros He. apply (loop_nonneg trunc e fuel junk axes He axes g x None y). intros m H. discriminate. Qed.
