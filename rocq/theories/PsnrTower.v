(** The PSNR of a batch is at most the average PSNR of its items. *)
From Coq Require Import Reals Lra.
From Verif Require Export MetricTower.
Open Scope R_scope.

Lemma ln_le_sub u : 0 < u -> ln u <= u - 1.
Proof.
  intros H. destruct (Req_dec (ln u) 0) as [E|E].
  - assert (u = 1) by (rewrite <- (exp_ln u H), E; apply exp_0). lra.
  - pose proof (exp_ineq1 (ln u) E) as Q. rewrite exp_ln in Q by auto. lra.
Qed.
Notation bs := (@bsum RF).
(** Jensen's inequality for the logarithm. *)
Lemma bsum_ln (ns : list Z) (t : list Z -> R) : (forall k, In k ns -> (1 <= k)%Z) -> (forall j, valid ns j -> 0 < t j) ->
  0 < bs ns t / IZR (zprod ns) /\ bs ns (fun j => ln (t j)) <= IZR (zprod ns) * ln (bs ns t / IZR (zprod ns)).
Proof.
  intros Hn Ht. pose proof (zprod_pos1 _ Hn) as Pn. assert (N : 1 <= IZR (zprod ns)) by (apply IZR_le in Pn; exact Pn).
  set (n := IZR (zprod ns)) in *.
  assert (C : forall c : R, bs ns (fun _ => c) = n * c).
  { intros c. rewrite (bsum_const RF ns c Hn). rewrite RF_ofZ. reflexivity. }
  assert (P : 0 < bs ns t).
  { assert (G : forall ns (t : list Z -> R), (forall k, In k ns -> (1 <= k)%Z) -> (forall j, valid ns j -> 0 < t j) -> 0 < bs ns t).
    { clear. induction ns as [|k ns IH]; intros t Hn Ht; cbn [bsum]; [apply Ht; constructor|].
      assert (Hk : (1 <= k)%Z) by (apply Hn; now left). unfold fsum. replace (Z.to_nat k) with (S (Z.to_nat (k - 1))) by lia.
      assert (H : forall m, (Z.of_nat (S m) <= k)%Z -> 0 < fsumn (F := RF) (S m) (fun k0 => bs ns (fun o => t (k0 :: o)))).
      { induction m as [|m IHm]; intros Hm.
        - cbn [fsumn]. match goal with |- 0 < fadd f0 ?q => change (0 < 0 + q) end. rewrite Rplus_0_l. apply IH; [intros; apply Hn; now right|]. intros j Vj. apply Ht. constructor; auto. lia.
        - change (0 < fsumn (F := RF) (S m) (fun k0 => bs ns (fun o => t (k0 :: o))) + bs ns (fun o => t (Z.of_nat (S m) :: o))).
          specialize (IHm ltac:(lia)). assert (0 < bs ns (fun o => t (Z.of_nat (S m) :: o))); [|lra].
          apply IH; [intros; apply Hn; now right|]. intros j Vj. apply Ht. constructor; auto. lia. }
      apply H. lia. }
    now apply G. }
  assert (A : 0 < bs ns t / n) by (apply Rdiv_lt_0_compat; lra). split; auto. set (m := bs ns t / n) in *.
  assert (E : bs ns (fun j => ln m + (/ m * t j + - 1)) = n * ln m).
  { transitivity (bs ns (fun _ => ln m) + (/ m * bs ns t + bs ns (fun _ => - 1))).
    - etransitivity; [apply (bsum_add RF ns (fun _ => ln m) (fun j => / m * t j + - 1))|]. apply f_equal.
      etransitivity; [apply (bsum_add RF ns (fun j => / m * t j) (fun _ => - 1))|]. apply (f_equal (fun v => v + bs ns (fun _ => - 1))). apply (bsum_mul RF ns (/ m) t).
    - rewrite !C. assert (B : forall b : R, b / n = m -> n * ln m + (/ m * b + n * - 1) = n * ln m).
      { intros b Hb. replace b with (m * n) by (rewrite <- Hb; field; lra). field. lra. }
      exact (B (bs ns t) eq_refl). }
  rewrite <- E. apply RF_le. apply bsum_le. intros j Vj. apply RF_le. specialize (Ht j Vj).
  assert (Hd : 0 < / m * t j) by (apply Rmult_lt_0_compat; auto; now apply Rinv_0_lt_compat).
  pose proof (ln_le_sub _ Hd) as Q. rewrite ln_mult in Q by (auto; now apply Rinv_0_lt_compat). rewrite ln_Rinv in Q by auto. lra.
Qed.
Lemma psnr_inv mx eps r (a b : tensor RF) ax m y : 0 < mx -> 0 <= eps -> mse_forward r a b ax = Ok m -> psnr_forward mx eps r a b ax = Ok y ->
  shp y = shp m /\ forall j, valid (shp m) j -> 0 < at_ m j + eps /\ at_ y j = 10 * log10 (mx * mx / (at_ m j + eps)).
Proof.
  intros Hm He E1 E2. assert (P : forall j, valid (shp m) j -> 0 < at_ m j + eps).
  { intros j Hj. apply Rnot_le_lt. intros G. unfold psnr_forward in E2. rewrite E1 in E2. cbn [bind] in E2.
    assert (Q : forall t : tensor RF, shp t = shp m -> at_ t j <= 0 -> tlog10 t = Err ValueError).
    { intros t S B. unfold tlog10. replace (tany _) with true; auto. symmetry. unfold tany. apply existsb_exists. exists j. cbn [tmap shp at_]. rewrite S. split; [now apply In_tindices|now apply R_leb_iff]. }
    rewrite Q in E2; [discriminate E2| |]; destruct (R_leb eps 0) eqn:B; cbn [tmap shp at_]; auto. apply R_leb_iff in B. lra. }
  destruct (psnr_of_mse mx eps r a b ax m Hm He E1 P) as [y1 [Y1 [Y3 Y2]]]. rewrite E2 in Y1. injection Y1 as <-. auto.
Qed.
Theorem psnr_tower mx eps (u v : tensor RF) ax al y : 0 < mx -> 0 <= eps -> on_axes u ax al -> shp u = shp v -> (forall n, In n (shp u) -> (1 <= n)%Z) ->
  psnr_forward mx eps RMean u v ax = Ok y ->
  exists z, psnr_forward mx eps RMean u v AxNone = Ok z /\ shp z = [] /\ at_ z [] <= bs (shp y) (at_ y) / IZR (zprod (shp y)).
Proof.
  intros Hm He OA S P E.
  destruct (mse_forward RMean u v ax) as [m|er] eqn:M; [|unfold psnr_forward in E; rewrite M in E; discriminate].
  destruct (psnr_inv mx eps RMean u v ax m y Hm He M E) as [Sy Vy].
  destruct (mse_tower RF u v ax al m OA S P M) as [w [W1 [W2 [W3 W4]]]].
  assert (PN : 1 <= IZR (zprod (shp m))) by (apply IZR_le; now apply zprod_pos1).
  assert (W5 : at_ w [] + eps = bs (shp m) (fun j => at_ m j + eps) / IZR (zprod (shp m))).
  { rewrite W4, RF_ofZ. etransitivity; [|apply (f_equal (fun q => q / IZR (zprod (shp m)))); symmetry; apply (bsum_add RF (shp m) (at_ m) (fun _ => eps))].
    rewrite (bsum_const RF (shp m) eps W3), RF_ofZ. assert (B : forall q n : R, 1 <= n -> q / n + eps = (q + n * eps) / n) by (intros q n Hn; field; lra). exact (B (bs (shp m) (at_ m)) _ PN). }
  destruct (bsum_ln (shp m) (fun j => at_ m j + eps) W3 (fun j Vj => proj1 (Vy j Vj))) as [J1 J2]. rewrite <- W5 in J1, J2.
  destruct (psnr_of_mse mx eps RMean u v AxNone w Hm He W1) as [z [Z1 [Z2 Z3]]].
  { intros j Vj. rewrite W2 in Vj. inversion Vj. exact J1. }
  exists z. split; auto. split; [congruence|]. rewrite Z3 by (rewrite W2; constructor). rewrite Sy.
  assert (V : bs (shp m) (at_ y) = IZR (zprod (shp m)) * (20 * log10 mx) + (- 10 / ln 10) * bs (shp m) (fun j => ln (at_ m j + eps))).
  { transitivity (bs (shp m) (fun j => 20 * log10 mx + (- 10 / ln 10) * ln (at_ m j + eps))).
    - apply bsum_ext. intros j Vj. destruct (Vy j Vj) as [Q ->]. rewrite <- psnr_value by auto. unfold log10. pose proof ln10_pos. generalize (ln (at_ m j + eps)). intros q.
      assert (B : forall l t : R, 20 * (l / ln 10) - 10 * (t / ln 10) = 20 * (l / ln 10) + - 10 / ln 10 * t) by (intros; field; lra). exact (B (ln mx) q).
    - etransitivity; [apply (bsum_add RF (shp m) (fun _ => 20 * log10 mx) (fun j => (- 10 / ln 10) * ln (at_ m j + eps)))|].
      rewrite (bsum_const RF (shp m) (20 * log10 mx) W3), RF_ofZ. apply f_equal. apply (bsum_mul RF (shp m) (- 10 / ln 10) (fun j => ln (at_ m j + eps))). }
  rewrite V, <- psnr_value by auto. set (n := IZR (zprod (shp m))) in *. set (b := bs (shp m) (fun j => ln (at_ m j + eps))) in *. unfold log10.
  pose proof ln10_pos as L10.
  assert (B : forall l b : R, (n * (20 * (l / ln 10)) + - 10 / ln 10 * b) / n = 20 * (l / ln 10) - 10 * ((b / n) / ln 10)) by (intros; field; lra).
  eapply Rle_trans; [|right; symmetry; exact (B (ln mx) b)].
  apply Rplus_le_compat_l, Ropp_le_contravar, Rmult_le_compat_l; [lra|]. apply Rmult_le_compat_r; [left; now apply Rinv_0_lt_compat|].
  apply Rmult_le_reg_r with n; [lra|]. assert (D : forall q : R, q / n * n = q) by (intros; field; lra). rewrite (D b). lra.
Qed.
