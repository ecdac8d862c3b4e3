(** GaussianGrad and LaplacianOfGaussian (C47). *)
From Coq Require Import Reals Lra.
From Verif Require Export GaussDeriv EdgePropLemmas.
Open Scope Z_scope.

Lemma Rtrunc_ok : @truncates RF Rtrunc.
Proof.
  intros v. unfold integer_part, Rtrunc. rewrite !RF_ofZ, !RF_le, !RF_lt. destruct (Rle_dec 0 v) as [H|H].
  - left. pose proof (Int_part_bounds v) as B. rewrite plus_IZR. split; [|lra].
    assert (IZR (-1) < IZR (Int_part v))%R by lra. apply lt_IZR in H0. lia.
  - right. pose proof (Int_part_bounds (- v)) as B. rewrite minus_IZR, opp_IZR. split; [|lra].
    assert (IZR (-1) < IZR (Int_part (- v)))%R by lra. apply lt_IZR in H0. lia.
Qed.
(** Integer parts, in plain terms. *)
Lemma Rtrunc_pos v z : 0 <= z -> (IZR z <= v < IZR z + 1)%R -> Rtrunc v = z.
Proof. intros Hz H. unfold Rtrunc. apply IZR_le in Hz. destruct (Rle_dec 0 v); [|lra]. now apply Int_part_unique. Qed.
Lemma Rtrunc_neg v z : z < 0 -> (IZR z - 1 < v <= IZR z)%R -> Rtrunc v = z.
Proof.
  intros Hz H. unfold Rtrunc. apply IZR_lt in Hz. destruct (Rle_dec 0 v); [lra|].
  rewrite (Int_part_unique (- v) (- z)); [lia|]. rewrite opp_IZR. lra.
Qed.
Lemma Rtrunc_pos_inv v z : 0 < z -> Rtrunc v = z -> (IZR z <= v < IZR z + 1)%R.
Proof.
  intros Hz H. apply IZR_lt in Hz. pose proof (Rtrunc_ok v) as B. rewrite H in B. unfold integer_part in B. rewrite !RF_ofZ, !RF_le, !RF_lt in B.
  rewrite plus_IZR in B. destruct B as [B|[B _]]; [lra|]. apply IZR_le in B. lra.
Qed.
Lemma Rtrunc_neg_inv v z : z < 0 -> Rtrunc v = z -> (IZR z - 1 < v <= IZR z)%R.
Proof.
  intros Hz H. apply IZR_lt in Hz. pose proof (Rtrunc_ok v) as B. rewrite H in B. unfold integer_part in B. rewrite !RF_ofZ, !RF_le, !RF_lt in B.
  rewrite minus_IZR in B. destruct B as [[B _]|B]; [|lra]. apply IZR_le in B. lra.
Qed.

Lemma gg_init_edge ks sigma n k0 kn pd shared :
  gaussian_kernel_1d ks sigma 0 = Ok k0 -> gaussian_kernel_1d ks sigma n = Ok kn ->
  gg_init (NItem ks) (NItem sigma) None None true n pd shared = @edge_init RF (NItem kn) (NItem k0) true pd shared.
Proof. intros H0 Hn. unfold gg_init, nds_apply2. cbn [agg_index_shape agg_shapes nds_ishape bind nds_get]. rewrite H0. cbn [bind]. rewrite Hn. reflexivity. Qed.

Lemma wsum_np l : @wsum RF l = np_sum l. Proof. reflexivity. Qed.
Lemma smoothers_id (k0 : list R) n : np_sum k0 = 1%R -> @smoothers RF true (repeat k0 n) = repeat k0 n.
Proof.
  intros H. unfold smoothers. induction n as [|n IH]; [reflexivity|]. cbn [repeat map]. rewrite IH. f_equal.
  rewrite wsum_np, H. rewrite <- (map_id k0) at 2. apply map_ext. intros v. cbn [fdiv RF]. field.
Qed.

Lemma gg_ok ks sigma n : 1 <= ks -> sigma <> 0%R -> 0 <= n ->
  exists k0 kn, gaussian_kernel_1d ks sigma 0 = Ok k0 /\ gaussian_kernel_1d ks sigma n = Ok kn /\
    klen k0 = ks /\ klen kn = ks /\ np_sum k0 = 1%R /\
    forall pd shared, exists e, gg_init (NItem ks) (NItem sigma) None None true n pd shared = Ok e.
Proof.
  intros Hk Hs Hn. destruct (gauss_kernel ks sigma Hk Hs) as [k0 [A1 [A2 [A3 [A4 _]]]]].
  assert (exists kn, gaussian_kernel_1d ks sigma n = Ok kn /\ Z.of_nat (length kn) = ks) as [kn [B1 B2]].
  { destruct (Z.eq_dec n 0) as [->|]; [eauto|]. destruct (gauss_deriv ks sigma n Hk Hs) as [k [K1 [K2 _]]]; [lia|]. eauto. }
  exists k0, kn. do 4 (split; auto). split; auto. intros pd shared. rewrite (gg_init_edge _ _ _ _ _ _ _ A1 B1).
  unfold edge_init. cbn [nds_map]. unfold reweight.
  destruct k0 as [|v k0]; [cbn in A2; lia|].
  assert (Ht : (@fleb RF (lsum (v :: k0)) f0 && @fleb RF f0 (lsum (v :: k0)))%bool = false).
  { change (@lsum RF (v :: k0)) with (np_sum (v :: k0)). apply nonzero_test. change (np_sum (v :: k0)) with (fold_right Rplus 0%R (v :: k0)). rewrite A4. cbn [f0 RF]. lra. }
  rewrite Ht. cbn [bind]. destruct pd; eexists; reflexivity.
Qed.

Section G.
Variables (fuel : nat) (junk : list Z -> R).
Theorem gg_component ks sigma n k0 kn p m shared (e : edge_filter RF) (x : tensor RF) ax al a :
  1 <= ks -> sigma <> 0%R -> gaussian_kernel_1d ks sigma 0 = Ok k0 -> gaussian_kernel_1d ks sigma n = Ok kn -> klen kn = ks ->
  exact_path (F := RF) Rtrunc kn ->
  gg_init (NItem ks) (NItem sigma) None None true n (Some p) shared = Ok e ->
  edge_image (F := RF) fuel p m x ax al ks -> m <> MPeriodize -> In a al ->
  exists w xp c ws cp y,
    is_same_width ks 1 (nth a (shp x) 0) w /\
    padder_forward (F := RF) fuel junk (with_width p [w]) x (AxInt (Z.of_nat a)) = Ok xp /\
    shp c = shp x /\
    (forall j, valid (shp x) j -> at_ c j = rsum ks (fun q => nth (Z.to_nat q) kn 0 * at_ xp (upd a (nth a j 0%Z + q)%Z j))%R) /\
    length ws = length (without a al) /\
    (forall r, (r < length (without a al))%nat -> is_same_width ks 1 (nth (nth r (without a al) 0%nat) (shp x) 0) (nth r ws (0, 0))) /\
    padder_forward (F := RF) fuel junk (with_width p ws) c (AxSeq (map Z.of_nat (without a al))) = Ok cp /\
    snd (component (F := RF) Rtrunc fuel junk e x (AxInt (Z.of_nat a)) (AxSeq (map Z.of_nat al))) = Ok y /\ shp y = shp x /\
    forall j, valid (shp x) j ->
      at_ y j = correlation (F := RF) (without a al) (repeat k0 (length (without a al))) (repeat 1 (length (without a al))) cp j.
Proof.
  intros Hk Hs E0 En Ln EP HI EI Hm Ha. rewrite (gg_init_edge _ _ _ _ _ _ _ E0 En) in HI. pose proof EI as [[A1 A2 A3] _ _ _ _ _].
  assert (L0 : klen k0 = ks /\ np_sum k0 = 1%R).
  { destruct (gauss_kernel ks sigma Hk Hs) as [k [K1 [K2 [_ [K4 _]]]]]. rewrite E0 in K1. inversion K1; subst. auto. }
  destruct L0 as [L0 S0]. set (N := length (without a al)).
  pose proof (edge_image_one RF fuel p m x ax al ks a kn EI Ha ltac:(lia)) as SC.
  assert (SI : @smoothers RF true (repeat k0 N) = repeat k0 N) by (now apply smoothers_id).
  pose proof (edge_image_rest RF fuel p m x ax al ks a (repeat k0 N) EI Ha ltac:(lia)
      (fun k Hk => ltac:(apply repeat_spec in Hk; subst; lia))) as SC2. fold N in SC2. rewrite <- SI in SC2.
  assert (NP : forall j, ~ In (@MPeriodize RF) (repeat m j)) by (intros j H; apply repeat_spec in H; congruence).
  destruct (component_exact RF Rtrunc fuel junk kn (NItem k0) (repeat k0 N) true p shared e x (AxInt (Z.of_nat a)) (AxSeq (map Z.of_nat al)) a al [m] (repeat m N))
    as [w [xp [c [ws [cp [y [H1 [H2 [H3 [H4 [H5 [H6 [H7 [H8 [H9 H10]]]]]]]]]]]]]]]; auto.
  - apply Rtrunc_ok.
  - intros ->. cbn in Ln. lia.
  - apply check_one.
  - apply check_axes_seq_nat; auto.
  - apply (NP 1%nat).
  - rewrite SI in *. exists w, xp, c, ws, cp, y. rewrite Ln in *. split; auto. split; auto. split; auto. split.
    { intros j V. rewrite H4 by auto. reflexivity. }
    split; auto. split.
    { intros r Hr. specialize (H6 r Hr). fold N in H6. assert (E : klen (nth r (repeat k0 N) []) = ks) by (rewrite nth_repeat_lt; auto).
      exact (eq_ind _ (fun v => is_same_width v 1 _ _) H6 _ E). }
    split; auto. split; auto. specialize (H9 (NP N)). split; auto. intros j V. apply H10. congruence.
Qed.

(** LaplacianOfGaussian adds the components. *)
Theorem log_sums ks sigma k0 k2 p m shared (e : edge_filter RF) (x : tensor RF) ax al :
  1 <= ks -> sigma <> 0%R -> gaussian_kernel_1d ks sigma 0 = Ok k0 -> gaussian_kernel_1d ks sigma 2 = Ok k2 ->
  exact_path (F := RF) Rtrunc k2 ->
  log_init (NItem ks) (NItem sigma) (Some p) shared = Ok e ->
  edge_image (F := RF) fuel p m x ax al ks -> m <> MPeriodize -> (2 <= length al)%nat ->
  exists (cs : nat -> tensor RF) y,
    snd (log_forward fuel junk e x ax) = Ok y /\ shp y = shp x /\
    (forall j, valid (shp x) j -> at_ y j = @axis_sum RF (fun a => at_ (cs a) j) al) /\
    forall a, In a al -> exists w xp c ws cp,
      is_same_width ks 1 (nth a (shp x) 0) w /\
      padder_forward (F := RF) fuel junk (with_width p [w]) x (AxInt (Z.of_nat a)) = Ok xp /\
      shp c = shp x /\
      (forall j, valid (shp x) j -> at_ c j = rsum ks (fun q => nth (Z.to_nat q) k2 0 * at_ xp (upd a (nth a j 0%Z + q)%Z j))%R) /\
      length ws = length (without a al) /\
      (forall r, (r < length (without a al))%nat -> is_same_width ks 1 (nth (nth r (without a al) 0%nat) (shp x) 0) (nth r ws (0, 0))) /\
      padder_forward (F := RF) fuel junk (with_width p ws) c (AxSeq (map Z.of_nat (without a al))) = Ok cp /\
      shp (cs a) = shp x /\
      forall j, valid (shp x) j ->
        at_ (cs a) j = correlation (F := RF) (without a al) (repeat k0 (length (without a al))) (repeat 1 (length (without a al))) cp j.
Proof.
  intros Hk Hs E0 E2 EP HI EI Hm Hl. assert (L2 : klen k2 = ks).
  { destruct (gauss_deriv ks sigma 2 Hk Hs) as [k [K1 [K2 _]]]; [lia|]. rewrite E2 in K1. inversion K1; subst. auto. }
  pose proof (fun a Ha => gg_component ks sigma 2 k0 k2 p m shared e x ax al a Hk Hs E0 E2 L2 EP HI EI Hm Ha) as Comp.
  set (cs := fun a => match snd (component (F := RF) Rtrunc fuel junk e x (AxInt (Z.of_nat a)) (AxSeq (map Z.of_nat al))) with Ok t => t | Err _ => x end).
  pose proof EI as [[A1 A2 A3] _ _ _ _ _]. unfold log_init in HI. rewrite (gg_init_edge _ _ _ _ _ _ _ E0 E2) in HI.
  destruct (magnitude_ok RF Rtrunc fuel junk k2 (NItem k0) true (Some p) shared e x ax al 0%R P1 cs (shp x) HI A1 Hl) as [y [Y1 [Y2 Y3]]].
  { intros a Ha. destruct (Comp a Ha) as [w [xp [c [ws [cp [y [_ [_ [_ [_ [_ [_ [_ [Q1 [Q2 _]]]]]]]]]]]]]]]. unfold cs. rewrite Q1. auto. }
  { intros _ ->. unfold klen in L2. simpl in L2. lia. }
  exists cs, y. split; [exact Y1|]. split; auto. split.
  { intros j V. rewrite Y3 by auto. cbn [take_root raise_to fadd RF]. apply Rplus_0_r. }
  intros a Ha. destruct (Comp a Ha) as [w [xp [c [ws [cp [y' [B1 [B2 [B3 [B4 [B5 [B6 [B7 [Q1 [Q2 Q3]]]]]]]]]]]]]]]. exists w, xp, c, ws, cp.
  do 7 (split; auto). unfold cs. rewrite Q1. auto.
Qed.
End G.

(** ** When the fast path replaces the kernel (ks = 3 only) *)
Lemma rsum_2 f : rsum 2 f = (f 0%Z + f 1%Z)%R.
Proof. change (0 + f 0%Z + f 1%Z = f 0%Z + f 1%Z)%R. ring. Qed.
Lemma rsum_3 f : rsum 3 f = (f 0%Z + f 1%Z + f 2%Z)%R.
Proof. change (0 + f 0%Z + f 1%Z + f 2%Z = f 0%Z + f 1%Z + f 2%Z)%R. ring. Qed.

Definition half_width (sigma : R) : R := exp (- (1 / (2 * (sigma * sigma))))%R.
Lemma bell_sum_3 sigma : sigma <> 0%R -> bell_sum 3 sigma = (1 + 2 * half_width sigma)%R.
Proof.
  intros H. pose proof (sigma2_ne sigma H). unfold bell_sum. rewrite rsum_3. change (3 / 2) with 1.
  change (0 - 1) with (-1). change (1 - 1) with 0. change (2 - 1) with 1.
  replace (bell sigma (IZR 0)) with 1%R. 2:{ unfold bell. replace (- (0 * 0) / (2 * (sigma * sigma)))%R with 0%R by (field; auto). now rewrite exp_0. }
  assert (E : forall t, (t * t = 1)%R -> bell sigma t = half_width sigma).
  { intros t Ht. unfold bell, half_width. rewrite Ht. f_equal. field. auto. }
  rewrite !E by ring. ring.
Qed.
Lemma kernel3_1 sigma : sigma <> 0%R ->
  gaussian_kernel_1d 3 sigma 1 = Ok [(- (half_width sigma / (sigma * sigma)) / (1 + 2 * half_width sigma)); 0; (half_width sigma / (sigma * sigma) / (1 + 2 * half_width sigma))]%R.
Proof.
  intros H. pose proof (sigma2_ne sigma H). rewrite gauss_deriv_formula by (auto; lia). change (taps 3) with 3. change (zrange 3) with [0; 1; 2]. cbn [map].
  change (3 / 2) with 1. change (1 - 0) with 1. change (1 - 1) with 0. change (1 - 2) with (-1). change (Z.to_nat 1) with 1%nat.
  unfold gauss_seq, poly. change (Z.of_nat 1 + 1) with 2. rewrite !rsum_2, bell_sum_3 by auto. change (Z.to_nat 0) with 0%nat. change (Z.to_nat 1) with 1%nat.
  assert (E : forall t, (t * t = 1)%R -> bell sigma t = half_width sigma).
  { intros t Ht. unfold bell, half_width. rewrite Ht. f_equal. field. auto. }
  rewrite (E (IZR 1)), (E (IZR (-1))) by ring. cbn [herm pow]. change (0 + 1 =? 0) with false. change (0 - 1 =? 0) with false. change (1 + 1 =? 0) with false. change (1 - 1 =? 0) with true.
  cbv iota. assert (0 < half_width sigma)%R by apply exp_pos. f_equal. f_equal; [field; repeat split; auto; lra|]. f_equal; [|f_equal].
  - field. repeat split; auto; lra.
  - field. repeat split; auto; lra.
Qed.
Lemma kernel3_2 sigma : sigma <> 0%R -> let u := (1 / (sigma * sigma))%R in
  gaussian_kernel_1d 3 sigma 2 = Ok [((u * u - u) * half_width sigma / (1 + 2 * half_width sigma)); - u / (1 + 2 * half_width sigma); (u * u - u) * half_width sigma / (1 + 2 * half_width sigma)]%R.
Proof.
  intros H u. pose proof (sigma2_ne sigma H). rewrite gauss_deriv_formula by (auto; lia). change (taps 3) with 3. change (zrange 3) with [0; 1; 2]. cbn [map].
  change (3 / 2) with 1. change (1 - 0) with 1. change (1 - 1) with 0. change (1 - 2) with (-1). change (Z.to_nat 2) with 2%nat.
  unfold gauss_seq, poly. change (Z.of_nat 2 + 1) with 3. rewrite !rsum_3, bell_sum_3 by auto. change (Z.to_nat 0) with 0%nat. change (Z.to_nat 1) with 1%nat. change (Z.to_nat 2) with 2%nat.
  assert (E : forall t, (t * t = 1)%R -> bell sigma t = half_width sigma).
  { intros t Ht. unfold bell, half_width. rewrite Ht. f_equal. field. auto. }
  rewrite (E (IZR 1)), (E (IZR (-1))) by ring.
  assert (H0' : herm (sigma * sigma) 2 0 = (- u)%R).
  { cbn [herm]. change (0 + 1 + 1 =? 0) with false. change (0 + 1 - 1 =? 0) with true. change (0 - 1 - 1 =? 0) with false. change (0 - 1 + 1) with 0. change (0 =? 0) with true.
    change (0 + 1) with 1. cbv iota. unfold u. field. auto. }
  assert (H1' : herm (sigma * sigma) 2 1 = 0%R) by (apply herm_parity; reflexivity).
  assert (H2' : herm (sigma * sigma) 2 2 = (u * u)%R).
  { cbn [herm]. change (2 + 1 + 1 =? 0) with false. change (2 + 1 - 1 =? 0) with false. change (2 - 1 - 1 =? 0) with true. change (2 - 1 + 1 =? 0) with false.
    cbv iota. unfold u. field. auto. }
  rewrite H0', H1', H2'. cbn [pow]. assert (0 < half_width sigma)%R by apply exp_pos.
  assert (B0 : bell sigma 0 = 1%R). { unfold bell. replace (- (0 * 0) / (2 * (sigma * sigma)))%R with 0%R by (field; auto). now rewrite exp_0. }
  rewrite B0. f_equal. f_equal; [field; repeat split; auto; lra|]. f_equal; [field; repeat split; auto; lra|]. f_equal. field; repeat split; auto; lra.
Qed.

Lemma exp_half v : (0 < v)%R -> (v - 2 < exp (v / 2))%R.
Proof.
  intros H. pose proof (exp_ineq1 (v / 4) ltac:(lra)) as B. replace (v / 2)%R with (v / 4 + v / 4)%R by field. rewrite exp_plus.
  assert ((1 + v / 4) * (1 + v / 4) < exp (v / 4) * exp (v / 4))%R by (apply Rmult_le_0_lt_compat; lra).
  pose proof (Rle_0_sqr (v / 4 - 1)) as Q. unfold Rsqr in Q. lra.
Qed.
(** First derivatives never take the fast path. *)
Theorem order1_exact ks sigma k : 1 <= ks -> sigma <> 0%R -> gaussian_kernel_1d ks sigma 1 = Ok k -> exact_path Rtrunc k.
Proof.
  intros Hk Hs E. destruct (Z.eq_dec ks 3) as [->|N].
  - rewrite (kernel3_1 sigma Hs) in E. inversion E; subst k. clear E. left. cbn [map]. pose proof (sigma2_pos sigma Hs) as P. set (h := half_width sigma). set (u := (1 / (sigma * sigma))%R).
    assert (Hh : (0 < h)%R) by apply exp_pos. assert (Hu : (0 < u)%R) by (apply Rdiv_lt_0_compat; lra).
    assert (Hx : (h * u < 1 + 2 * h)%R -> (h / (sigma * sigma) / (1 + 2 * h) < 1)%R).
    { intros Q. apply (Rmult_lt_reg_r (1 + 2 * h)); [lra|]. replace (h / (sigma * sigma) / (1 + 2 * h) * (1 + 2 * h))%R with (h * u)%R by (unfold u; field; repeat split; auto; lra). lra. }
    assert (Hlt : (h / (sigma * sigma) / (1 + 2 * h) < 1)%R).
    { apply Hx. assert (Hi : (h * exp (u / 2) = 1)%R).
      { unfold h, half_width. rewrite <- exp_plus. replace (- (1 / (2 * (sigma * sigma))) + u / 2)%R with 0%R by (unfold u; field; repeat split; auto; lra). apply exp_0. }
      assert (Hb : (u - 2 < exp (u / 2) )%R).
      { now apply exp_half. }
      assert (h * (u - 2) < h * exp (u / 2))%R by (apply Rmult_lt_compat_l; auto). lra. }
    split; intros Q; injection Q as Q1 Q2 Q3.
    + apply Rtrunc_pos_inv in Q3; [|lia]. lra.
    + apply Rtrunc_pos_inv in Q1; [|lia]. assert (0 < h / (sigma * sigma))%R by (apply Rdiv_lt_0_compat; lra).
      assert (- (h / (sigma * sigma)) / (1 + 2 * h) < 0)%R; [|lra]. unfold Rdiv at 1. rewrite <- Ropp_mult_distr_l. 
      assert (0 < h / (sigma * sigma) * / (1 + 2 * h))%R by (apply Rmult_lt_0_compat; auto; apply Rinv_0_lt_compat; lra). lra.
  - apply exact_length. destruct (gauss_deriv ks sigma 1 Hk Hs) as [k' [K1 [K2 _]]]; [lia|]. rewrite E in K1. inversion K1; subst. intros Q. apply N. exact (f_equal Z.of_nat Q).
Qed.
(** Nor do kernels of other sizes. *)
Theorem other_sizes_exact ks sigma n k : 1 <= ks -> ks <> 3 -> sigma <> 0%R -> 1 <= n -> gaussian_kernel_1d ks sigma n = Ok k -> exact_path Rtrunc k.
Proof.
  intros Hk N Hs Hn E. apply exact_length. destruct (gauss_deriv ks sigma n Hk Hs) as [k' [K1 [K2 _]]]; [lia|]. rewrite E in K1. inversion K1; subst. intros Q. apply N. exact (f_equal Z.of_nat Q).
Qed.
(** Second derivatives of three taps: exactly the kernels whose taps truncate to 1, -2, 1. *)
Theorem order2_fast sigma k : sigma <> 0%R -> gaussian_kernel_1d 3 sigma 2 = Ok k ->
  (map Rtrunc k = [1; -2; 1] <-> (1 <= nth 0 k 0 < 2 /\ -3 < nth 1 k 0 <= -2)%R) /\ map Rtrunc k <> [-1; 0; 1].
Proof.
  intros Hs E. rewrite (kernel3_2 sigma Hs) in E. inversion E; subst k. clear E. cbn [map nth]. set (a := ((_ - _) * _ / _)%R). set (b := (- _ / _)%R).
  split; [split|].
  - intros Q. injection Q as Q1 Q2 _. apply Rtrunc_pos_inv in Q1; [|lia]. apply Rtrunc_neg_inv in Q2; [|lia]. lra.
  - intros [Q1 Q2]. rewrite (Rtrunc_pos a 1), (Rtrunc_neg b (-2)); auto; try lia; lra.
  - intros Q. injection Q as Q1 _ Q3. congruence.
Qed.

(** ** sigma = 0.55 *)
Lemma exp_double x l : (0 <= l <= exp x)%R -> (l * l <= exp (2 * x))%R.
Proof. intros H. replace (2 * x)%R with (x + x)%R by ring. rewrite exp_plus. nra. Qed.
Lemma half_width_055 : (1824 / 10000 <= half_width (11 / 20) <= 31 / 100)%R.
Proof.
  assert (E : half_width (11 / 20) = exp (- (200 / 121))%R) by (unfold half_width; f_equal; field). rewrite E. split.
  - assert (B0 : (0 <= 9483 / 10000 <= exp (- (200 / 121) / 32))%R).
    { split; [lra|]. pose proof (exp_ineq1_le (- (200 / 121) / 32)). lra. }
    apply exp_double in B0. assert (B1 : (0 <= 8992 / 10000 <= exp (2 * (- (200 / 121) / 32)))%R) by lra.
    apply exp_double in B1. assert (B2 : (0 <= 8085 / 10000 <= exp (2 * (2 * (- (200 / 121) / 32))))%R) by lra.
    apply exp_double in B2. assert (B3 : (0 <= 6536 / 10000 <= exp (2 * (2 * (2 * (- (200 / 121) / 32)))))%R) by lra.
    apply exp_double in B3. assert (B4 : (0 <= 4271 / 10000 <= exp (2 * (2 * (2 * (2 * (- (200 / 121) / 32))))))%R) by lra.
    apply exp_double in B4. replace (- (200 / 121))%R with (2 * (2 * (2 * (2 * (2 * (- (200 / 121) / 32))))))%R by field. lra.
  - assert (B : (0 <= 18 / 10 <= exp (100 / 121))%R) by (split; [lra|]; pose proof (exp_ineq1_le (100 / 121)); lra).
    apply exp_double in B. assert (I : (exp (- (200 / 121)) * exp (2 * (100 / 121)) = 1)%R).
    { rewrite <- exp_plus. replace (- (200 / 121) + 2 * (100 / 121))%R with 0%R by field. apply exp_0. }
    pose proof (exp_pos (- (200 / 121))). nra.
Qed.
Lemma div_bounds n d lo hi : (0 < d)%R -> (lo * d <= n <= hi * d)%R -> (lo <= n / d <= hi)%R.
Proof.
  intros Hd [H1 H2]. split.
  - apply (Rmult_le_reg_r d); auto. replace (n / d * d)%R with n by (field; lra). auto.
  - apply (Rmult_le_reg_r d); auto. replace (n / d * d)%R with n by (field; lra). auto.
Qed.
Lemma kernel_055 : exists a b, gaussian_kernel_1d 3 (11 / 20) 2 = Ok [a; b; a] /\ (1 <= a <= 19 / 10)%R /\ (-26 / 10 <= b <= -204 / 100)%R.
Proof.
  assert (Hs : (11 / 20)%R <> 0%R) by lra. do 2 eexists. split; [apply (kernel3_2 _ Hs)|].
  set (h := half_width (11 / 20)). pose proof half_width_055 as B. fold h in B.
  replace (1 / (11 / 20 * (11 / 20)))%R with (400 / 121)%R by field. split; apply div_bounds; lra.
Qed.
Lemma trunc_055 k : gaussian_kernel_1d 3 (11 / 20) 2 = Ok k -> map Rtrunc k = [1; -2; 1].
Proof.
  intros E. apply (order2_fast (11 / 20)%R k); auto; [lra|]. destruct kernel_055 as [a [b [K [A B]]]]. rewrite E in K. inversion K; subst. cbn [nth]. lra.
Qed.

Lemma used_fast (F : ofield) (trunc : F -> Z) (k : list F) : map trunc k = [1; -2; 1] -> used_kernel trunc k = laplace_kernel.
Proof. intros H. unfold used_kernel. rewrite H. reflexivity. Qed.
(** An image with a single one. *)
Definition spot : tensor RF := mkT [3; 3] (fun i => if ((nth 0 i 0 =? 1) && (nth 1 i 0 =? 1))%bool then 1%R else 0%R).
(** What LaplacianOfGaussian should return on the 3 x 3 image without padding. *)
Definition true_log (k0 k2 : list R) (x : tensor RF) : R :=
  (rsum 3 (fun p => rsum 3 (fun q => nth (Z.to_nat p) k2 0 * nth (Z.to_nat q) k0 0 * at_ x [p; q])) +
   rsum 3 (fun p => rsum 3 (fun q => nth (Z.to_nat p) k0 0 * nth (Z.to_nat q) k2 0 * at_ x [p; q])))%R.
Lemma true_log_spot k0 k2 : true_log k0 k2 spot = (2 * (nth 1 k2 0 * nth 1 k0 0))%R.
Proof. unfold true_log. rewrite !rsum_3. cbn -[Rmult Rplus]. change (Pos.to_nat 1) with 1%nat. change (Pos.to_nat 2) with 2%nat. ring. Qed.

Theorem log_wrong fuel junk : exists k0 k2 (e : edge_filter RF) y,
  gaussian_kernel_1d 3 (11 / 20) 0 = Ok k0 /\ gaussian_kernel_1d 3 (11 / 20) 2 = Ok k2 /\
  log_init (NItem 3) (NItem (11 / 20)%R) None true = Ok e /\
  snd (log_forward fuel junk e spot AxNone) = Ok y /\ shp y = [1; 1] /\
  at_ y [0; 0] <> true_log k0 k2 spot.
Proof.
  assert (Hs : (11 / 20)%R <> 0%R) by lra.
  destruct (gg_ok 3 (11 / 20) 2 ltac:(lia) Hs ltac:(lia)) as [k0 [k2 [E0 [E2 [L0 [L2 [S0 I]]]]]]]. destruct (I None true) as [e He].
  exists k0, k2, e. pose proof (trunc_055 k2 E2) as TR.
  assert (U : used_kernel Rtrunc k2 = laplace_kernel) by exact (used_fast RF Rtrunc k2 TR).
  pose proof He as HI. rewrite (gg_init_edge _ _ _ _ _ _ _ E0 E2) in HI.
  destruct kernel_055 as [ka [kb [K2 [_ Kb]]]]. rewrite E2 in K2. inversion K2. subst k2. clear K2.
  destruct (gauss_kernel 3 (11 / 20) ltac:(lia) Hs) as [k0' [G1 [G2 [G3 _]]]]. rewrite E0 in G1. inversion G1; subst k0'. clear G1.
  destruct k0 as [|v0 [|v1 [|v2 [|v3 k0]]]]; try (cbn in G2; lia). assert (Hv : (0 < v1)%R) by (apply G3; cbn; auto).
  assert (Comp : forall a, (a < 2)%nat -> exists y, snd (component Rtrunc fuel junk e spot (AxInt (Z.of_nat a)) (AxSeq (map Z.of_nat [0%nat; 1%nat]))) = Ok y /\
     shp y = [1; 1] /\ at_ y [0; 0] = (-2 * v1)%R).
  { intros a Ha. assert (SI : @smoothers RF true [[v0; v1; v2]] = [[v0; v1; v2]]) by (apply (smoothers_id [v0; v1; v2] 1); exact S0).
    assert (LW : length (without a [0%nat; 1%nat]) = 1%nat) by (destruct a as [|[|a]]; [reflexivity|reflexivity|lia]).
    destruct (component_valid RF Rtrunc fuel junk [ka; kb; ka] (NItem [v0; v1; v2]) [[v0; v1; v2]] true true e spot (AxInt (Z.of_nat a)) (AxSeq (map Z.of_nat [0%nat; 1%nat])) a [0; 1]%nat)
      as [c [y [C1 [C2 [Y1 [Y2 [Y3 [Y4 Y5]]]]]]]]; auto.
    - discriminate.
    - apply check_one.
    - intros b [<-|[<-|[]]]; cbn; lia.
    - repeat constructor; cbn; intuition lia.
    - intros d Hd. destruct d as [|[|d]]; cbn in *; lia.
    - destruct a as [|[|a]]; cbn; lia.
    - rewrite LW. reflexivity.
    - rewrite SI. intros r Hr. rewrite LW in Hr. destruct r; [|lia]. destruct a as [|[|a]]; [cbn; lia|cbn; lia|lia].
    - exists y. rewrite SI, LW in *. split; auto.
      assert (Sy : shp y = [1; 1]).
      { destruct (shp y) as [|s0 [|s1 [|s2 l]]] eqn:Es; try (unfold ndim in Y2; rewrite Es in Y2; cbn in Y2; lia).
        specialize (Y3 0%nat ltac:(lia) ltac:(discriminate)). rewrite C1 in Y4.
        destruct a as [|[|a]]; [| |lia]; cbn in Y3.
        - specialize (Y4 0%nat ltac:(cbn; intuition lia)). cbn in Y4. congruence.
        - specialize (Y4 1%nat ltac:(cbn; intuition lia)). cbn in Y4. congruence. }
      split; auto. rewrite Y5 by (rewrite Sy; repeat constructor; lia).
      destruct a as [|[|a]]; [| |lia].
      + assert (V : forall q, 0 <= q < 3 -> valid (shp c) [0; q]) by (intros q Hq; rewrite C1; cbn; repeat constructor; lia).
        transitivity (rsum 3 (fun k => nth (Z.to_nat k) [v0; v1; v2] 0 * 1 * at_ c [0%Z; k])%R); [reflexivity|].
        rewrite rsum_3, !C2 by (apply V; lia). rewrite U. unfold laplace_kernel, ints. cbn [map]. rewrite !line_corr3, !RF_ofZ.
        change (Z.to_nat 0) with 0%nat. change (Z.to_nat 1) with 1%nat. change (Z.to_nat 2) with 2%nat. cbn -[Rmult Rplus]. ring.
      + assert (V : forall q, 0 <= q < 3 -> valid (shp c) [q; 0]) by (intros q Hq; rewrite C1; cbn; repeat constructor; lia).
        transitivity (rsum 3 (fun k => nth (Z.to_nat k) [v0; v1; v2] 0 * 1 * at_ c [k; 0%Z])%R); [reflexivity|].
        rewrite rsum_3, !C2 by (apply V; lia). rewrite U. unfold laplace_kernel, ints. cbn [map]. rewrite !line_corr3, !RF_ofZ.
        change (Z.to_nat 0) with 0%nat. change (Z.to_nat 1) with 1%nat. change (Z.to_nat 2) with 2%nat. cbn -[Rmult Rplus]. ring. }
  set (cs := fun a => match snd (component Rtrunc fuel junk e spot (AxInt (Z.of_nat a)) (AxSeq (map Z.of_nat [0%nat; 1%nat]))) with Ok t => t | Err _ => spot end).
  destruct (magnitude_ok RF Rtrunc fuel junk [ka; kb; ka] (NItem [v0; v1; v2]) true None true e spot AxNone [0; 1]%nat 0%R P1 cs [1; 1] HI) as [y [Y1 [Y2 Y3]]].
  { reflexivity. }
  { cbn; lia. }
  { intros a Ha. destruct (Comp a) as [t [T1 [T2 _]]]; [destruct Ha as [<-|[<-|[]]]; lia|]. unfold cs. rewrite T1. auto. }
  { discriminate. }
  exists y. do 3 (split; auto). split; [exact Y1|]. split; auto.
  rewrite Y3 by (repeat constructor; lia). cbn [take_root raise_to]. unfold axis_sum. cbn [map fold_right].
  destruct (Comp 0%nat ltac:(lia)) as [t0 [T1 [_ T2]]]. destruct (Comp 1%nat ltac:(lia)) as [t1 [T3 [_ T4]]].
  unfold cs. rewrite T1, T3, T2, T4, true_log_spot. cbn [fadd f0 RF nth]. intros Q.
  assert (Q2 : ((kb + 2) * v1 = 0)%R) by lra. apply Rmult_integral in Q2. lra.
Qed.
