(** Gaussian kernels of order 0. *)
From Coq Require Import Reals Lra.
From Verif Require Export GaussModel BaseLemmas.
Open Scope Z_scope.

(** The unnormalised Gaussian. *)
Definition bell (sigma x : R) : R := exp (- (x * x) / (2 * (sigma * sigma)))%R.
(** Its sum over a kernel of ks taps centred at tap ks/2. *)
Definition bell_sum (ks : Z) (sigma : R) : R := rsum ks (fun i => bell sigma (IZR (i - ks / 2))).

Lemma bell_pos sigma x : (0 < bell sigma x)%R.
Proof. apply exp_pos. Qed.
Lemma bell_even sigma x : bell sigma (- x)%R = bell sigma x.
Proof. unfold bell. f_equal. f_equal. ring. Qed.
Lemma sigma2_ne (sigma : R) : sigma <> 0%R -> (sigma * sigma)%R <> 0%R.
Proof. intros H E. apply Rmult_integral in E. tauto. Qed.
Lemma sigma2_pos (sigma : R) : sigma <> 0%R -> (0 < sigma * sigma)%R.
Proof. intros H. pose proof (Rle_0_sqr sigma) as P. unfold Rsqr in P. pose proof (sigma2_ne sigma H). lra. Qed.
Lemma bell_code sigma v : sigma <> 0%R -> exp (- (1 / 2) / (sigma * sigma) * IZR (v ^ 2))%R = bell sigma (IZR v).
Proof. intros H. unfold bell. f_equal. rewrite Z.pow_2_r, mult_IZR. field. auto. Qed.

Lemma np_sum_range n (f : Z -> R) : np_sum (map f (zrange n)) = rsum n f.
Proof. exact (fold_zrange RF n f). Qed.
Lemma rev_zseq {A} (f : Z -> A) lo n : rev (map f (zseq lo n)) = map (fun i => f (lo + Z.of_nat n - 1 - i)) (zseq 0 n).
Proof.
  revert lo. induction n as [|n IH]; intros lo; [reflexivity|].
  assert (E : zseq 0 (S n) = zseq 0 n ++ [Z.of_nat n]).
  { replace (S n) with (n + 1)%nat by lia. rewrite zseq_app. cbn [zseq]. f_equal. }
  rewrite E, map_app. cbn [zseq map rev]. rewrite IH. f_equal; [|do 2 f_equal; lia].
  apply map_ext. intros i. f_equal. lia.
Qed.
Lemma zseq_shift lo n : zseq lo n = map (fun i => lo + i) (zseq 0 n).
Proof.
  assert (G : forall n lo b, zseq (b + lo) n = map (fun i => b + i) (zseq lo n)).
  { clear. induction n as [|n IH]; intros lo b; [reflexivity|]. cbn [zseq map]. f_equal. rewrite <- IH. f_equal. lia. }
  rewrite <- G. f_equal. lia.
Qed.
Lemma bell_sum_pos ks sigma : 1 <= ks -> (0 < bell_sum ks sigma)%R.
Proof. intros H. apply rsum_pos; [lia|]. intros. apply bell_pos. Qed.

(** The code's array x = [-r..r], reversed. *)
Lemma arange_len r : 0 <= r -> Z.to_nat (r + 1 - - r) = Z.to_nat (2 * r + 1).
Proof. intros. f_equal. lia. Qed.
Lemma rev_range {A} (f : Z -> A) r : 0 <= r -> rev (map f (np_arange (- r) (r + 1))) = map (fun i => f (r - i)) (zrange (2 * r + 1)).
Proof.
  intros Hr. unfold np_arange, zrange. rewrite arange_len by auto. rewrite rev_zseq. apply map_ext. intros i. f_equal. lia.
Qed.
Lemma phi_sum sigma r : sigma <> 0%R -> 0 <= r ->
  np_sum (map (fun v => exp (- (1 / 2) / (sigma * sigma) * IZR (v ^ 2)))%R (np_arange (- r) (r + 1))) = bell_sum (2 * r + 1) sigma.
Proof.
  intros H Hr. unfold np_arange. rewrite arange_len by auto. rewrite zseq_shift, map_map.
  change (zseq 0 (Z.to_nat (2 * r + 1))) with (zrange (2 * r + 1)). rewrite np_sum_range. unfold bell_sum.
  replace ((2 * r + 1) / 2) with r by (rewrite Z.mul_comm, Z.div_add_l by lia; cbn; lia).
  apply rsum_ext. intros i Hi. rewrite bell_code by auto. do 2 f_equal. lia.
Qed.

Lemma gk1d_order0 sigma r : sigma <> 0%R -> 0 <= r ->
  gaussian_kernel1d sigma 0 r = Ok (map (fun v => bell sigma (IZR v) / bell_sum (2 * r + 1) sigma)%R (np_arange (- r) (r + 1))).
Proof.
  intros H Hr. unfold gaussian_kernel1d. cbn [Z.ltb Z.eqb Z.compare].
  destruct (Req_EM_T (sigma * sigma) 0) as [E|_]; [now apply sigma2_ne in E|]. rewrite phi_sum by auto. rewrite map_map. f_equal.
  apply map_ext. intros v. now rewrite bell_code.
Qed.

Lemma zrange_prefix n m : 0 <= m <= n -> firstn (Z.to_nat m) (zrange n) = zrange m.
Proof.
  intros H. unfold zrange. replace (Z.to_nat n) with (Z.to_nat m + Z.to_nat (n - m))%nat by lia. rewrite zseq_app.
  rewrite firstn_app, zseq_length, Nat.sub_diag, firstn_O, app_nil_r. apply firstn_all2. rewrite zseq_length. lia.
Qed.

Theorem gauss_formula ks sigma : 1 <= ks -> sigma <> 0%R ->
  gaussian_kernel_1d ks sigma 0 = Ok (map (fun i => bell sigma (IZR (i - ks / 2)) / bell_sum ks sigma)%R (zrange ks)).
Proof.
  intros Hk Hs. unfold gaussian_kernel_1d. assert (Hr : 0 <= ks / 2) by (apply Z.div_pos; lia). set (r := ks / 2) in *.
  rewrite gk1d_order0 by auto. cbn [bind]. rewrite rev_range by auto. rewrite map_length, zrange_length.
  assert (B : forall i, bell sigma (IZR (r - i)) = bell sigma (IZR (i - r))).
  { intros i. rewrite <- bell_even, <- opp_IZR. do 2 f_equal. lia. }
  pose proof (Z.div_mod ks 2 ltac:(lia)) as D. fold r in D. pose proof (Z.mod_pos_bound ks 2 ltac:(lia)).
  destruct (Z.eqb_spec (Z.of_nat (Z.to_nat (2 * r + 1))) ks) as [E|E].
  - replace (2 * r + 1) with ks by lia. f_equal. apply map_ext. intros i. now rewrite B.
  - assert (E2 : ks = 2 * r) by lia. unfold clampi. destruct (Z.ltb_spec ks 0); [lia|].
    replace (Z.to_nat (Z.max 0 (Z.min (Z.of_nat (Z.to_nat (2 * r + 1))) ks))) with (Z.to_nat ks) by lia.
    rewrite firstn_map, zrange_prefix by lia. cbn [Z.eqb]. f_equal. rewrite map_map. apply map_ext. intros i. rewrite B.
    rewrite np_sum_range. pose proof (bell_sum_pos (2 * r + 1) sigma ltac:(lia)) as P1. pose proof (bell_sum_pos ks sigma Hk) as P2.
    assert (Q : rsum ks (fun i0 => (bell sigma (IZR (r - i0)) / bell_sum (2 * r + 1) sigma)%R) = (bell_sum ks sigma / bell_sum (2 * r + 1) sigma)%R).
    { unfold Rdiv. rewrite (rsum_mul_r ks (/ bell_sum (2 * r + 1) sigma)%R (fun i0 => bell sigma (IZR (r - i0)))). f_equal.
      unfold bell_sum. fold r. apply rsum_ext. intros. apply B. }
    rewrite Q. field. lra.
Qed.

Lemma bell_mono sigma x y : sigma <> 0%R -> (0 <= x < y)%R -> (bell sigma y < bell sigma x)%R.
Proof.
  intros H G. unfold bell. apply exp_increasing. pose proof (sigma2_pos sigma H) as P. unfold Rdiv.
  apply Rmult_lt_compat_r; [apply Rinv_0_lt_compat; lra|]. assert (x * x < y * y)%R by nra. lra.
Qed.

(** C41. *)
Theorem gauss_kernel ks sigma : 1 <= ks -> sigma <> 0%R ->
  exists k, gaussian_kernel_1d ks sigma 0 = Ok k /\ Z.of_nat (length k) = ks /\
    (forall v, In v k -> (0 < v)%R) /\ fold_right Rplus 0%R k = 1%R /\
    (forall i, 0 <= i < ks -> nth (Z.to_nat i) k 0%R = (bell sigma (IZR (i - ks / 2)) / bell_sum ks sigma)%R) /\
    (Z.odd ks = true -> forall i, 0 <= i < ks -> nth (Z.to_nat i) k 0%R = nth (Z.to_nat (ks - 1 - i)) k 0%R) /\
    (forall i j, 0 <= i < j -> j <= ks / 2 -> j < ks -> (nth (Z.to_nat i) k 0 < nth (Z.to_nat j) k 0)%R) /\
    (forall i j, ks / 2 <= i < j -> j < ks -> (nth (Z.to_nat j) k 0 < nth (Z.to_nat i) k 0)%R).
Proof.
  intros Hk Hs. pose proof (bell_sum_pos ks sigma Hk) as P. eexists. split; [apply gauss_formula; auto|].
  set (g := fun i => (bell sigma (IZR (i - ks / 2)) / bell_sum ks sigma)%R).
  assert (N : forall i, 0 <= i < ks -> nth (Z.to_nat i) (map g (zrange ks)) 0%R = g i).
  { intros i Hi. rewrite (nth_indep _ 0%R (g 0)) by (rewrite map_length, zrange_length; lia). rewrite map_nth, nth_zrange by lia. f_equal. lia. }
  split; [rewrite map_length, zrange_length; lia|]. split.
  { intros v Hv. apply in_map_iff in Hv as (i & <- & _). apply Rdiv_lt_0_compat; auto. apply bell_pos. }
  split.
  { change (np_sum (map g (zrange ks)) = 1%R). rewrite np_sum_range. unfold g, Rdiv.
    rewrite (rsum_mul_r ks (/ bell_sum ks sigma)%R (fun i => bell sigma (IZR (i - ks / 2)))).
    fold (bell_sum ks sigma). field. lra. }
  split; [intros i Hi; rewrite N by auto; reflexivity|]. split.
  { intros Ho i Hi. rewrite !N by lia. unfold g. f_equal. rewrite <- bell_even, <- opp_IZR. do 2 f_equal.
    rewrite Zodd_mod in Ho. apply Zeq_bool_eq in Ho. pose proof (Z.div_mod ks 2 ltac:(lia)). lia. }
  pose proof (Z.div_lt_upper_bound ks 2 (ks + 1)) as DU. split.
  - intros i j Hi Hj Hj'. rewrite !N by lia. unfold g. apply Rmult_lt_compat_r; [now apply Rinv_0_lt_compat|].
    rewrite <- (bell_even sigma (IZR (i - ks / 2))), <- (bell_even sigma (IZR (j - ks / 2))), <- !opp_IZR. apply bell_mono; auto.
    split; [apply IZR_le; lia|apply IZR_lt; lia].
  - intros i j Hi Hj. assert (0 <= ks / 2) by (apply Z.div_pos; lia). rewrite !N by lia. unfold g. apply Rmult_lt_compat_r; [now apply Rinv_0_lt_compat|].
    apply bell_mono; auto. split; [apply IZR_le; lia|apply IZR_lt; lia].
Qed.
