(** Gaussian derivative kernels sample the derivatives of the normalised Gaussian. *)
From Coq Require Import Reals Lra.
From Verif Require Export GaussProofs.
Open Scope Z_scope.

(** g 0, g 1, ..., g n are successive derivatives, everywhere. *)
Definition derivatives (n : nat) (g : nat -> R -> R) : Prop :=
  forall k x, (k < n)%nat -> derivable_pt_lim (g k) x (g (S k) x).

Lemma deriv_ext f h x l : (forall y, f y = h y) -> derivable_pt_lim f x l -> derivable_pt_lim h x l.
Proof. intros E H eps He. destruct (H eps He) as [d Hd]. exists d. intros y Hy Hd'. rewrite <- !E. now apply Hd. Qed.
Lemma derivatives_unique n g h : derivatives n g -> derivatives n h -> (forall x, g 0%nat x = h 0%nat x) ->
  forall k x, (k <= n)%nat -> g k x = h k x.
Proof.
  intros G H E k. induction k as [|k IH]; intros x Hk; auto. apply (uniqueness_limite (h k) x); [|apply H; lia].
  apply (deriv_ext (g k)); [intros; apply IH; lia|apply G; lia].
Qed.

(** Coefficients of the polynomial factor of the k-th derivative. *)
Fixpoint herm (u : R) (k : nat) (i : Z) : R :=
  match k with
  | O => if i =? 0 then 1%R else 0%R
  | S k' => (IZR (i + 1) * herm u k' (i + 1) - herm u k' (i - 1) / u)%R
  end.
Lemma herm_out u k i : i < 0 \/ Z.of_nat k < i -> herm u k i = 0%R.
Proof.
  revert i. induction k as [|k IH]; intros i Hi; cbn [herm].
  - destruct (Z.eqb_spec i 0); auto. lia.
  - destruct (Z.eq_dec i (-1)) as [->|].
    + rewrite (IH (-1 - 1)) by lia. change (-1 + 1) with 0. unfold Rdiv. ring.
    + rewrite (IH (i + 1)), (IH (i - 1)) by lia. unfold Rdiv. ring.
Qed.
Definition poly (u : R) (N : Z) (k : nat) (x : R) : R := rsum N (fun j => herm u k j * x ^ Z.to_nat j)%R.

Lemma deriv_rsum n (f : Z -> R -> R) (f' : Z -> R) x : (forall j, 0 <= j < n -> derivable_pt_lim (f j) x (f' j)) ->
  derivable_pt_lim (fun y => rsum n (fun j => f j y)) x (rsum n f').
Proof.
  intros H. destruct (Z.le_gt_cases 0 n) as [Hn|Hn].
  - revert H. pattern n. apply natlike_ind; auto.
    + intros _. apply (deriv_ext (fun _ => 0%R)); [reflexivity|apply derivable_pt_lim_const].
    + intros m Hm IH H. unfold Z.succ. rewrite rsum_S by auto. apply (deriv_ext (fun y => rsum m (fun j => f j y) + f m y)%R).
      * intros y. now rewrite rsum_S.
      * apply (derivable_pt_lim_plus (fun y => rsum m (fun j => f j y)) (f m)); [apply IH; intros; apply H; lia|apply H; lia].
  - assert (Z0 : forall g, rsum n g = 0%R) by (intros; apply rsum_zero; intros; lia). rewrite Z0.
    apply (deriv_ext (fun _ => 0%R)); [intros; now rewrite Z0|apply derivable_pt_lim_const].
Qed.

Lemma bell_deriv sigma x : sigma <> 0%R -> derivable_pt_lim (bell sigma) x (- (x / (sigma * sigma)) * bell sigma x)%R.
Proof.
  intros H. pose proof (sigma2_ne sigma H) as S2. unfold bell.
  replace (- (x / (sigma * sigma)) * exp (- (x * x) / (2 * (sigma * sigma))))%R with
    (exp (- (x * x) / (2 * (sigma * sigma))) * (- / (2 * (sigma * sigma)) * (1 * x + x * 1)))%R by (field; auto).
  apply (derivable_pt_lim_comp (fun y => - (y * y) / (2 * (sigma * sigma)))%R exp).
  - apply (deriv_ext (fun y => - / (2 * (sigma * sigma)) * (y * y))%R); [intros y; field; auto|].
    apply (derivable_pt_lim_scal (fun y => y * y)%R). apply (derivable_pt_lim_mult id id x 1 1); apply derivable_pt_lim_id.
  - apply derivable_pt_lim_exp.
Qed.

Lemma poly_step u N k x : Z.of_nat k + 1 < N -> u <> 0%R ->
  (rsum N (fun j => herm u k j * (INR (Z.to_nat j) * x ^ pred (Z.to_nat j))) - x / u * poly u N k x)%R = poly u N (S k) x.
Proof.
  intros HN Hu. replace N with (N - 1 + 1) by lia. unfold poly. rewrite (rsum_S_l _ (fun j => herm u k j * (INR (Z.to_nat j) * x ^ pred (Z.to_nat j)))%R) by lia.
  cbn [INR Z.to_nat pred]. rewrite Rmult_0_l, Rmult_0_r, Rplus_0_l.
  rewrite (rsum_S _ (fun j => herm u k j * x ^ Z.to_nat j)%R) by lia. rewrite (herm_out u k (N - 1)) by lia. rewrite Rmult_0_l, Rplus_0_r.
  rewrite <- rsum_mul.
  assert (E : rsum (N - 1 + 1) (fun j => herm u (S k) j * x ^ Z.to_nat j)%R =
    (rsum (N - 1 + 1) (fun j => IZR (j + 1) * herm u k (j + 1) * x ^ Z.to_nat j) - rsum (N - 1 + 1) (fun j => herm u k (j - 1) / u * x ^ Z.to_nat j))%R).
  { rewrite <- rsum_sub. apply rsum_ext. intros j Hj. cbn [herm]. ring. }
  rewrite E. f_equal.
  - rewrite rsum_S by lia. rewrite (herm_out u k (N - 1 + 1)) by lia. rewrite Rmult_0_r, Rmult_0_l, Rplus_0_r. apply rsum_ext. intros j Hj.
    replace (Z.to_nat (j + 1)) with (S (Z.to_nat j)) by lia. cbn [pred]. rewrite S_INR, INR_IZR_INZ, Z2Nat.id, plus_IZR by lia. ring.
  - rewrite rsum_S_l by lia. rewrite (herm_out u k (0 - 1)) by lia. unfold Rdiv at 2. rewrite !Rmult_0_l, Rplus_0_l. apply rsum_ext. intros j Hj.
    replace (j + 1 - 1) with j by lia. replace (Z.to_nat (j + 1)) with (S (Z.to_nat j)) by lia. cbn [pow]. field. auto.
Qed.

Definition gauss_seq (sigma : R) (n : nat) (s : R) (k : nat) (x : R) : R :=
  (poly (sigma * sigma) (Z.of_nat n + 1) k x * (bell sigma x / s))%R.
Lemma gauss_seq_0 sigma n s x : gauss_seq sigma n s 0 x = (bell sigma x / s)%R.
Proof.
  unfold gauss_seq, poly. rewrite (rsum_single _ 0); [cbn; ring|lia|]. intros j Hj Hn. cbn [herm]. destruct (Z.eqb_spec j 0); [lia|ring].
Qed.
Lemma gauss_seq_deriv sigma n s : sigma <> 0%R -> derivatives n (gauss_seq sigma n s).
Proof.
  intros H k x Hk. pose proof (sigma2_ne sigma H) as S2. unfold gauss_seq. rewrite <- poly_step by (auto; lia).
  set (A := rsum _ _). set (B := poly _ _ _ _).
  replace ((A - x / (sigma * sigma) * B) * (bell sigma x / s))%R with (A * (bell sigma x / s) + B * (/ s * (- (x / (sigma * sigma)) * bell sigma x)))%R
    by (unfold Rdiv; ring).
  apply (derivable_pt_lim_mult (poly (sigma * sigma) (Z.of_nat n + 1) k) (fun y => bell sigma y / s)%R).
  - unfold poly, A. apply (deriv_rsum _ (fun j y => herm (sigma * sigma) k j * y ^ Z.to_nat j)%R). intros j Hj.
    apply (derivable_pt_lim_scal (fun y => y ^ Z.to_nat j)%R). apply derivable_pt_lim_pow.
  - apply (deriv_ext (fun y => / s * bell sigma y)%R); [intros; unfold Rdiv; ring|]. apply derivable_pt_lim_scal. now apply bell_deriv.
Qed.

(** ** The code's matrix iteration *)
Lemma nth_map_zrange (f : Z -> R) n i : 0 <= i < n -> nth (Z.to_nat i) (map f (zrange n)) 0%R = f i.
Proof.
  intros Hi. rewrite (nth_indep _ 0%R (f 0)) by (rewrite map_length, zrange_length; lia). rewrite map_nth, nth_zrange by lia. f_equal. lia.
Qed.
Lemma arange0 n : np_arange 0 n = zrange n.
Proof. unfold np_arange, zrange. do 2 f_equal. lia. Qed.
Lemma dot_ok (M : tensor R) r c q : shp M = [r; c] -> c = Z.of_nat (length q) ->
  np_dot M q = Ok (map (fun i => rsum c (fun j => at_ M [i; j] * nth (Z.to_nat j) q 0)%R) (zrange r)).
Proof. intros H1 H2. unfold np_dot. rewrite H1. destruct (Z.eqb_spec c (Z.of_nat (length q))); [reflexivity|contradiction]. Qed.
Lemma nth_repeat_lt {A} (a d : A) n k : (k < n)%nat -> nth k (repeat a n) d = a.
Proof. revert k. induction n as [|n IH]; intros [|k] H; cbn; auto; try lia. apply IH. lia. Qed.

Lemma deriv_matrix u n : 1 <= n -> exists M, tmap2 Rplus (np_diag (map IZR (skipn 1 (np_arange 0 (n + 1)))) 1)
    (np_diag (map (fun v => v / - u)%R (repeat 1%R (Z.to_nat n))) (-1)) = Ok M /\ shp M = [n + 1; n + 1] /\
  forall i j, 0 <= i <= n -> 0 <= j <= n ->
    at_ M [i; j] = ((if (j =? i + 1)%Z then IZR (i + 1) else 0) + (if (j =? i - 1)%Z then 1 / - u else 0))%R.
Proof.
  intros Hn. assert (SK : skipn 1 (np_arange 0 (n + 1)) = zseq 1 (Z.to_nat n)).
  { unfold np_arange. replace (Z.to_nat (n + 1 - 0)) with (S (Z.to_nat n)) by lia. reflexivity. }
  rewrite SK. assert (L : length (map IZR (zseq 1 (Z.to_nat n))) = Z.to_nat n) by (now rewrite map_length, zseq_length).
  unfold tmap2, np_diag. rewrite L, map_length, repeat_length. rewrite Z2Nat.id by lia. cbn [shp Z.abs]. unfold bshape. cbn [rev app bshape_rev bdim].
  unfold bdim. rewrite Z.eqb_refl. cbn [rev app]. eexists. split; [reflexivity|]. split; [reflexivity|]. intros i j Hi Hj. cbn [at_].
  unfold bidx. cbn [length Nat.sub skipn map2]. destruct (Z.eqb_spec (n + 1) 1); [lia|]. cbn [nth]. f_equal.
  - destruct (Z.eqb_spec (j - i) 1), (Z.eqb_spec j (i + 1)); try lia; auto. rewrite Z.min_l by lia.
    rewrite (map_nth IZR _ 0), nth_zseq by lia. f_equal. lia.
  - destruct (Z.eqb_spec (j - i) (-1)), (Z.eqb_spec j (i - 1)); try lia; auto. rewrite Z.min_r by lia.
    rewrite (nth_indep _ 0%R (1 / - u)%R) by (rewrite map_length, repeat_length; lia).
    rewrite (map_nth (fun v => v / - u)%R (repeat 1%R (Z.to_nat n)) 1%R). rewrite nth_repeat_lt by lia. reflexivity.
Qed.

Lemma rsum_pick n a c f : 0 <= a < n -> rsum n (fun j => (if (j =? a)%Z then c else 0) * f j)%R = (c * f a)%R.
Proof.
  intros H. rewrite (rsum_single n a); auto; [now rewrite Z.eqb_refl|]. intros k Hk Hn. destruct (Z.eqb_spec k a); [contradiction|ring].
Qed.
Lemma rsum_nopick n a c f : ~ 0 <= a < n -> rsum n (fun j => (if (j =? a)%Z then c else 0) * f j)%R = 0%R.
Proof. intros H. apply rsum_zero. intros k Hk. destruct (Z.eqb_spec k a); [subst; contradiction|ring]. Qed.

Lemma deriv_iter u n M k m : u <> 0%R -> 1 <= n -> shp M = [n + 1; n + 1] ->
  (forall i j, 0 <= i <= n -> 0 <= j <= n -> at_ M [i; j] = ((if (j =? i + 1)%Z then IZR (i + 1) else 0) + (if (j =? i - 1)%Z then 1 / - u else 0))%R) ->
  Z.of_nat (k + m) <= n ->
  repeatM m (np_dot M) (map (herm u k) (zrange (n + 1))) = Ok (map (herm u (k + m)) (zrange (n + 1))).
Proof.
  intros Hu Hn S1 HM. revert k. induction m as [|m IH]; intros k Hk; cbn [repeatM]; [now rewrite Nat.add_0_r|].
  rewrite (dot_ok M (n + 1) (n + 1)) by (auto; rewrite map_length, zrange_length; lia). cbn [bind].
  assert (E : map (fun i => rsum (n + 1) (fun j => at_ M [i; j] * nth (Z.to_nat j) (map (herm u k) (zrange (n + 1))) 0)%R) (zrange (n + 1)) =
    map (herm u (S k)) (zrange (n + 1))).
  { apply map_ext_in. intros i Hi. apply In_zrange in Hi. cbn [herm].
    transitivity (rsum (n + 1) (fun j => (if (j =? i + 1)%Z then IZR (i + 1) else 0) * herm u k j) + rsum (n + 1) (fun j => (if (j =? i - 1)%Z then 1 / - u else 0) * herm u k j))%R.
    { rewrite <- rsum_add. apply rsum_ext. intros j Hj. rewrite HM by lia. rewrite nth_map_zrange by lia. ring. }
    assert (A1 : rsum (n + 1) (fun j => (if (j =? i + 1)%Z then IZR (i + 1) else 0) * herm u k j)%R = (IZR (i + 1) * herm u k (i + 1))%R).
    { destruct (Z.le_gt_cases (i + 1) n); [apply rsum_pick; lia|]. rewrite rsum_nopick by lia. rewrite herm_out by lia. ring. }
    assert (A2 : rsum (n + 1) (fun j => (if (j =? i - 1)%Z then 1 / - u else 0) * herm u k j)%R = (1 / - u * herm u k (i - 1))%R).
    { destruct (Z.le_gt_cases 0 (i - 1)); [apply rsum_pick; lia|]. rewrite rsum_nopick by lia. rewrite herm_out by lia. ring. }
    rewrite A1, A2. field. auto. }
  rewrite E. replace (k + S m)%nat with (S k + m)%nat by lia. apply IH. lia.
Qed.

Lemma q_init u n : 0 <= n -> upd 0 1%R (repeat 0%R (Z.to_nat (n + 1))) = map (herm u 0) (zrange (n + 1)).
Proof.
  intros Hn. replace (n + 1) with (Z.succ n) by lia. rewrite Z2Nat.inj_succ by lia. unfold zrange. rewrite Z2Nat.inj_succ by lia. cbn [repeat upd zseq map herm].
  f_equal. assert (G : forall m lo, 0 < lo -> repeat 0%R m = map (fun i => if (i =? 0)%Z then 1%R else 0%R) (zseq lo m)).
  { clear. induction m as [|m IH]; intros lo H; [reflexivity|]. cbn [repeat zseq map]. destruct (Z.eqb_spec lo 0); [lia|]. f_equal. apply IH. lia. }
  apply G. lia.
Qed.

Lemma map2_map_same {A B} (f g : A -> R) (h : R -> R -> B) l : map2 h (map f l) (map g l) = map (fun i => h (f i) (g i)) l.
Proof. induction l as [|a l IH]; [reflexivity|]. cbn [map map2]. now rewrite IH. Qed.

Lemma map_by_nth {B} (f : Z -> B) (X : list Z) : map f X = map (fun i => f (nth (Z.to_nat i) X 0)) (zrange (Z.of_nat (length X))).
Proof.
  unfold zrange. rewrite Nat2Z.id. rewrite <- (map_map (fun i => nth (Z.to_nat i) X 0) f). f_equal. apply (list_ext _ _ 0).
  - now rewrite map_length, zseq_length.
  - intros i Hi. rewrite (nth_indep (map _ _) 0 (nth (Z.to_nat 0) X 0)) by (now rewrite map_length, zseq_length).
    rewrite (map_nth (fun i => nth (Z.to_nat i) X 0)). rewrite nth_zseq by lia. f_equal. lia.
Qed.

Theorem gk1d_deriv sigma n r : sigma <> 0%R -> 1 <= n -> 0 <= r ->
  gaussian_kernel1d sigma n r = Ok (map (fun v => gauss_seq sigma (Z.to_nat n) (bell_sum (2 * r + 1) sigma) (Z.to_nat n) (IZR v)) (np_arange (- r) (r + 1))).
Proof.
  intros H Hn Hr. pose proof (sigma2_ne sigma H) as S2. unfold gaussian_kernel1d. destruct (Z.ltb_spec n 0); [lia|].
  destruct (Req_EM_T (sigma * sigma) 0) as [E|_]; [contradiction|]. destruct (Z.eqb_spec n 0); [lia|].
  destruct (deriv_matrix (sigma * sigma) n Hn) as [M [M1 [M2 M3]]]. rewrite M1. cbn [bind].
  rewrite (q_init (sigma * sigma)) by lia. rewrite (deriv_iter (sigma * sigma) n M 0 (Z.to_nat n)) by (auto; lia). cbn [bind Nat.add].
  rewrite phi_sum by auto. set (X := np_arange (- r) (r + 1)). set (k := Z.to_nat n).
  erewrite dot_ok; [|cbn [shp]; reflexivity|rewrite map_length, zrange_length; unfold np_arange; rewrite zseq_length; lia]. cbn [bind at_ nth].
  f_equal. rewrite map_map.
  assert (LX : length X = Z.to_nat (2 * r + 1)) by (unfold X, np_arange; rewrite zseq_length; lia).
  assert (LE : Z.of_nat (length (np_arange 0 (n + 1))) = n + 1) by (unfold np_arange; rewrite zseq_length; lia). rewrite LE.
  rewrite !(map_by_nth _ X), map2_map_same. apply map_ext_in. intros i Hi. unfold gauss_seq. f_equal; [|now rewrite bell_code].
  unfold poly. replace (Z.of_nat k + 1) with (n + 1) by lia. apply rsum_ext. intros j Hj. rewrite nth_map_zrange by lia.
  rewrite Rmult_comm. f_equal. rewrite arange0, nth_zrange by lia. rewrite Z2Nat.id by lia.
  replace j with (Z.of_nat (Z.to_nat j)) at 1 by lia. now rewrite <- pow_IZR.
Qed.

Lemma herm_parity u k i : Z.odd (i + Z.of_nat k) = true -> herm u k i = 0%R.
Proof.
  revert i. induction k as [|k IH]; intros i H; cbn [herm].
  - destruct (Z.eqb_spec i 0); auto. subst. discriminate.
  - rewrite !IH; [unfold Rdiv; ring| |].
    + replace (i - 1 + Z.of_nat k) with (i + Z.of_nat (S k) + -2) by lia. rewrite Z.odd_add, H. reflexivity.
    + replace (i + 1 + Z.of_nat k) with (i + Z.of_nat (S k)) by lia. auto.
Qed.
Lemma pow_opp x j : ((- x) ^ j = (-1) ^ j * x ^ j)%R.
Proof. replace (- x)%R with (-1 * x)%R by ring. apply Rpow_mult_distr. Qed.
Lemma pow_m1_even j : Nat.even j = true -> ((-1) ^ j = 1)%R.
Proof. intros H. apply Nat.even_spec in H as [m ->]. apply pow_1_even. Qed.
Lemma pow_m1_odd j : Nat.odd j = true -> ((-1) ^ j = -1)%R.
Proof. intros H. apply Nat.odd_spec in H as [m ->]. rewrite Nat.add_1_r. apply pow_1_odd. Qed.
Lemma pow_m1_parity i j : Nat.odd i = Nat.odd j -> ((-1) ^ i = (-1) ^ j)%R.
Proof.
  intros H. destruct (Nat.odd j) eqn:E; [now rewrite !pow_m1_odd|].
  rewrite !pow_m1_even; auto; rewrite <- Nat.negb_odd; [now rewrite E|now rewrite H].
Qed.
Lemma poly_parity u N k x : poly u N k (- x)%R = ((-1) ^ k * poly u N k x)%R.
Proof.
  unfold poly. rewrite <- rsum_mul. apply rsum_ext. intros j Hj. destruct (Z.odd (j + Z.of_nat k)) eqn:E.
  - rewrite herm_parity by auto. ring.
  - rewrite pow_opp. rewrite (pow_m1_parity (Z.to_nat j) k); [ring|].
    rewrite Z.odd_add in E. replace j with (Z.of_nat (Z.to_nat j)) in E by lia.
    assert (O : forall m, Z.odd (Z.of_nat m) = Nat.odd m).
    { clear. intros m. destruct (Nat.Even_or_Odd m) as [[q ->]|[q ->]].
      - rewrite Nat2Z.inj_mul. rewrite Z.odd_mul. cbn. symmetry. rewrite <- Nat.negb_even. rewrite (proj2 (Nat.even_spec _)); auto. now exists q.
      - rewrite Nat2Z.inj_add, Nat2Z.inj_mul, Z.odd_add, Z.odd_mul. cbn. symmetry. apply Nat.odd_spec. now exists q. }
    rewrite !O in E. destruct (Nat.odd (Z.to_nat j)), (Nat.odd k); auto; discriminate.
Qed.
Lemma gauss_seq_parity sigma n s k x : gauss_seq sigma n s k (- x)%R = ((-1) ^ k * gauss_seq sigma n s k x)%R.
Proof. unfold gauss_seq. rewrite poly_parity, bell_even. ring. Qed.

(** The odd number of taps the code samples. *)
Definition taps (ks : Z) : Z := 2 * (ks / 2) + 1.
Lemma taps_odd ks : Z.odd ks = true -> taps ks = ks.
Proof.
  intros H. rewrite Zodd_mod in H. apply Zeq_bool_eq in H. unfold taps. pose proof (Z.div_mod ks 2 ltac:(lia)). lia.
Qed.
Lemma taps_even ks : Z.odd ks = false -> taps ks = ks + 1.
Proof.
  intros H. rewrite Zodd_mod in H. apply Zeq_bool_neq in H. unfold taps. pose proof (Z.div_mod ks 2 ltac:(lia)). pose proof (Z.mod_pos_bound ks 2). lia.
Qed.

Lemma gauss_deriv_formula ks sigma n : 1 <= ks -> sigma <> 0%R -> 1 <= n ->
  gaussian_kernel_1d ks sigma n =
    Ok (map (fun i => gauss_seq sigma (Z.to_nat n) (bell_sum (taps ks) sigma) (Z.to_nat n) (IZR (ks / 2 - i))) (zrange ks)).
Proof.
  intros Hk Hs Hn. unfold gaussian_kernel_1d. assert (Hr : 0 <= ks / 2) by (apply Z.div_pos; lia). 
  rewrite gk1d_deriv by auto. cbn [bind]. rewrite rev_range by auto. rewrite map_length, zrange_length. fold (taps ks).
  destruct (Z.odd ks) eqn:O.
  - rewrite (taps_odd ks O). destruct (Z.eqb_spec (Z.of_nat (Z.to_nat ks)) ks); [|lia]. reflexivity.
  - pose proof (taps_even ks O) as T. destruct (Z.eqb_spec (Z.of_nat (Z.to_nat (taps ks))) ks); [lia|].
    unfold clampi. destruct (Z.ltb_spec ks 0); [lia|].
    replace (Z.to_nat (Z.max 0 (Z.min (Z.of_nat (Z.to_nat (taps ks))) ks))) with (Z.to_nat ks) by lia.
    rewrite firstn_map, zrange_prefix by lia. destruct (Z.eqb_spec n 0); [lia|]. reflexivity.
Qed.

(** C42. *)
Definition derives_gaussian (sigma s : R) (n : nat) (g : nat -> R -> R) : Prop :=
  (forall x, g 0%nat x = (exp (- (x * x) / (2 * (sigma * sigma))) / s)%R) /\ derivatives n g.
Lemma derives_exists sigma s n : sigma <> 0%R -> exists g, derives_gaussian sigma s n g.
Proof. intros H. exists (gauss_seq sigma n s). split; [intros; apply gauss_seq_0|now apply gauss_seq_deriv]. Qed.
Lemma derives_seq sigma s n g k x : sigma <> 0%R -> derives_gaussian sigma s n g -> (k <= n)%nat -> g k x = gauss_seq sigma n s k x.
Proof.
  intros H [G0 G1] Hk. apply (derivatives_unique n); auto; [now apply gauss_seq_deriv|]. intros. now rewrite G0, gauss_seq_0.
Qed.

Theorem gauss_deriv ks sigma n : 1 <= ks -> sigma <> 0%R -> 1 <= n \/ n = 0 /\ Z.odd ks = true ->
  exists k, gaussian_kernel_1d ks sigma n = Ok k /\ Z.of_nat (length k) = ks /\
    forall g, derives_gaussian sigma (bell_sum (taps ks) sigma) (Z.to_nat n) g ->
      forall i, 0 <= i < ks -> nth (Z.to_nat i) k 0%R = g (Z.to_nat n) (IZR (ks / 2 - i)).
Proof.
  intros Hk Hs Hn. destruct (Z.eq_dec n 0) as [->|N0].
  - destruct Hn as [Hn|[_ Ho]]; [lia|]. eexists. split; [apply gauss_formula; auto|]. split; [rewrite map_length, zrange_length; lia|].
    intros g [G0 _] i Hi. rewrite nth_map_zrange by auto. cbn [Z.to_nat]. rewrite G0. rewrite (taps_odd ks Ho). f_equal. fold (bell sigma (IZR (ks / 2 - i))).
    rewrite <- bell_even, <- opp_IZR. do 2 f_equal. lia.
  - assert (1 <= n) by lia. eexists. split; [apply gauss_deriv_formula; auto|]. split; [rewrite map_length, zrange_length; lia|].
    intros g G i Hi. rewrite nth_map_zrange by auto. symmetry. apply derives_seq; auto.
Qed.

Theorem gauss_parity ks sigma n : 1 <= ks -> sigma <> 0%R -> 0 <= n -> Z.odd ks = true ->
  exists k, gaussian_kernel_1d ks sigma n = Ok k /\
    (forall i, 0 <= i < ks -> nth (Z.to_nat i) k 0%R = ((-1) ^ Z.to_nat n * nth (Z.to_nat (ks - 1 - i)) k 0)%R) /\
    (Z.odd n = true -> fold_right Rplus 0%R k = 0%R).
Proof.
  intros Hk Hs Hn Ho. destruct (derives_exists sigma (bell_sum (taps ks) sigma) (Z.to_nat n) Hs) as [g G].
  destruct (gauss_deriv ks sigma n Hk Hs) as [k [K1 [K2 K3]]]; [destruct (Z.eq_dec n 0); [right; auto|left; lia]|].
  exists k. split; auto. assert (S : forall i, 0 <= i < ks -> nth (Z.to_nat i) k 0%R = ((-1) ^ Z.to_nat n * nth (Z.to_nat (ks - 1 - i)) k 0)%R).
  { intros i Hi. rewrite !(K3 g G) by lia. rewrite !(derives_seq _ _ _ g _ _ Hs G) by auto. rewrite <- gauss_seq_parity, <- opp_IZR. do 2 f_equal.
    pose proof (taps_odd ks Ho) as T. unfold taps in T. lia. }
  split; auto. intros On.
  assert (Ek : k = map (fun i => nth (Z.to_nat i) k 0%R) (zrange ks)).
  { apply (list_ext _ _ 0%R); rewrite ?map_length, ?zrange_length; [lia|]. intros i Hi. replace i with (Z.to_nat (Z.of_nat i)) at 2 by lia.
    rewrite nth_map_zrange by lia. now rewrite Nat2Z.id. }
  assert (M : ((-1) ^ Z.to_nat n = -1)%R).
  { apply pow_m1_odd. apply Nat.odd_spec. apply Z.odd_spec in On as [m Hm]. exists (Z.to_nat m). lia. }
  change (np_sum k = 0%R). rewrite Ek, np_sum_range.
  assert (E2 : rsum ks (fun i => nth (Z.to_nat i) k 0%R) = (- rsum ks (fun i => nth (Z.to_nat i) k 0))%R); [|lra].
  rewrite <- rsum_opp. rewrite <- (rsum_rev ks) by lia. apply rsum_ext. intros i Hi. rewrite (S i) by lia. rewrite M. ring.
Qed.
