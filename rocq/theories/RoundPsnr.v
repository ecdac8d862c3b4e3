(** How far rounding can take PSNR from the exact value; PSNR of images in range, blurred and averaged images. *)
From Coq Require Import Reals Lra.
From Verif Require Export RoundPsnrModel RoundMetric PsnrTower BlurContract BlockContract.
Open Scope R_scope.

Lemma RF_abs (v : R) : @fabs RF v = Rabs v.
Proof.
  destruct (Rle_dec 0 v) as [H|H].
  - rewrite (fabs_pos RF v) by now apply RF_le. now rewrite Rabs_pos_eq.
  - rewrite (fabs_neg RF v) by (apply RF_le; change (@f0 RF) with 0; lra). rewrite Rabs_left by lra. reflexivity.
Qed.
Lemma RF_pow (v : R) n : @fpow RF v n = v ^ n.
Proof. induction n as [|n IH]; [reflexivity|]. cbn [fpow pow]. rewrite IH. reflexivity. Qed.
Lemma RF_rounds (e v w : R) : rounds (F := RF) e v w <-> Rabs (w - v) <= e * Rabs v.
Proof. unfold rounds. rewrite RF_le. change (@fsub RF w v) with (w - v). change (@fmul RF e (@fabs RF v)) with (e * @fabs RF v). now rewrite !RF_abs. Qed.
Lemma log10_le a b : 0 < a -> a <= b -> log10 a <= log10 b.
Proof. intros Ha [H| ->]; [left; now apply log10_increasing|right; reflexivity]. Qed.
Lemma log10_mult a b : 0 < a -> 0 < b -> log10 (a * b) = log10 a + log10 b.
Proof. intros. unfold log10. rewrite ln_mult by auto. field. pose proof ln10_pos. lra. Qed.
Lemma log10_1 : log10 1 = 0.
Proof. unfold log10. rewrite ln_1. field. pose proof ln10_pos. lra. Qed.
Lemma log10_inv a : 0 < a -> log10 (/ a) = - log10 a.
Proof. intros. unfold log10. rewrite ln_Rinv by auto. field. pose proof ln10_pos. lra. Qed.
Lemma Rabs_le_inv a b : Rabs a <= b -> - b <= a <= b.
Proof. intros H. pose proof (Rle_abs a). pose proof (Rle_abs (- a)) as Q. rewrite Rabs_Ropp in Q. lra. Qed.
(** relative error q of the argument *)
Lemma log10_close s s' q : 0 < s -> 0 <= q < 1 -> Rabs (s' - s) <= q * s -> 0 < s' /\ Rabs (log10 s' - log10 s) <= - log10 (1 - q).
Proof.
  intros Hs Hq H. apply Rabs_le_inv in H. assert (P : 0 < s * (1 - q)) by nra. assert (s * (1 - q) <= s') by nra.
  split; [lra|]. assert (L1 : log10 s + log10 (1 - q) <= log10 s') by (rewrite <- log10_mult by lra; apply log10_le; lra).
  assert (L2 : log10 s' <= log10 s + log10 (/ (1 - q))).
  { assert (0 < / (1 - q)) by (apply Rinv_0_lt_compat; lra). rewrite <- log10_mult by lra. apply log10_le; [lra|].
    assert (1 + q <= / (1 - q)). { apply (Rmult_le_reg_r (1 - q)); [lra|]. rewrite Rinv_l by lra. nra. } nra. }
  rewrite log10_inv in L2 by lra. apply Rabs_le. lra.
Qed.
(** three roundings of each of two terms *)
Lemma comb_err e A B lm l u w v : 0 <= e -> Rabs (l - B) <= e * Rabs B -> Rabs (lm - A) <= e * Rabs A ->
  Rabs (u - 20 * lm) <= e * Rabs (20 * lm) -> Rabs (w - 10 * l) <= e * Rabs (10 * l) -> Rabs (v - (u - w)) <= e * Rabs (u - w) ->
  Rabs (v - (20 * A - 10 * B)) <= ((1 + e) ^ 3 - 1) * (20 * Rabs A + 10 * Rabs B).
Proof.
  intros He H1 H2 H3 H4 H5. rewrite Rabs_mult in H3, H4. rewrite (Rabs_pos_eq 20) in H3 by lra. rewrite (Rabs_pos_eq 10) in H4 by lra.
  assert (Al : Rabs l <= (1 + e) * Rabs B) by (pose proof (Rabs_triang (l - B) B); replace (l - B + B) with l in * by ring; lra).
  assert (Am : Rabs lm <= (1 + e) * Rabs A) by (pose proof (Rabs_triang (lm - A) A); replace (lm - A + A) with lm in * by ring; lra).
  pose proof (Rabs_pos A) as PA. pose proof (Rabs_pos B) as PB.
  assert (Eu : Rabs (u - 20 * A) <= 20 * ((1 + e) * (1 + e) - 1) * Rabs A).
  { pose proof (Rabs_triang (u - 20 * lm) (20 * (lm - A))) as T. rewrite Rabs_mult, (Rabs_pos_eq 20) in T by lra. replace (u - 20 * lm + 20 * (lm - A)) with (u - 20 * A) in T by ring. nra. }
  assert (Ew : Rabs (w - 10 * B) <= 10 * ((1 + e) * (1 + e) - 1) * Rabs B).
  { pose proof (Rabs_triang (w - 10 * l) (10 * (l - B))) as T. rewrite Rabs_mult, (Rabs_pos_eq 10) in T by lra. replace (w - 10 * l + 10 * (l - B)) with (w - 10 * B) in T by ring. nra. }
  assert (Au : Rabs (u - w) <= (1 + e) * (1 + e) * (20 * Rabs A + 10 * Rabs B)).
  { pose proof (Rabs_triang (u - 20 * A) (20 * A)) as T1. rewrite (Rabs_mult 20), (Rabs_pos_eq 20) in T1 by lra. replace (u - 20 * A + 20 * A) with u in T1 by ring.
    pose proof (Rabs_triang (w - 10 * B) (10 * B)) as T2. rewrite (Rabs_mult 10), (Rabs_pos_eq 10) in T2 by lra. replace (w - 10 * B + 10 * B) with w in T2 by ring.
    pose proof (Rabs_triang u (- w)) as T3. rewrite Rabs_Ropp in T3. unfold Rminus at 1. nra. }
  pose proof (Rabs_triang (v - (u - w)) ((u - 20 * A) + - (w - 10 * B))) as T. pose proof (Rabs_triang (u - 20 * A) (- (w - 10 * B))) as T'. rewrite Rabs_Ropp in T'.
  replace (v - (u - w) + (u - 20 * A + - (w - 10 * B))) with (v - (20 * A - 10 * B)) in T by ring.
  assert (E3 : e * Rabs (u - w) <= e * ((1 + e) * (1 + e) * (20 * Rabs A + 10 * Rabs B))) by (apply Rmult_le_compat_l; auto).
  replace (((1 + e) ^ 3 - 1) * (20 * Rabs A + 10 * Rabs B)) with
    (e * ((1 + e) * (1 + e) * (20 * Rabs A + 10 * Rabs B)) + 20 * ((1 + e) * (1 + e) - 1) * Rabs A + 10 * ((1 + e) * (1 + e) - 1) * Rabs B) by ring. lra.
Qed.
Lemma psnr_at_err e mx eps m m' v' q : 0 <= e -> 0 < mx -> 0 <= eps -> 0 <= m -> 0 <= q -> (1 + q) * (1 + e) - 1 < 1 ->
  Rabs (m' - m) <= q * m -> fl_psnr_at e mx eps m' v' -> 0 < m + eps /\
  let d := - log10 (1 - ((1 + q) * (1 + e) - 1)) in
  Rabs (v' - 10 * log10 (mx * mx / (m + eps))) <= ((1 + e) ^ 3 - 1) * (20 * Rabs (log10 mx) + 10 * (Rabs (log10 (m + eps)) + d)) + 10 * d.
Proof.
  intros He Hm Heps H0 Hq HQ Hmm (s & l & lm & u & w & Hs & Ps & Hl & Hlm & Hu & Hw & Hv).
  rewrite RF_rounds in Hl, Hlm, Hu, Hw, Hv.
  assert (S1 : Rabs (s - (m + eps)) <= ((1 + q) * (1 + e) - 1) * (m + eps)).
  { apply Rabs_le_inv in Hmm. destruct (R_leb eps 0) eqn:E.
    - apply R_leb_iff in E. assert (E0 : eps = 0) by lra. rewrite E0, Rplus_0_r in *. rewrite Hs. apply Rabs_le. assert (0 <= e * (1 + q)) by nra. split; nra.
    - apply RF_rounds in Hs. assert (M' : 0 <= m' + eps -> Rabs (s - (m + eps)) <= ((1 + q) * (1 + e) - 1) * (m + eps)).
      { intros P. rewrite (Rabs_pos_eq (m' + eps)) in Hs by auto. apply Rabs_le_inv in Hs. apply Rabs_le.
        assert (m' + eps <= (1 + q) * (m + eps)) by nra. assert (e * (m' + eps) <= e * ((1 + q) * (m + eps))) by (apply Rmult_le_compat_l; auto).
        assert (Q1 : - (q * (m + eps)) <= m' - m) by nra. split; nra. }
      apply M'. assert (q < 1) by nra. apply R_leb_false in E. nra. }
  assert (P : 0 < m + eps).
  { destruct (Rle_lt_or_eq_dec 0 (m + eps)) as [|E]; [lra|auto|]. rewrite <- E in S1. apply Rabs_le_inv in S1. lra. }
  split; auto. intros d. assert (Q0 : 0 <= (1 + q) * (1 + e) - 1) by nra. destruct (log10_close (m + eps) s _ P (conj Q0 HQ) S1) as [_ D]. fold d in D.
  pose proof (comb_err e (log10 mx) (log10 s) lm l u w v' He Hl Hlm Hu Hw Hv) as C.
  rewrite <- psnr_value by auto. set (A := log10 mx) in *. set (B := log10 (m + eps)) in *. set (B' := log10 s) in *.
  assert (AB : Rabs B' <= Rabs B + d) by (pose proof (Rabs_triang (B' - B) B) as T; replace (B' - B + B) with B' in T by ring; lra).
  pose proof (Rabs_triang (v' - (20 * A - 10 * B')) (10 * (B - B'))) as T. rewrite (Rabs_mult 10), (Rabs_pos_eq 10) in T by lra.
  replace (v' - (20 * A - 10 * B') + 10 * (B - B')) with (v' - (20 * A - 10 * B)) in T by ring. rewrite (Rabs_minus_sym B B') in T.
  assert (K : 0 <= (1 + e) ^ 3 - 1) by (simpl; nra).
  assert (((1 + e) ^ 3 - 1) * (20 * Rabs A + 10 * Rabs B') <= ((1 + e) ^ 3 - 1) * (20 * Rabs A + 10 * (Rabs B + d))) by (apply Rmult_le_compat_l; lra). lra.
Qed.

Theorem psnr_rounding e mx eps r (a b y' : tensor RF) ax al : 0 <= e -> 0 <= eps -> on_axes a ax al ->
  (r = RMean -> forall d, In d (reduced (ndim a) al) -> (0 < nth d (shp a) 0)%Z) -> fl_psnr_forward e mx eps r a b ax y' ->
  (forall j L, valid (shp y') j -> summands r (shp a) (reduced (ndim a) al) j L -> (1 + e) ^ (mse_roundings r (length L) + 1) < 2) ->
  exists m y, mse_forward r a b ax = Ok m /\ psnr_forward mx eps r a b ax = Ok y /\ shp y' = shp y /\ shp y = shp m /\
    forall j L, valid (shp y) j -> summands r (shp a) (reduced (ndim a) al) j L ->
      let d := - log10 (2 - (1 + e) ^ (mse_roundings r (length L) + 1)) in
      Rabs (at_ y' j - at_ y j) <= ((1 + e) ^ 3 - 1) * (20 * Rabs (log10 mx) + 10 * (Rabs (log10 (at_ m j + eps)) + d)) + 10 * d.
Proof.
  intros He Heps OA Hp (Hmx & m' & HF & Sy & Vy) Hb.
  destruct (mse_rounding RF e r a b m' ax al) as (m & Em & Sm & Vm); auto; [now apply RF_le|].
  assert (K : forall j L, valid (shp m) j -> summands r (shp a) (reduced (ndim a) al) j L -> 0 < at_ m j + eps /\
     let d := - log10 (2 - (1 + e) ^ (mse_roundings r (length L) + 1)) in
     Rabs (at_ y' j - 10 * log10 (mx * mx / (at_ m j + eps))) <= ((1 + e) ^ 3 - 1) * (20 * Rabs (log10 mx) + 10 * (Rabs (log10 (at_ m j + eps)) + d)) + 10 * d).
  { intros j L Vj SL. destruct (Vm j L Vj SL) as [M0 M1]. apply RF_le in M0, M1. change (@f0 RF) with 0 in M0.
    set (n := mse_roundings r (length L)) in *. change (@fabs RF (at_ m' j - at_ m j) <= (@fpow RF (1 + e) n - 1) * at_ m j) in M1. rewrite RF_abs, RF_pow in M1.
    assert (Hb' : (1 + e) ^ (n + 1) < 2) by (apply (Hb j L); auto; now rewrite Sy, Sm). rewrite Rfunctions.pow_add, Rfunctions.pow_1 in Hb' |- *.
    assert (G1 : 1 <= (1 + e) ^ n) by (apply pow_R1_Rle; lra).
    destruct (psnr_at_err e mx eps (at_ m j) (at_ m' j) (at_ y' j) ((1 + e) ^ n - 1)) as [P B]; auto; try lra; [apply Vy; now rewrite Sm|].
    split; auto. cbv zeta in *. replace (2 - (1 + e) ^ n * (1 + e)) with (1 - ((1 + ((1 + e) ^ n - 1)) * (1 + e) - 1)) by ring. exact B. }
  assert (EX : forall j, exists L, summands r (shp a) (reduced (ndim a) al) j L).
  { intros j. destruct r; cbn [summands]; (exists [j]; reflexivity) || (eexists; apply block_ok). }
  destruct (psnr_of_mse mx eps r a b ax m) as (y & Ey & Sy2 & Vy2); auto.
  { intros j Vj. destruct (EX j) as [L SL]. now destruct (K j L Vj SL). }
  exists m, y. split; auto. split; auto. split; [congruence|]. split; auto. intros j L Vj SL d. rewrite Sy2 in Vj. rewrite Vy2 by auto. now apply K.
Qed.

(** *** exact arithmetic is one of the possibilities *)
Theorem psnr_exact e mx eps r (a b y : tensor RF) ax al : 0 <= e -> 0 < mx -> 0 <= eps -> on_axes a ax al -> shp a = shp b ->
  (r = RMean -> forall d, In d (reduced (ndim a) al) -> (0 < nth d (shp a) 0)%Z) ->
  psnr_forward mx eps r a b ax = Ok y -> fl_psnr_forward e mx eps r a b ax y.
Proof.
  intros He Hm Heps OA S Hp E. split; auto.
  destruct (mse_forward r a b ax) as [m|er] eqn:M; [|unfold psnr_forward in E; rewrite M in E; discriminate].
  destruct (psnr_inv mx eps r a b ax m y Hm Heps M E) as [Sy Vy].
  exists m. split; [apply (mse_exact RF e r a b m ax al); auto; now apply RF_le|]. split; auto. intros j Vj. destruct (Vy j Vj) as [P Ey].
  assert (R0 : forall v : R, rounds (F := RF) e v v) by (intros v; apply rounds_refl; now apply RF_le).
  exists (at_ m j + eps), (log10 (at_ m j + eps)), (log10 mx), (20 * log10 mx), (10 * log10 (at_ m j + eps)).
  split; [|split; [auto|split; [auto|split; [auto|split; [auto|split; [auto|]]]]]].
  - destruct (R_leb eps 0) eqn:B; [|apply R0]. apply R_leb_iff in B. assert (eps = 0) by lra. subst eps. apply Rplus_0_r.
  - rewrite Ey, <- psnr_value by auto. apply R0.
Qed.

(** *** images within the range *)
Lemma lsum_gap (f : list Z -> R) (c : R) L : @lsum RF (map (fun i => c - f i) L) = INR (length L) * c - @lsum RF (map f L).
Proof.
  induction L as [|i L IH]; [cbn; ring|]. cbn [map length]. rewrite S_INR.
  change (c - f i + @lsum RF (map (fun i => c - f i) L) = (INR (length L) + 1) * c - (f i + @lsum RF (map f L))). rewrite IH. ring.
Qed.
Lemma log10_inj a b : 0 < a -> 0 < b -> log10 a = log10 b -> a = b.
Proof.
  intros Ha Hb E. destruct (Rtotal_order a b) as [H|[H|H]]; auto; apply log10_increasing in H; auto; lra.
Qed.
Theorem psnr_range mx eps (a b : tensor RF) ax al y : 0 < mx -> 0 <= eps -> on_axes a ax al -> shp a = shp b -> (forall n, In n (shp a) -> (1 <= n)%Z) ->
  (forall i, valid (shp a) i -> 0 <= at_ a i <= mx /\ 0 <= at_ b i <= mx) ->
  psnr_forward mx eps RMean a b ax = Ok y ->
  forall j, valid (shp y) j ->
    10 * log10 (mx * mx / (mx * mx + eps)) <= at_ y j /\
    (at_ y j = 10 * log10 (mx * mx / (mx * mx + eps)) <->
       forall i, valid (shp a) i -> outside (reduced (ndim a) al) i = j -> (at_ a i = 0 /\ at_ b i = mx) \/ (at_ a i = mx /\ at_ b i = 0)) /\
    (0 < eps -> at_ y j <= 10 * log10 (mx * mx / eps) /\
       (at_ y j = 10 * log10 (mx * mx / eps) <-> forall i, valid (shp a) i -> outside (reduced (ndim a) al) i = j -> at_ a i = at_ b i)).
Proof.
  intros Hm He OA S Pn Hr E j Vj.
  assert (Hp : forall d, In d (reduced (ndim a) al) -> (0 < nth d (shp a) 0)%Z).
  { intros d Hd. assert (d < ndim a)%nat by (destruct OA as [A1 A2 A3]; now apply (reduced_in (ndim a) al)). specialize (Pn (nth d (shp a) 0%Z) (nth_In _ _ H)). lia. }
  destruct (mse_mean RF a b ax al OA S Hp) as [m [M1 [M2 M3]]]. destruct (mse_zero_mean RF a b ax al OA S Hp) as [m' [M1' M4]].
  rewrite M1 in M1'. injection M1' as <-. destruct (psnr_inv mx eps RMean a b ax m y Hm He M1 E) as [Sy Vy]. rewrite Sy in Vj.
  destruct (Vy j Vj) as [P Ey]. destruct (M4 j Vj) as [Z1 Z2]. apply RF_le in Z1. change (@f0 RF) with 0 in Z1, Z2.
  set (al' := reduced (ndim a) al) in *. set (L := block (shp a) al' j). assert (BL : block_of (shp a) al' j L) by apply block_ok.
  specialize (M3 j L BL). rewrite RF_ofZ in M3.
  assert (CL : Z.of_nat (length L) = zprod (map (fun d => nth d (shp a) 0%Z) al')).
  { apply (mse_count RF a ax al OA) with (j := j); auto; [intros n Hn; specialize (Pn n Hn); lia|change (valid (outside al' (shp a)) j); now rewrite <- M2]. }
  rewrite <- CL, <- INR_IZR_INZ in M3.
  assert (NP : 0 < INR (length L)). { rewrite INR_IZR_INZ, CL. apply IZR_lt. apply Z.lt_le_trans with 1%Z; [lia|]. apply zprod_pos1. intros n Hn. apply in_map_iff in Hn as (d & <- & Hd). specialize (Hp d Hd). lia. }
  set (f := fun i => (at_ a i - at_ b i) * (at_ a i - at_ b i)).
  change (at_ m j = @lsum RF (map f L) / INR (length L)) in M3.
  pose proof (lsum_gap f (mx * mx) L) as G.
  assert (NN : forall e, In e (map (fun i => mx * mx - f i) L) -> @fle RF f0 e).
  { intros e He'. apply in_map_iff in He' as (i & <- & Hi). apply BL in Hi as [Vi _]. destruct (Hr i Vi). apply RF_le. change (0 <= mx * mx - f i). unfold f. nra. }
  pose proof (lsum_nonneg RF _ NN) as G0. apply RF_le in G0. change (0 <= @lsum RF (map (fun i => mx * mx - f i) L)) in G0.
  pose proof (lsum_zero_iff RF _ NN) as GZ. change (@f0 RF) with 0 in GZ.
  assert (MS : mx * mx - at_ m j = @lsum RF (map (fun i => mx * mx - f i) L) / INR (length L)) by (rewrite G, M3; field; lra).
  assert (ML : at_ m j <= mx * mx).
  { assert (0 <= @lsum RF (map (fun i => mx * mx - f i) L) / INR (length L)); [|lra]. apply Rmult_le_pos; auto. left. now apply Rinv_0_lt_compat. }
  assert (MX : 0 < mx * mx) by nra.
  assert (Inc : forall u v, 0 < u -> u <= v -> 10 * log10 (mx * mx / v) <= 10 * log10 (mx * mx / u)).
  { intros u v Hu Hv. apply Rmult_le_compat_l; [lra|]. apply log10_le; [apply Rdiv_lt_0_compat; lra|]. unfold Rdiv. apply Rmult_le_compat_l; [lra|].
    apply Rinv_le_contravar; auto. }
  assert (Inj : forall u v, 0 < u -> 0 < v -> 10 * log10 (mx * mx / u) = 10 * log10 (mx * mx / v) -> u = v).
  { intros u v Hu Hv H. assert (H2 : mx * mx / u = mx * mx / v) by (apply log10_inj; try (apply Rdiv_lt_0_compat; lra); lra).
    apply (Rmult_eq_reg_l (/ (u * v))); [|apply Rinv_neq_0_compat; nra]. apply (Rmult_eq_reg_l (mx * mx)); [|lra].
    replace (mx * mx * (/ (u * v) * u)) with (mx * mx / v) by (field; lra). replace (mx * mx * (/ (u * v) * v)) with (mx * mx / u) by (field; lra). auto. }
  rewrite Ey. split; [apply Inc; lra|]. split.
  - split.
    + intros H i Vi Oi. apply Inj in H; [|lra|lra]. assert (Em : mx * mx - at_ m j = 0) by lra. rewrite MS in Em.
      assert (El : @lsum RF (map (fun i => mx * mx - f i) L) = 0).
      { apply (Rmult_eq_reg_r (/ INR (length L))); [|apply Rinv_neq_0_compat; lra]. rewrite Rmult_0_l. exact Em. }
      assert (Ef : mx * mx - f i = 0). { apply GZ; [exact El|]. apply (in_map (fun i => mx * mx - f i)). apply BL. auto. }
      destruct (Hr i Vi) as [Ha Hb]. unfold f in Ef.
      assert (E2 : (mx - (at_ a i - at_ b i)) * (mx + (at_ a i - at_ b i)) = 0) by lra. apply Rmult_integral in E2 as [E2|E2]; [right|left]; lra.
    + intros H. do 3 f_equal. enough (El : @lsum RF (map (fun i => mx * mx - f i) L) = 0). { rewrite El in MS. unfold Rdiv in MS. lra. }
      apply GZ. intros e He'. apply in_map_iff in He' as (i & <- & Hi). apply BL in Hi as [Vi Oi]. change (mx * mx - (at_ a i - at_ b i) * (at_ a i - at_ b i) = 0). destruct (H i Vi Oi) as [[-> ->]|[-> ->]]; lra.
  - intros Pe. split; [apply Inc; lra|]. rewrite <- Z2. split.
    + intros H. apply Inj in H; lra.
    + intros H. rewrite H. do 3 f_equal. lra.
Qed.

(** *** blurred and averaged images *)
Lemma psnr_le mx eps (a b a' b' : tensor RF) m m' : 0 < mx -> 0 <= eps -> shp m = [] -> shp m' = [] ->
  mse_forward RMean a b AxNone = Ok m -> mse_forward RMean a' b' AxNone = Ok m' -> at_ m' [] <= at_ m [] ->
  forall z', psnr_forward mx eps RMean a' b' AxNone = Ok z' -> exists z, psnr_forward mx eps RMean a b AxNone = Ok z /\ shp z = [] /\ shp z' = [] /\ at_ z [] <= at_ z' [].
Proof.
  intros Hm He S S' M M' H z' E'. destruct (psnr_inv _ _ _ _ _ _ _ _ Hm He M' E') as [Sz' V']. destruct (V' []) as [P' Ez']; [rewrite S'; constructor|].
  destruct (psnr_of_mse mx eps RMean a b AxNone m Hm He M) as (z & Ez & Sz & Vz).
  { intros j Vj. rewrite S in Vj. inversion Vj; subst. lra. }
  exists z. split; auto. split; [congruence|]. split; [congruence|]. rewrite Ez', Vz by (rewrite S; constructor).
  apply Rmult_le_compat_l; [lra|]. assert (0 < mx * mx) by nra. apply log10_le; [apply Rdiv_lt_0_compat; lra|]. unfold Rdiv. apply Rmult_le_compat_l; [lra|]. apply Rinv_le_contravar; lra.
Qed.
Theorem psnr_blur mx eps fuel junk fuel' junk' (f : pool RF) (x y : tensor RF) ax al kers p ms : 0 < mx -> 0 <= eps ->
  built (length al) kers (repeat 1%Z (length al)) (Some p) f ->
  same_call RF fuel p x ax al ms kers (repeat 1%Z (length al)) -> same_call RF fuel' p y ax al ms kers (repeat 1%Z (length al)) -> shp y = shp x ->
  (forall n, In n (shp x) -> (1 <= n)%Z) ->
  (forall r, (r < length al)%nat -> Z.odd (klen (eff_kernel (nth r kers []))) = true /\
     (nth r ms MUnknown = MCircular \/ nth r ms MUnknown = MSymmetric /\ rev (nth r kers []) = nth r kers [])) \/ ms = repeat MCircular (length al) ->
  (forall k, In k kers -> (k = [] \/ wsum k = @f1 RF) /\ (forall e, In e k -> @fle RF f0 e)) ->
  exists u v, snd (sep_forward fuel junk f x ax) = Ok u /\ snd (sep_forward fuel' junk' f y ax) = Ok v /\
    forall z', psnr_forward mx eps RMean u v AxNone = Ok z' ->
      exists z, psnr_forward mx eps RMean x y AxNone = Ok z /\ shp z = [] /\ shp z' = [] /\ at_ z [] <= at_ z' [].
Proof.
  intros Hm He B C C' S Pn Hk Hw. destruct (mse_blur RF fuel junk fuel' junk' f x y ax al kers p ms B C C' S Pn Hk Hw) as (u & v & s & t & U & V & Es & Et & Ss & St & L).
  exists u, v. split; auto. split; auto. apply RF_le in L. now apply (psnr_le mx eps x y u v t s).
Qed.
Theorem psnr_blocks mx eps fuel junk fuel' junk' (ks : nds Z) stride (m : pool RF) (x y : tensor RF) ax al l sts : 0 < mx -> 0 <= eps ->
  on_axes x ax al -> shp y = shp x -> (forall n, In n (shp x) -> (1 <= n)%Z) ->
  expand (length al) ks = Some l -> expand (length al) stride = Some sts -> avg_init ks stride None = Ok m -> tiled (shp x) al l sts ->
  exists u v, snd (avg_forward fuel junk true m x ax) = Ok u /\ snd (avg_forward fuel' junk' true m y ax) = Ok v /\
    forall z', psnr_forward mx eps RMean u v AxNone = Ok z' ->
      exists z, psnr_forward mx eps RMean x y AxNone = Ok z /\ shp z = [] /\ shp z' = [] /\ at_ z [] <= at_ z' [].
Proof.
  intros Hm He OA S Pn El Es Ei Ti. destruct (block_pythagoras RF fuel junk fuel' junk' ks stride m x y ax al l sts OA S Pn El Es Ei Ti) as (u & v & U & V & _ & _ & _ & _ & s & t & E1 & E2 & S1 & S2 & L).
  exists u, v. split; auto. split; auto. apply RF_le in L. now apply (psnr_le mx eps x y u v t s).
Qed.

(** *** attained results: six relative errors *)
Lemma rounds_scale (e c v : R) : Rabs (c - 1) <= e -> rounds (F := RF) e v (c * v).
Proof. intros H. apply RF_rounds. replace (c * v - v) with ((c - 1) * v) by ring. rewrite Rabs_mult. apply Rmult_le_compat_r; auto. apply Rabs_pos. Qed.
Theorem psnr_attained e mx eps r (a b m y : tensor RF) ax al c0 c1 c2 c3 c4 c5 : 0 <= e < 1 -> 0 < mx -> 0 <= eps -> on_axes a ax al -> shp a = shp b ->
  (r = RMean -> forall d, In d (reduced (ndim a) al) -> (0 < nth d (shp a) 0)%Z) ->
  (forall c, In c [c0; c1; c2; c3; c4; c5] -> Rabs (c - 1) <= e) -> (eps = 0 -> c0 = 1) ->
  mse_forward r a b ax = Ok m -> psnr_forward mx eps r a b ax = Ok y ->
  fl_psnr_forward e mx eps r a b ax
    (mkT (shp m) (fun j => c5 * (c4 * (20 * (c3 * log10 mx)) - c2 * (10 * (c1 * log10 (c0 * (at_ m j + eps))))) : RF)).
Proof.
  intros He Hm Heps OA S Hp Hc H0 M E. split; auto. destruct (psnr_inv mx eps r a b ax m y Hm Heps M E) as [Sy Vy].
  exists m. split; [apply (mse_exact RF e r a b m ax al); auto; apply RF_le; exact (proj1 He)|]. split; [reflexivity|]. intros j Vj. destruct (Vy j Vj) as [P _].
  assert (P0 : 0 < c0). { assert (Q : Rabs (c0 - 1) <= e) by (apply Hc; cbn; auto). apply Rabs_le_inv in Q. lra. }
  exists (c0 * (at_ m j + eps)), (c1 * log10 (c0 * (at_ m j + eps))), (c3 * log10 mx), (c4 * (20 * (c3 * log10 mx))), (c2 * (10 * (c1 * log10 (c0 * (at_ m j + eps))))).
  split; [|split; [now apply Rmult_lt_0_compat|]].
  - destruct (R_leb eps 0) eqn:B; [|apply rounds_scale; apply Hc; cbn; auto]. apply R_leb_iff in B. assert (E0 : eps = 0) by lra. rewrite (H0 E0), E0.
    rewrite Rplus_0_r, Rmult_1_l. reflexivity.
  - repeat split; apply rounds_scale; apply Hc; cbn; auto 8.
Qed.
