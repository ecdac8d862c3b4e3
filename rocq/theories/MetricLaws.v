(** MSE and PSNR under changes of brightness and contrast; the triangle inequality of the root of the mse. *)
From Coq Require Import Reals Lra Permutation.
From Verif Require Export MseProofs.
Open Scope Z_scope.

Section Scale.
Variable F : ofield.
Add Field Fscale : (f_field F).
Notation T := (tensor F).

Lemma lsum_scale {A} (f g : A -> F) k l : (forall a, In a l -> g a = fmul k (f a)) -> lsum (map g l) = fmul k (lsum (map f l)).
Proof.
  induction l as [|a l IH]; intros H; unfold lsum in *; cbn [map fold_right]; [ring|]. rewrite H by now left. rewrite IH by (intros; apply H; now right). ring.
Qed.
(** Two pairs of images whose squared differences are in a fixed ratio. *)
Lemma mse_scaled r (a b a' b' : T) ax k : shp a' = shp a -> shp b' = shp b ->
  (forall i, valid (shp a) i -> sq F (fsub (at_ a' i) (at_ b' i)) = fmul k (sq F (fsub (at_ a i) (at_ b i)))) ->
  (exists e, mse_forward r a b ax = Err e /\ mse_forward r a' b' ax = Err e) \/
  exists y z, mse_forward r a b ax = Ok y /\ mse_forward r a' b' ax = Ok z /\ shp z = shp y /\ forall j, valid (shp y) j -> at_ z j = fmul k (at_ y j).
Proof.
  intros Sa Sb H. unfold mse_forward, metric_forward. rewrite Sa, Sb. destruct (list_eq_dec Z.eq_dec (shp a) (shp b)) as [E|E].
  2:{ left. exists AssertionError. unfold seqb. destruct (list_eq_dec Z.eq_dec (shp a) (shp b)); [congruence|]. auto. }
  rewrite E, seqb_refl. cbn [assertb bind]. unfold ndim. rewrite Sa, E. destruct (check_axes (Z.of_nat (length (shp b))) ax) as [axes|e]; [|left; exists e; split; reflexivity]. cbn [bind].
  destruct (mse_full_ok F a b E) as [d [D1 [D2 D3]]]. destruct (mse_full_ok F a' b') as [d' [D1' [D2' D3']]]; [congruence|]. rewrite D1, D1'. cbn [bind].
  assert (Q : forall i, valid (shp a) i -> at_ d' i = fmul k (at_ d i)) by (intros i Hi; rewrite D3, D3' by (auto; now rewrite Sa); now apply H).
  assert (S : shp d' = shp d) by congruence.
  assert (TS : (exists e, tsum d axes false = Err e /\ tsum d' axes false = Err e) \/ exists y z, tsum d axes false = Ok y /\ tsum d' axes false = Ok z /\ shp z = shp y /\ forall j, at_ z j = fmul k (at_ y j)).
  { unfold tsum, ndim. rewrite S. destruct (mapM _ _) as [al|e]; cbn [bind]; [|left; eauto]. destruct (negb _); [left; eauto|].
    right. do 2 eexists. split; [reflexivity|]. split; [reflexivity|]. cbn [shp at_]. split; auto. intros j. apply lsum_scale.
    intros i Hi. unfold block in Hi. apply filter_In in Hi. destruct Hi as [Hi _]. apply In_tindices in Hi. apply Q. now rewrite <- D2. }
  destruct r; cbn [metric_reduce].
  - unfold tmean, ndim. rewrite S. destruct (mapM _ _) as [al|e]; cbn [bind]; [|left; eauto].
    destruct TS as [[e [-> ->]]|[y [z [-> [-> [Z1 Z2]]]]]]; cbn [bind]; [left; eauto|]. rewrite Z1. set (n := zprod (map _ al)).
    destruct ((n =? 0) && negb (zprod (shp y) =? 0)) eqn:B; [left; eauto|]. right. do 2 eexists. split; [reflexivity|]. split; [reflexivity|]. split; auto.
    intros j Hj. cbn [tmap at_ shp] in *. rewrite Z2. assert (N : n <> 0).
    { intros Z0. rewrite Z0 in B. cbn in B. apply negb_false_iff, Z.eqb_eq in B. revert Hj B. clear. generalize (shp y). intros s Hs. induction Hs as [|? ? ? ? Hk Hs IH]; cbn; intros; [lia|].
      unfold zprod in IH. apply Z.mul_eq_0 in B. destruct B as [B|B]; [lia|auto]. }
    field. now apply fofZ_neq0.
  - destruct TS as [TS|[y [z [T1 [T2 [T3 T4]]]]]]; [left; auto|]. right. exists y, z. auto.
  - right. exists d, d'. split; auto. split; auto. split; auto. intros i Hi. apply Q. now rewrite <- D2.
  - left; eauto.
Qed.
Definition affine (s c : F) (x x' : T) : Prop := shp x' = shp x /\ forall i, valid (shp x) i -> at_ x' i = fadd (fmul s (at_ x i)) c.
Theorem mse_affine r s c (a b a' b' : T) ax : affine s c a a' -> affine s c b b' ->
  (exists e, mse_forward r a b ax = Err e /\ mse_forward r a' b' ax = Err e) \/
  exists y z, mse_forward r a b ax = Ok y /\ mse_forward r a' b' ax = Ok z /\ shp z = shp y /\ forall j, valid (shp y) j -> at_ z j = fmul (fmul s s) (at_ y j).
Proof.
  intros [Sa Ha] [Sb Hb]. destruct (list_eq_dec Z.eq_dec (shp a) (shp b)) as [E|E].
  - apply mse_scaled; auto. intros i Hi. rewrite Ha, Hb by (auto; now rewrite <- E). unfold sq. ring.
  - left. exists AssertionError. split; apply mse_shape_error; congruence.
Qed.
End Scale.

Section Triangle.
Open Scope R_scope.
Notation TR := (tensor RF).
Definition sumR (l : list R) : R := @lsum RF l.

Lemma sumR_cons (a : R) (l : list R) : sumR (a :: l) = a + sumR l.
Proof. reflexivity. Qed.
(** Cauchy-Schwarz on lists. *)
Lemma cauchy_schwarz {A} (f g : A -> R) (l : list A) :
  sumR (map (fun i => f i * g i) l) * sumR (map (fun i => f i * g i) l) <= sumR (map (fun i => f i * f i) l) * sumR (map (fun i => g i * g i) l).
Proof.
  assert (P : forall h : A -> R, 0 <= sumR (map (fun i => h i * h i) l)).
  { intros h. induction l as [|a m IH]; [apply Rle_refl|]. cbn [map]. rewrite sumR_cons. nra. }
  assert (Q : forall t, 0 <= sumR (map (fun i => f i * f i) l) + 2 * t * sumR (map (fun i => f i * g i) l) + t * t * sumR (map (fun i => g i * g i) l)).
  { intros t. pose proof (P (fun i => f i + t * g i)) as H. cbv beta in H. replace (sumR (map (fun i => f i * f i) l) + 2 * t * sumR (map (fun i => f i * g i) l) + t * t * sumR (map (fun i => g i * g i) l)) with (sumR (map (fun i => (f i + t * g i) * (f i + t * g i)) l)); auto.
    clear. induction l as [|a m IH]; [cbn; lra|]. cbn [map]. rewrite !sumR_cons, IH. ring. }
  pose proof (P f) as Pf. pose proof (P g) as Pg.
  set (A0 := sumR (map (fun i => f i * f i) l)) in *. set (B0 := sumR (map (fun i => f i * g i) l)) in *. set (C0 := sumR (map (fun i => g i * g i) l)) in *.
  clearbody A0 B0 C0. clear P. destruct (Req_dec C0 0) as [Z|N].
  - destruct (Req_dec B0 0) as [ZB|NB]; [nra|]. exfalso. specialize (Q (- (A0 + 1) / (2 * B0))). rewrite Z in Q.
    replace (A0 + 2 * (- (A0 + 1) / (2 * B0)) * B0 + - (A0 + 1) / (2 * B0) * (- (A0 + 1) / (2 * B0)) * 0) with (-1) in Q by (field; auto). lra.
  - specialize (Q (- B0 / C0)). replace (A0 + 2 * (- B0 / C0) * B0 + - B0 / C0 * (- B0 / C0) * C0) with ((A0 * C0 - B0 * B0) / C0) in Q by (field; auto).
    assert (0 < C0) by lra. assert (0 <= A0 * C0 - B0 * B0); [|lra].
    replace (A0 * C0 - B0 * B0) with ((A0 * C0 - B0 * B0) / C0 * C0) by (field; auto). apply Rmult_le_pos; lra.
Qed.
Lemma sumsq_nonneg {A} (h : A -> R) (l : list A) : 0 <= sumR (map (fun i => h i * h i) l).
Proof. induction l as [|a m IH]; [apply Rle_refl|]. cbn [map]. rewrite sumR_cons. nra. Qed.
Lemma minkowski {A} (f g h : A -> R) (l : list A) : (forall i, In i l -> h i = f i + g i) ->
  sqrt (sumR (map (fun i => h i * h i) l)) <= sqrt (sumR (map (fun i => f i * f i) l)) + sqrt (sumR (map (fun i => g i * g i) l)).
Proof.
  intros H. pose proof (cauchy_schwarz f g l) as CS. pose proof (sumsq_nonneg f l) as Pf. pose proof (sumsq_nonneg g l) as Pg.
  assert (E : sumR (map (fun i => h i * h i) l) = sumR (map (fun i => f i * f i) l) + 2 * sumR (map (fun i => f i * g i) l) + sumR (map (fun i => g i * g i) l)).
  { clear -H. induction l as [|a m IH]; [cbn; lra|]. cbn [map]. rewrite !sumR_cons. rewrite IH by (intros; apply H; now right). rewrite (H a) by now left. ring. }
  rewrite E. set (A0 := sumR (map (fun i => f i * f i) l)) in *. set (B0 := sumR (map (fun i => f i * g i) l)) in *. set (C0 := sumR (map (fun i => g i * g i) l)) in *.
  clearbody A0 B0 C0. pose proof (sqrt_pos A0). pose proof (sqrt_pos C0). pose proof (sqrt_sqrt A0 Pf) as EA. pose proof (sqrt_sqrt C0 Pg) as EC.
  set (p := sqrt A0) in *. set (q := sqrt C0) in *. clearbody p q. apply Rsqr_incr_0_var; [|lra].
  destruct (Rle_dec 0 (A0 + 2 * B0 + C0)) as [Hn|Hn]; [|rewrite sqrt_neg_0 by lra; unfold Rsqr; nra].
  rewrite Rsqr_sqrt by auto. unfold Rsqr. assert (B0 <= p * q); [|nra].
  apply Rnot_lt_le. intros L. assert (0 <= p * q) by nra. assert (p * q * (p * q) < B0 * B0) by nra. subst A0. nra.
Qed.
Theorem rmse_triangle r (a b c : TR) ax al : on_axes a ax al -> shp a = shp b -> shp b = shp c -> r = RNone \/ r = RSum \/ r = RMean ->
  (r = RMean -> forall d, In d (reduced (ndim a) al) -> (0 < nth d (shp a) 0)%Z) ->
  exists x y z, mse_forward r a b ax = Ok x /\ mse_forward r b c ax = Ok y /\ mse_forward r a c ax = Ok z /\ shp y = shp x /\ shp z = shp x /\
    forall j, valid (shp x) j -> sqrt (at_ z j) <= sqrt (at_ x j) + sqrt (at_ y j).
Proof.
  intros A E1 E2 Hr Hp. assert (A' : on_axes b ax al). { destruct A as [A1 A2 A3]. unfold ndim in *. rewrite E1 in *. now constructor. }
  assert (E3 : shp a = shp c) by congruence. assert (N : ndim b = ndim a) by (unfold ndim; now rewrite E1).
  destruct Hr as [-> |[-> | ->]].
  - destruct (mse_none RF a b ax al A E1) as [x [X1 [X2 X3]]]. destruct (mse_none RF b c ax al A' E2) as [y [Y1 [Y2 Y3]]]. destruct (mse_none RF a c ax al A E3) as [z [Z1 [Z2 Z3]]].
    exists x, y, z. repeat split; auto; try congruence. intros j Hj. rewrite X2 in Hj. rewrite X3, Y3, Z3 by (auto; congruence). unfold sq. cbn [fmul fsub RF].
    pose proof (minkowski (fun _ : unit => at_ a j - at_ b j) (fun _ => at_ b j - at_ c j) (fun _ => at_ a j - at_ c j) [tt]) as M.
    cbn [map] in M. rewrite !sumR_cons in M. change (sumR []) with 0 in M. rewrite !Rplus_0_r in M. apply M. intros; lra.
  - destruct (mse_sum RF a b ax al A E1) as [x [X1 [X2 X3]]]. destruct (mse_sum RF b c ax al A' E2) as [y [Y1 [Y2 Y3]]]. destruct (mse_sum RF a c ax al A E3) as [z [Z1 [Z2 Z3]]].
    rewrite N in *. rewrite <- E1 in *. exists x, y, z. repeat split; auto; try congruence. intros j Hj. pose proof (block_ok (shp a) (reduced (ndim a) al) j) as B.
    rewrite (X3 j _ B), (Y3 j _ B), (Z3 j _ B). unfold sq. cbn [fmul fsub RF].
    fold sumR. apply (minkowski (fun i => at_ a i - at_ b i) (fun i => at_ b i - at_ c i) (fun i => at_ a i - at_ c i)). intros; lra.
  - specialize (Hp eq_refl). destruct (mse_mean RF a b ax al A E1 Hp) as [x [X1 [X2 X3]]]. destruct (mse_mean RF b c ax al A' E2) as [y [Y1 [Y2 Y3]]]; [rewrite N, <- E1; auto|]. destruct (mse_mean RF a c ax al A E3 Hp) as [z [Z1 [Z2 Z3]]].
    rewrite N in *. rewrite <- E1 in *. exists x, y, z. repeat split; auto; try congruence. intros j Hj. pose proof (block_ok (shp a) (reduced (ndim a) al) j) as B.
    rewrite (X3 j _ B), (Y3 j _ B), (Z3 j _ B). unfold sq. cbn [fmul fsub fdiv RF]. rewrite RF_ofZ.
    pose proof (count_pos RF a _ Hp) as C. unfold red_count in C. set (n := zprod _) in *. apply IZR_lt in C. rewrite !sqrt_div_alt by auto.
    unfold Rdiv. rewrite <- Rmult_plus_distr_r. apply Rmult_le_compat_r; [left; apply Rinv_0_lt_compat, sqrt_lt_R0, C|].
    apply (minkowski (fun i => at_ a i - at_ b i) (fun i => at_ b i - at_ c i) (fun i => at_ a i - at_ c i)). intros; lra.
Qed.

(** Scaling the images and the maximal value alike leaves the PSNR unchanged. *)
Lemma log10_mult u v : 0 < u -> 0 < v -> log10 (u * v) = log10 u + log10 v.
Proof. intros. unfold log10. rewrite ln_mult by auto. field. pose proof ln10_pos. lra. Qed.
Theorem psnr_scale mx eps s r (a b a' b' : TR) c ax : 0 < s -> affine RF s c a a' -> affine RF s c b b' ->
  (exists e, psnr_forward mx eps r a b ax = Err e /\ psnr_forward (s * mx) (s * s * eps) r a' b' ax = Err e) \/
  exists y z, psnr_forward mx eps r a b ax = Ok y /\ psnr_forward (s * mx) (s * s * eps) r a' b' ax = Ok z /\ teq y z.
Proof.
  intros Hs Ha Hb. unfold psnr_forward. destruct (mse_affine RF r s c a b a' b' ax Ha Hb) as [[e [-> ->]]|[y [z [-> [-> [S E]]]]]]; [left; exists e; split; reflexivity|]. cbn [bind].
  assert (Hss : 0 < s * s) by nra.
  assert (B1 : forall u t, 0 < u -> R_leb (u * t) 0 = R_leb t 0). { intros u t Hu. apply eq_true_iff_eq. rewrite !R_leb_iff. split; intros; nra. }
  rewrite !B1 by auto.
  set (u := if R_leb eps 0 then y else _). set (v := if R_leb eps 0 then z else _).
  assert (U : shp v = shp u /\ forall j, valid (shp u) j -> at_ v j = s * s * at_ u j).
  { unfold u, v. destruct (R_leb eps 0); cbn [tmap shp at_]; split; auto. intros j Hj. rewrite E by auto. cbn [fmul RF]. symmetry. apply Rmult_plus_distr_l. }
  clearbody u v. clear y z S E. destruct U as [U1 U2]. unfold tlog10.
  assert (G : tany (tmap (fun w : RF => R_leb w 0) v) = tany (tmap (fun w : RF => R_leb w 0) u)).
  { unfold tany. cbn [tmap shp at_]. rewrite U1. apply eq_true_iff_eq. rewrite !existsb_exists. split; intros [i [Hi G]]; exists i; split; auto; apply In_tindices in Hi; rewrite U2, B1 in * by auto; auto. }
  rewrite G. destruct (tany (tmap (fun w : RF => R_leb w 0) u)) eqn:Q; cbn [bind]; [left; exists ValueError; split; reflexivity|]. destruct (R_leb mx 0) eqn:M; [left; exists ValueError; split; reflexivity|].
  right. do 2 eexists. split; [reflexivity|]. split; [reflexivity|]. split; [now cbn|]. cbn [tmap shp at_]. intros j Hj. rewrite U2 by auto.
  assert (0 < at_ u j).
  { apply Rnot_le_lt. intros L. assert (tany (tmap (fun w : RF => R_leb w 0) u) = true); [|congruence]. unfold tany. apply existsb_exists. exists j. cbn [tmap shp at_]. split; [now apply In_tindices|now apply R_leb_iff]. }
  apply R_leb_false in M. rewrite !log10_mult by auto. match goal with |- @eq _ ?l ?r => change (@eq R l r) end. ring.
Qed.
End Triangle.
