(** random.py's noise functions and pixels_per_degree. *)
From Coq Require Import Reals Lra.
From Verif Require Export NoiseModel MiscProofs.
Open Scope R_scope.

Ltac asR := match goal with |- @eq _ ?a ?b => change (@eq R a b) end.
Lemma spread_abs s : spread s = Rabs s.
Proof. unfold spread. replace (s ^ 2) with (Rsqr s) by (unfold Rsqr; ring). apply sqrt_Rsqr_abs. Qed.

Theorem gauss_noise_ok normal (x : tensor RF) sigma : exists y, add_gauss_noise normal x sigma = Ok y /\ shp y = shp x /\
  forall i, valid (shp x) i -> at_ y i = at_ x i + Rabs sigma * normal i.
Proof.
  unfold add_gauss_noise. destruct (tmap2_same (A := RF) (B := RF) (C := RF) Rplus (tmap (A := RF) (B := RF) (fun v => v * spread sigma) (trandn normal (shp x))) x eq_refl) as [y [A [B C]]].
  exists y. split; auto. split; [exact B|]. intros i V. rewrite (C i V). cbn [tmap at_ trandn]. rewrite spread_abs. asR. ring.
Qed.
Lemma tany_exists (m : tensor bool) i : valid (shp m) i -> at_ m i = true -> tany m = true.
Proof. intros V E. unfold tany. apply existsb_exists. exists i. split; auto. now apply In_tindices. Qed.
Theorem poisson_noise_ok pois normal (x : tensor RF) k sigma : k <> 0 -> (forall i, valid (shp x) i -> 0 <= at_ x i / k) ->
  exists y, add_poisson_gauss_noise pois normal x k sigma = Ok y /\ shp y = shp x /\
    forall i, valid (shp x) i -> at_ y i = k * INR (pois i (at_ x i / k)) + Rabs sigma * normal i.
Proof.
  intros K H. unfold add_poisson_gauss_noise. destruct (Req_EM_T k 0) as [E|_]; [contradiction|]. unfold tpoisson.
  destruct (tany _) eqn:T.
  - exfalso. unfold tany in T. apply existsb_exists in T as [i [I E]]. apply In_tindices in I. cbn [tmap shp at_] in *.
    specialize (H i I). apply R_leb_iff in H. rewrite H in E. discriminate.
  - cbn [bind]. match goal with |- context [tmap2 Rplus ?a ?b] => destruct (tmap2_same (A := RF) (B := RF) (C := RF) Rplus a b eq_refl) as [y [A [B C]]] end.
    exists y. split; auto. split; [exact B|]. intros i V. rewrite (C i V). cbn [tmap at_ trandn]. rewrite spread_abs. asR. ring.
Qed.
Theorem poisson_noise_errors pois normal (x : tensor RF) k sigma :
  (k = 0 -> add_poisson_gauss_noise pois normal x k sigma = Err ZeroDivisionError) /\
  (k <> 0 -> (exists i, valid (shp x) i /\ at_ x i / k < 0) -> add_poisson_gauss_noise pois normal x k sigma = Err RuntimeError).
Proof.
  unfold add_poisson_gauss_noise. split.
  - intros ->. destruct (Req_EM_T 0 0); [reflexivity|contradiction].
  - intros K [i [V L]]. destruct (Req_EM_T k 0) as [E|_]; [contradiction|]. unfold tpoisson. rewrite (tany_exists _ i); [reflexivity|exact V|].
    cbn [tmap at_]. unfold R_leb. destruct (Rle_dec 0 (at_ x i / k)); [lra|reflexivity].
Qed.

(** A finite probability space: weighted outcomes. *)
Definition expectation {W} (outcomes : list (R * W)) (f : W -> R) : R := fold_right Rplus 0 (map (fun o => fst o * f (snd o)) outcomes).
Definition distribution {W} (outcomes : list (R * W)) : Prop := (forall o, In o outcomes -> 0 <= fst o) /\ expectation outcomes (fun _ => 1) = 1.
Lemma ex_ext {W} (o : list (R * W)) f g : (forall w, f w = g w) -> expectation o f = expectation o g.
Proof. intros H. unfold expectation. f_equal. apply map_ext. intros. now rewrite H. Qed.
Lemma ex_lin {W} (o : list (R * W)) f g a b : expectation o (fun w => a * f w + b * g w) = a * expectation o f + b * expectation o g.
Proof. unfold expectation. induction o as [|[p w] o IH]; cbn [map fold_right fst snd]; [ring|]. rewrite IH. ring. Qed.
Lemma ex_const {W} (o : list (R * W)) c : distribution o -> expectation o (fun _ => c) = c.
Proof. intros [_ D]. rewrite (ex_ext o _ (fun _ => c * 1 + 0 * 1)) by (intros; ring). rewrite ex_lin, D. ring. Qed.

(** Draws whose first two moments at index i are those of a standard normal variable / of a Poisson
    variable of rate r and an uncorrelated standard normal variable. *)
Definition standard {W} (o : list (R * W)) (z : W -> R) : Prop := expectation o z = 0 /\ expectation o (fun w => z w ^ 2) = 1.
Definition poisson_like {W} (o : list (R * W)) (n : W -> R) (r : R) : Prop :=
  expectation o n = r /\ expectation o (fun w => (n w - r) ^ 2) = r.

Theorem gauss_noise_moments {W} (o : list (R * W)) (normal : W -> normal_draw) (y : W -> tensor RF) (x : tensor RF) sigma i :
  distribution o -> valid (shp x) i -> standard o (fun w => normal w i) ->
  (forall w, add_gauss_noise (normal w) x sigma = Ok (y w)) ->
  expectation o (fun w => at_ (y w) i) = at_ x i /\ expectation o (fun w => (at_ (y w) i - at_ x i) ^ 2) = sigma ^ 2.
Proof.
  intros D V [Z1 Z2] H.
  assert (E : forall w, at_ (y w) i = at_ x i + Rabs sigma * normal w i).
  { intros w. destruct (gauss_noise_ok (normal w) x sigma) as [y' [A [_ B]]]. rewrite H in A. injection A as ->. now apply B. }
  split.
  - rewrite (ex_ext o _ (fun w => 1 * at_ x i + Rabs sigma * normal w i)) by (intros; rewrite E; ring). rewrite ex_lin, Z1.
    rewrite (ex_const o _ D). ring.
  - rewrite (ex_ext o _ (fun w => sigma ^ 2 * normal w i ^ 2 + 0 * 0)).
    + rewrite ex_lin, Z2. ring.
    + intros w. rewrite E. replace ((at_ x i + Rabs sigma * normal w i - at_ x i) ^ 2) with (Rabs sigma ^ 2 * normal w i ^ 2) by ring. rewrite pow2_abs. ring.
Qed.
Theorem poisson_noise_moments {W} (o : list (R * W)) (pois : W -> poisson_draw) (normal : W -> normal_draw) (y : W -> tensor RF) (x : tensor RF) k sigma i :
  distribution o -> k <> 0 -> (forall i, valid (shp x) i -> 0 <= at_ x i / k) -> valid (shp x) i -> let r := at_ x i / k in
  standard o (fun w => normal w i) -> poisson_like o (fun w => INR (pois w i r)) r ->
  expectation o (fun w => (INR (pois w i r) - r) * normal w i) = 0 ->
  (forall w, add_poisson_gauss_noise (pois w) (normal w) x k sigma = Ok (y w)) ->
  expectation o (fun w => at_ (y w) i) = at_ x i /\ expectation o (fun w => (at_ (y w) i - at_ x i) ^ 2) = k * at_ x i + sigma ^ 2.
Proof.
  intros D K NN V r [Z1 Z2] [P1 P2] C H.
  assert (E : forall w, at_ (y w) i = k * INR (pois w i r) + Rabs sigma * normal w i).
  { intros w. destruct (poisson_noise_ok (pois w) (normal w) x k sigma K NN) as [y' [A [_ B]]]. rewrite H in A. injection A as ->. now apply B. }
  assert (X : at_ x i = k * r) by (apply (fun G : forall u : R, u = k * (u / k) => G (at_ x i)); intros u; field; auto). split.
  - rewrite (ex_ext o _ _ E). rewrite ex_lin, Z1, P1, X. ring.
  - rewrite (ex_ext o _ (fun w => k ^ 2 * (INR (pois w i r) - r) ^ 2 + 1 * (sigma ^ 2 * normal w i ^ 2 + 2 * k * Rabs sigma * ((INR (pois w i r) - r) * normal w i)))).
    + rewrite ex_lin, ex_lin, Z2, P2, C, X. ring.
    + intros w. rewrite E, X. assert (A : Rabs sigma ^ 2 = sigma ^ 2) by apply pow2_abs. rewrite <- A. ring.
Qed.

(** ** pixels_per_degree *)
Definition height_of d h w := sqrt (d ^ 2 / (1 + (w / h) ^ 2)).
Lemma height_pos d h w : 0 < d -> 0 < height_of d h w.
Proof. intros H. apply sqrt_lt_R0. apply Rdiv_lt_0_compat; [apply pow_lt; lra|]. pose proof (pow2_ge_0 (w / h)). lra. Qed.
Lemma height_sq d h w : 0 < d -> height_of d h w ^ 2 * (1 + (w / h) ^ 2) = d ^ 2.
Proof.
  intros H. pose proof (pow2_ge_0 (w / h)) as P. unfold height_of. revert P. generalize ((w / h) ^ 2). intros c P. rewrite pow2_sqrt; [field; lra|].
  apply Rlt_le, Rdiv_lt_0_compat; [apply pow_lt; lra|lra].
Qed.
Lemma ppd_ok d h w v : 0 < d -> 0 < h -> 0 < v ->
  let a := atan (height_of d h w / (2000 * v)) in
  0 < a < PI / 2 /\ pixels_per_degree d h w v = Ok (h * PI / (360 * a)).
Proof.
  intros D H V a. pose proof (height_pos d h w D) as P. pose proof PI_RGT_0 as PI0.
  assert (A : 0 < a < PI / 2).
  { split; [|apply atan_bound]. rewrite <- atan_0. apply atan_increasing. apply Rdiv_lt_0_compat; lra. }
  split; auto. unfold pixels_per_degree. destruct (Req_EM_T h 0) as [E|_]; [lra|]. destruct (Req_EM_T (v * 1000) 0) as [E|_]; [lra|].
  fold (height_of d h w). replace (1 / 2 * height_of d h w / (v * 1000)) with (height_of d h w / (2000 * v)) by (field; lra). fold a.
  destruct (Req_EM_T (2 * a * 180 / PI) 0) as [E|_].
  - exfalso. assert (0 < 2 * a * 180 / PI) by (apply Rdiv_lt_0_compat; lra). lra.
  - f_equal. field. lra.
Qed.
(** p pixels per degree: the picture height subtends the angle h / p degrees, seen from distance v. *)
Theorem ppd_meaning d h w v : 0 < d -> 0 < h -> 0 < w -> 0 < v ->
  exists p height width, pixels_per_degree d h w v = Ok p /\ 0 < p /\ 0 < height /\ 0 < width /\
    width * h = height * w /\ height ^ 2 + width ^ 2 = d ^ 2 /\
    (0 < h / p < 180) /\ tan (h / p / 2 * (PI / 180)) * (1000 * v) = height / 2.
Proof.
  intros D H W V. destruct (ppd_ok d h w v D H V) as [A E]. set (a := atan _) in *. pose proof PI_RGT_0 as PI0. pose proof (height_pos d h w D) as P.
  exists (h * PI / (360 * a)), (height_of d h w), (height_of d h w * (w / h)).
  assert (Q : h / (h * PI / (360 * a)) = 360 * a / PI) by (field; lra).
  split; auto. split; [apply Rdiv_lt_0_compat; [apply Rmult_lt_0_compat|]; lra|]. split; auto.
  split; [apply Rmult_lt_0_compat; auto; apply Rdiv_lt_0_compat; auto|]. split; [field; lra|].
  split; [rewrite <- (height_sq d h w D); ring|]. rewrite Q. split.
  - split; [apply Rdiv_lt_0_compat; lra|]. apply (Rmult_lt_reg_r PI); auto. replace (360 * a / PI * PI) with (360 * a) by (field; lra). lra.
  - replace (360 * a / PI / 2 * (PI / 180)) with a by (field; lra). unfold a. rewrite tan_atan. field. lra.
Qed.
Theorem ppd_distance d h w v v' p p' : 0 < d -> 0 < h -> 0 < v < v' ->
  pixels_per_degree d h w v = Ok p -> pixels_per_degree d h w v' = Ok p' -> p < p'.
Proof.
  intros D H V E E'. destruct (ppd_ok d h w v D H ltac:(lra)) as [A P]. destruct (ppd_ok d h w v' D H ltac:(lra)) as [A' P'].
  rewrite P in E. rewrite P' in E'. injection E as <-. injection E' as <-. pose proof (height_pos d h w D) as Q. pose proof PI_RGT_0 as PI0.
  assert (L : atan (height_of d h w / (2000 * v')) < atan (height_of d h w / (2000 * v))).
  { apply atan_increasing. apply Rmult_lt_compat_l; auto. apply Rinv_lt_contravar; [|lra]. apply Rmult_lt_0_compat; lra. }
  apply Rmult_lt_compat_l; [apply Rmult_lt_0_compat; lra|]. apply Rinv_lt_contravar; [|lra]. apply Rmult_lt_0_compat; lra.
Qed.
Theorem ppd_diagonal d d' h w v p p' : 0 < d < d' -> 0 < h -> 0 < v ->
  pixels_per_degree d h w v = Ok p -> pixels_per_degree d' h w v = Ok p' -> p' < p.
Proof.
  intros D H V E E'. destruct (ppd_ok d h w v ltac:(lra) H V) as [A P]. destruct (ppd_ok d' h w v ltac:(lra) H V) as [A' P'].
  rewrite P in E. rewrite P' in E'. injection E as <-. injection E' as <-. pose proof PI_RGT_0 as PI0.
  assert (Q : height_of d h w < height_of d' h w).
  { pose proof (pow2_ge_0 (w / h)). apply sqrt_lt_1.
    - apply Rlt_le, Rdiv_lt_0_compat; [apply pow_lt; lra|lra].
    - apply Rlt_le, Rdiv_lt_0_compat; [apply pow_lt; lra|lra].
    - apply Rmult_lt_compat_r; [apply Rinv_0_lt_compat; lra|]. assert (d * d < d' * d') by (apply Rmult_le_0_lt_compat; lra). cbn [pow]. lra. }
  assert (L : atan (height_of d h w / (2000 * v)) < atan (height_of d' h w / (2000 * v))).
  { apply atan_increasing. apply Rmult_lt_compat_r; auto. apply Rinv_0_lt_compat. lra. }
  apply Rmult_lt_compat_l; [apply Rmult_lt_0_compat; lra|]. apply Rinv_lt_contravar; [|lra]. apply Rmult_lt_0_compat; lra.
Qed.
(** Scaling the display and the distance changes nothing; scaling the resolution scales the result. *)
Theorem ppd_scale c d h w v p : 0 < c -> 0 < d -> 0 < h -> 0 < v -> pixels_per_degree d h w v = Ok p ->
  pixels_per_degree (c * d) h w (c * v) = Ok p /\ pixels_per_degree d (c * h) (c * w) v = Ok (c * p).
Proof.
  intros C D H V E. destruct (ppd_ok d h w v D H V) as [A P]. rewrite P in E. injection E as <-.
  assert (CD : 0 < c * d) by (now apply Rmult_lt_0_compat). assert (CV : 0 < c * v) by (now apply Rmult_lt_0_compat). assert (CH : 0 < c * h) by (now apply Rmult_lt_0_compat).
  split.
  - destruct (ppd_ok (c * d) h w (c * v) CD H CV) as [_ Q]. rewrite Q. do 4 f_equal.
    assert (S : height_of (c * d) h w = c * height_of d h w).
    { unfold height_of. pose proof (pow2_ge_0 (w / h)) as PP. revert PP. generalize ((w / h) ^ 2). intros e PP.
      replace ((c * d) ^ 2 / (1 + e)) with (c ^ 2 * (d ^ 2 / (1 + e))) by (field; lra).
      rewrite sqrt_mult; [|apply pow2_ge_0|apply Rlt_le, Rdiv_lt_0_compat; [apply pow_lt; lra|lra]]. rewrite sqrt_pow2 by lra. reflexivity. }
    rewrite S. field. lra.
  - destruct (ppd_ok d (c * h) (c * w) v D CH V) as [_ Q]. rewrite Q. f_equal.
    assert (S : height_of d (c * h) (c * w) = height_of d h w) by (unfold height_of; replace (c * w / (c * h)) with (w / h) by (field; lra); reflexivity).
    rewrite S. field. lra.
Qed.
Theorem ppd_errors d h w v : h = 0 \/ v = 0 \/ d = 0 -> pixels_per_degree d h w v = Err ZeroDivisionError.
Proof.
  unfold pixels_per_degree. intros H. destruct (Req_EM_T h 0); [reflexivity|]. destruct (Req_EM_T (v * 1000) 0); [reflexivity|].
  destruct H as [E|[E|E]]; [lra|lra|]. subst d. replace (0 ^ 2 / (1 + (w / h) ^ 2)) with 0.
  - rewrite sqrt_0. replace (1 / 2 * 0 / (v * 1000)) with 0 by (field; lra). rewrite atan_0.
    destruct (Req_EM_T (2 * 0 * 180 / PI) 0) as [_|N]; [reflexivity|]. exfalso. apply N. field. apply PI_neq0.
  - pose proof (pow2_ge_0 (w / h)) as PP. revert PP. generalize ((w / h) ^ 2). intros e PP. field. lra.
Qed.
