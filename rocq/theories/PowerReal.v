(** safe_power over the reals: the signed power v -> sign(v) |v|^e. *)
From Coq Require Import Reals Lra Lia.
From Verif Require Export MiscProofs RField.
Open Scope Z_scope.

(** torch.pow on real numbers: the real power of positive bases, and integer powers of all bases but 0. *)
Definition real_pow (pow : R -> R -> R) : Prop :=
  (forall v e, (0 < v)%R -> pow v e = Rpower v e) /\ (forall v z, (v <> 0)%R -> pow v (IZR z) = powerRZ v z).
(** power.py:48 [torch.floor(exponent) != exponent] *)
Definition rfrac (e : R) : bool := if Req_EM_T (IZR (Int_part e)) e then false else true.
(** The exponent that belongs to position i, and exponents that broadcast to the shape of x. *)
Definition exponent_at (e : operand RF) (i : list Z) : R := at_ (as_tensor e) (bidx (shp (as_tensor e)) i).
Definition fits (x : tensor RF) (e : operand RF) : Prop := bshape (shp x) (shp (as_tensor e)) = Some (shp x).

Lemma rfrac_int e : rfrac e = false <-> exists z, e = IZR z.
Proof.
  unfold rfrac. destruct (Req_EM_T _ _) as [H|H]; split; try discriminate; intros; [now exists (Int_part e)|reflexivity|].
  exfalso. destruct H0 as [z ->]. apply H. f_equal. unfold Int_part. pose proof (tech_up (IZR z) (z + 1)) as T. rewrite <- T; [lia| |]; rewrite plus_IZR; lra.
Qed.
Definition some_pow (v e : R) : R := if Rlt_dec 0 v then Rpower v e else powerRZ v (Int_part e).
Lemma some_pow_real : real_pow some_pow.
Proof.
  split.
  - intros v e H. unfold some_pow. now destruct (Rlt_dec 0 v).
  - intros v z H. unfold some_pow. destruct (Rlt_dec 0 v); [symmetry; now apply powerRZ_Rpower|]. f_equal. unfold Int_part.
    pose proof (tech_up (IZR z) (z + 1)) as T. rewrite <- T; [lia| |]; rewrite plus_IZR; lra.
Qed.

Ltac rring := match goal with |- @eq _ ?a ?b => change (@eq R a b) end; ring.

Section PR.
Variable pow : R -> R -> R.
Hypothesis HP : real_pow pow.
Notation sp x e eps := (safe_power (F := RF) pow rfrac (Tens x) e eps).
Notation pa := (power_at RF pow rfrac).

Lemma rpos v e : (0 < Rpower v e)%R.
Proof. apply exp_pos. Qed.
Lemma pa_pos v e eps : (0 < v)%R -> pa v e eps = Rpower v e.
Proof.
  intros H. unfold power_at. destruct (rfrac e); [|now apply HP]. destruct (is_zero (F := RF) v) eqn:Z.
  - apply is_zero_iff in Z. change (v = 0%R) in Z. lra.
  - assert (L : fleb (o := RF) f0 v = true) by (apply RF_le; left; exact H). rewrite L. now apply HP.
Qed.
Lemma pa_neg v e eps : (v < 0)%R -> rfrac e = true -> pa v e eps = (- Rpower (- v) e)%R.
Proof.
  intros H Hf. unfold power_at. rewrite Hf. destruct (is_zero (F := RF) v) eqn:Z.
  - apply is_zero_iff in Z. change (v = 0%R) in Z. lra.
  - destruct (fleb (o := RF) f0 v) eqn:L; [apply RF_le in L; change (0 <= v)%R in L; lra|]. change (- pow (- v) e = - Rpower (- v) e)%R. f_equal. apply HP. lra.
Qed.
Lemma pa_zero e eps : (0 < eps)%R -> rfrac e = true -> pa 0%R e eps = Rpower eps e.
Proof.
  intros H Hf. unfold power_at. rewrite Hf. assert (Z : is_zero (F := RF) 0%R = true) by now apply is_zero_iff. rewrite Z. now apply HP.
Qed.

Lemma sp_at (x : tensor RF) e eps : fits x e -> exists y, sp x e eps = Ok y /\ shp y = shp x /\ forall i, valid (shp x) i -> at_ y i = pa (at_ x i) (exponent_at e i) eps.
Proof.
  intros H. destruct (safe_power_at RF pow rfrac (Tens x) e eps (shp x) H) as [y [Y1 [Y2 Y3]]]. exists y. split; [exact Y1|]. split; [exact Y2|].
  intros i Hi. rewrite (Y3 i Hi). cbn [as_tensor]. now rewrite bidx_same.
Qed.
Lemma sp_val (x y : tensor RF) e eps : fits x e -> sp x e eps = Ok y -> shp y = shp x /\ forall i, valid (shp x) i -> at_ y i = pa (at_ x i) (exponent_at e i) eps.
Proof. intros H E. destruct (sp_at x e eps H) as [y' [Y1 [Y2 Y3]]]. rewrite E in Y1. injection Y1 as <-. auto. Qed.

(** Defined everywhere, with the sign of the input; 0 becomes a positive number. *)
Theorem power_sign (x : tensor RF) e eps : fits x e -> (0 < eps)%R -> (forall i, valid (shp x) i -> rfrac (exponent_at e i) = true) ->
  exists y, sp x e eps = Ok y /\ shp y = shp x /\ forall i, valid (shp x) i ->
    ((0 < at_ x i)%R -> (0 < at_ y i)%R) /\ ((at_ x i < 0)%R -> (at_ y i < 0)%R) /\ (at_ x i = 0%R -> at_ y i = Rpower eps (exponent_at e i)) /\ at_ y i <> 0%R.
Proof.
  intros Hs He Hf. destruct (sp_at x e eps Hs) as [y [Y1 [Y2 Y3]]]. exists y. split; [exact Y1|]. split; [exact Y2|]. intros i Hi. specialize (Hf i Hi). rewrite (Y3 i Hi). clear Y3.
  generalize dependent (exponent_at e i). intros w Hf. set (v := at_ x i : R). change (at_ x i) with v.
  pose proof (rpos v w). pose proof (rpos (- v) w). pose proof (rpos eps w).
  split; [intros Q; now rewrite pa_pos|]. split; [intros Q; rewrite pa_neg by auto; lra|]. split; [intros ->; now apply pa_zero|].
  destruct (Rtotal_order v 0) as [Q|[Q|Q]]; [rewrite pa_neg by auto; lra|rewrite Q, pa_zero by auto; lra|rewrite pa_pos by auto; lra].
Qed.
(** Odd. *)
Theorem power_odd (x x' y y' : tensor RF) e eps : fits x e -> shp x' = shp x -> (forall i, valid (shp x) i -> at_ x' i = (- at_ x i)%R) ->
  sp x e eps = Ok y -> sp x' e eps = Ok y' -> forall i, valid (shp x) i -> rfrac (exponent_at e i) = true -> at_ x i <> 0%R -> at_ y' i = (- at_ y i)%R.
Proof.
  intros Hs Sx Hx E E' i Hi Hf N. assert (Hs' : fits x' e) by (unfold fits in *; now rewrite Sx).
  apply (sp_val _ _ _ _ Hs) in E as [_ E]. apply (sp_val _ _ _ _ Hs') in E' as [_ E']. rewrite (E i Hi), E' by (now rewrite Sx). rewrite Hx by auto.
  generalize dependent (exponent_at e i). intros w Hf. set (v := at_ x i : R) in *. change (at_ x i) with v.
  destruct (Rtotal_order v 0) as [Q|[Q|Q]]; [|contradiction|].
  - rewrite (pa_pos (- v)) by lra. rewrite pa_neg by auto. lra.
  - rewrite (pa_neg (- v)) by (auto; lra). rewrite pa_pos by auto. now rewrite Ropp_involutive.
Qed.
(** Strictly increasing on the numbers other than 0 for positive exponents. *)
Theorem power_increasing (x y : tensor RF) e w eps : fits x e -> sp x e eps = Ok y -> (forall i, valid (shp x) i -> exponent_at e i = w) -> rfrac w = true -> (0 < w)%R ->
  forall i j, valid (shp x) i -> valid (shp x) j -> at_ x i <> 0%R -> at_ x j <> 0%R -> (at_ x i < at_ x j)%R -> (at_ y i < at_ y j)%R.
Proof.
  intros Hs E He Hf Hw i j Hi Hj Ni Nj L. apply (sp_val _ _ _ _ Hs) in E as [_ E]. rewrite !E, !He by auto.
  set (u := at_ x i : R) in *. set (v := at_ x j : R) in *. change (at_ x i) with u. change (at_ x j) with v.
  destruct (Rtotal_order u 0) as [Q|[Q|Q]]; [|contradiction|].
  - rewrite (pa_neg u) by auto. destruct (Rtotal_order v 0) as [Q'|[Q'|Q']]; [|contradiction|].
    + rewrite (pa_neg v) by auto. apply Ropp_lt_contravar. apply Rlt_Rpower_l; lra.
    + rewrite pa_pos by auto. pose proof (rpos (- u) w). pose proof (rpos v w). lra.
  - rewrite !pa_pos by lra. apply Rlt_Rpower_l; lra.
Qed.
(** Powers of products. *)
Theorem power_product (x x' p y y' q : tensor RF) e eps : fits x e -> shp x' = shp x -> shp p = shp x -> (forall i, valid (shp x) i -> at_ p i = (at_ x i * at_ x' i)%R) ->
  sp x e eps = Ok y -> sp x' e eps = Ok y' -> sp p e eps = Ok q -> forall i, valid (shp x) i -> rfrac (exponent_at e i) = true -> at_ p i <> 0%R ->
  at_ q i = (at_ y i * at_ y' i)%R.
Proof.
  intros Hs Sx Sp Hp E E' Eq i Hi Hf N. assert (Hs' : fits x' e) by (unfold fits in *; now rewrite Sx). assert (Hq : fits p e) by (unfold fits in *; now rewrite Sp).
  apply (sp_val _ _ _ _ Hs) in E as [_ E]. apply (sp_val _ _ _ _ Hs') in E' as [_ E']. apply (sp_val _ _ _ _ Hq) in Eq as [_ Eq].
  rewrite (E i Hi), E', Eq by (now rewrite ?Sx, ?Sp). rewrite Hp in N |- * by auto.
  generalize dependent (exponent_at e i). intros w Hf. set (u := at_ x i : R) in *. set (v := at_ x' i : R) in *. change (at_ x i) with u. change (at_ x' i) with v.
  assert (Nu : u <> 0%R) by (intros ->; apply N; lra). assert (Nv : v <> 0%R) by (intros K; apply N; rewrite K; lra).
  destruct (Rtotal_order u 0) as [Q|[Q|Q]]; [|contradiction|]; (destruct (Rtotal_order v 0) as [Q'|[Q'|Q']]; [|contradiction|]).
  - rewrite (pa_neg u), (pa_neg v), pa_pos by (auto; nra). replace (u * v)%R with (- u * - v)%R by ring. rewrite <- Rpower_mult_distr by lra. rring.
  - rewrite (pa_neg u), (pa_pos v), pa_neg by (auto; nra). replace (- (u * v))%R with (- u * v)%R by ring. rewrite <- Rpower_mult_distr by lra. rring.
  - rewrite (pa_pos u), (pa_neg v), pa_neg by (auto; nra). replace (- (u * v))%R with (u * - v)%R by ring. rewrite <- Rpower_mult_distr by lra. rring.
  - rewrite !pa_pos by (auto; nra). now rewrite Rpower_mult_distr.
Qed.

Lemma powerRZ_m1 z : powerRZ (-1) z = (if Z.odd z then -1 else 1)%R.
Proof.
  assert (A : forall k, powerRZ (-1) (2 * k) = 1%R).
  { intros k. replace (2 * k) with (k + k) by lia. rewrite powerRZ_add by lra. rewrite <- powerRZ_mult. replace (-1 * -1)%R with 1%R by ring. apply powerRZ_R1. }
  pose proof (Zdiv2_odd_eqn z) as D. destruct (Z.odd z).
  - rewrite D, powerRZ_add by lra. rewrite A, Rmult_1_l. apply (powerRZ_1 (-1)).
  - rewrite D, Z.add_0_r. apply A.
Qed.
(** Two powers after each other; afterwards with the reciprocal exponent, fractional or an integer. *)
Theorem power_compose (x y z t : tensor RF) e e' e'' eps : fits x e -> fits x e' -> fits x e'' -> (0 < eps)%R ->
  sp x e eps = Ok y -> sp y e' eps = Ok z -> sp x e'' eps = Ok t ->
  forall i, valid (shp x) i -> rfrac (exponent_at e i) = true -> rfrac (exponent_at e' i) = true -> rfrac (exponent_at e'' i) = true ->
  exponent_at e'' i = (exponent_at e i * exponent_at e' i)%R -> at_ z i = at_ t i.
Proof.
  intros H1 H2 H3 Hp E E' E'' i Hi F1 F2 F3 Ee. apply (sp_val _ _ _ _ H1) in E as [Sy E]. assert (H2' : fits y e') by (unfold fits in *; now rewrite Sy).
  apply (sp_val _ _ _ _ H2') in E' as [_ E']. apply (sp_val _ _ _ _ H3) in E'' as [_ E'']. rewrite E' by (now rewrite Sy). rewrite (E'' i Hi), (E i Hi). clear E E' E''. rewrite Ee in *. clear Ee.
  generalize dependent (exponent_at e i). generalize dependent (exponent_at e' i). intros b Fb a Fa Fab. set (v := at_ x i : R). change (at_ x i) with v.
  destruct (Rtotal_order v 0) as [Q|[Q|Q]].
  - rewrite (pa_neg v a), (pa_neg v (a * b)%R) by auto. pose proof (rpos (- v) a). rewrite pa_neg by (auto; lra). now rewrite Ropp_involutive, Rpower_mult.
  - rewrite Q, (pa_zero a), (pa_zero (a * b)%R) by auto. rewrite pa_pos by apply rpos. apply Rpower_mult.
  - rewrite (pa_pos v a), (pa_pos v (a * b)%R) by auto. rewrite pa_pos by apply rpos. apply Rpower_mult.
Qed.
Theorem power_inverse (x y z : tensor RF) e e' eps : fits x e -> fits x e' -> (0 < eps)%R -> sp x e eps = Ok y -> sp y e' eps = Ok z ->
  shp z = shp x /\ forall i, valid (shp x) i -> rfrac (exponent_at e i) = true -> (exponent_at e i * exponent_at e' i = 1)%R ->
  (at_ x i = 0%R -> at_ z i = eps) /\
  (at_ x i <> 0%R -> rfrac (exponent_at e' i) = true -> at_ z i = at_ x i) /\
  (forall n, at_ x i <> 0%R -> exponent_at e' i = IZR n -> at_ z i = if Z.odd n then at_ x i else Rabs (at_ x i)).
Proof.
  intros H1 H2 Hp E E'. apply (sp_val _ _ _ _ H1) in E as [Sy E]. assert (H2' : fits y e') by (unfold fits in *; now rewrite Sy).
  apply (sp_val _ _ _ _ H2') in E' as [Sz E']. split; [now rewrite Sz|]. intros i Hi Fa Eab. rewrite E' by (now rewrite Sy). rewrite (E i Hi). clear E E'.
  generalize dependent (exponent_at e i). generalize dependent (exponent_at e' i). intros b a Fa Eab. set (v := at_ x i : R). change (at_ x i) with v.
  assert (K : forall u, (0 < u)%R -> Rpower (Rpower u a) b = u) by (intros u Hu; rewrite Rpower_mult, Eab; now apply Rpower_1).
  split; [intros ->; rewrite (pa_zero a) by auto; rewrite pa_pos by apply rpos; now apply K|]. split.
  - intros N Fb. destruct (Rtotal_order v 0) as [Q|[Q|Q]]; [|contradiction|].
    + rewrite (pa_neg v a) by auto. pose proof (rpos (- v) a). rewrite pa_neg by (auto; lra). rewrite Ropp_involutive, K by lra. rring.
    + rewrite (pa_pos v a) by auto. rewrite pa_pos by apply rpos. now apply K.
  - intros n N Eb. destruct (Rtotal_order v 0) as [Q|[Q|Q]]; [|contradiction|].
    + rewrite (pa_neg v a) by auto. pose proof (rpos (- v) a) as P. assert (Fb : rfrac b = false) by (apply rfrac_int; eauto). unfold power_at at 1. rewrite Fb.
      assert (R1 : pow (- Rpower (- v) a) b = powerRZ (- Rpower (- v) a) n) by (rewrite Eb; apply HP; lra). etransitivity; [exact R1|].
      replace (- Rpower (- v) a)%R with (-1 * Rpower (- v) a)%R by ring. rewrite powerRZ_mult, powerRZ_m1, powerRZ_Rpower, <- Eb, K by lra.
      destruct (Z.odd n); [rring|]. rewrite Rabs_left by auto. rring.
    + rewrite (pa_pos v a) by auto. rewrite pa_pos by apply rpos. rewrite K by auto. rewrite Rabs_right by lra. now destruct (Z.odd n).
Qed.
(** The slope at every number other than 0 is finite. *)
Lemma pa_slope v w eps : rfrac w = true -> (v <> 0)%R -> derivable_pt_lim (fun u => pa u w eps) v (w * Rpower (Rabs v) (w - 1))%R.
Proof.
  intros Hf N. destruct (Rtotal_order v 0) as [Q|[Q|Q]]; [|contradiction|].
  - rewrite Rabs_left by auto. pose proof (derivable_pt_lim_power (- v) w) as D. specialize (D ltac:(lra)).
    intros r Hr. destruct (D r Hr) as [[d Hd] G]. cbn in G. assert (Pm : (0 < Rmin d (- v))%R) by (apply Rmin_pos; lra).
    exists (mkposreal _ Pm). cbn. intros h Hh Lh. assert (La : (Rabs h < d)%R) by (eapply Rlt_le_trans; [exact Lh|apply Rmin_l]). assert (Lb : (Rabs h < - v)%R) by (eapply Rlt_le_trans; [exact Lh|apply Rmin_r]).
    assert (v + h < 0)%R by (apply Rabs_def2 in Lb; lra). rewrite !pa_neg by auto. specialize (G (- h)%R). rewrite Rabs_Ropp in G.
    replace ((- Rpower (- (v + h)) w - - Rpower (- v) w) / h)%R with ((Rpower (- v + - h) w - Rpower (- v) w) / - h)%R; [apply G; lra|]. replace (- (v + h))%R with (- v + - h)%R by ring. field. auto.
  - rewrite Rabs_right by lra. pose proof (derivable_pt_lim_power v w Q) as D.
    intros r Hr. destruct (D r Hr) as [[d Hd] G]. cbn in G. assert (Pm : (0 < Rmin d v)%R) by (apply Rmin_pos; lra).
    exists (mkposreal _ Pm). cbn. intros h Hh Lh. assert (La : (Rabs h < d)%R) by (eapply Rlt_le_trans; [exact Lh|apply Rmin_l]). assert (Lb : (Rabs h < v)%R) by (eapply Rlt_le_trans; [exact Lh|apply Rmin_r]).
    assert (0 < v + h)%R by (apply Rabs_def2 in Lb; lra). rewrite !pa_pos by auto. now apply G.
Qed.
Theorem power_slope (f : R -> R) v w eps : (forall u, exists y, safe_power (F := RF) pow rfrac (Scalar (F := RF) u) (Scalar (F := RF) w) eps = Ok y /\ shp y = [] /\ at_ y [] = f u) ->
  rfrac w = true -> (v <> 0)%R -> derivable_pt_lim f v (w * Rpower (Rabs v) (w - 1))%R.
Proof.
  intros Hf Hw N. assert (E : forall u, f u = pa u w eps).
  { intros u. destruct (Hf u) as [y [Y1 [Y2 Y3]]]. destruct (safe_power_at RF pow rfrac (Scalar u) (Scalar w) eps [] eq_refl) as [y' [Z1 [Z2 Z3]]]. rewrite Y1 in Z1. injection Z1 as <-.
    rewrite <- Y3, Z3 by constructor. reflexivity. }
  intros r Hr. destruct (pa_slope v w eps Hw N r Hr) as [d Hd]. exists d. intros h Hh Lh. rewrite !E. now apply Hd.
Qed.
End PR.
(** Close to 0 the order is not kept: 0 is treated as epsilon. *)
Theorem power_near_zero pow : real_pow pow -> forall w eps, rfrac w = true -> (0 < w)%R -> (0 < eps)%R -> forall (x y : tensor RF), shp x = [2] -> at_ x [0]%Z = 0%R -> (0 < at_ x [1]%Z < eps)%R ->
  safe_power pow rfrac (Tens x) (Scalar (F := RF) w) eps = Ok y -> (at_ x [0]%Z < at_ x [1]%Z)%R /\ (at_ y [1]%Z < at_ y [0]%Z)%R.
Proof.
  intros HP w eps Hf Hw He x y Sx X0 X1 E. assert (Hs : fits x (Scalar (F := RF) w)) by (unfold fits; rewrite Sx; reflexivity).
  apply (sp_val pow x y _ eps Hs) in E as [Sy E]. rewrite !E by (rewrite Sx; repeat constructor; lia).
  change (exponent_at (Scalar (F := RF) w) [0]) with w. change (exponent_at (Scalar (F := RF) w) [1]) with w. rewrite X0.
  rewrite (pa_zero pow HP) by auto. rewrite (pa_pos pow HP) by apply X1. split; [apply X1|]. apply Rlt_Rpower_l; auto.
Qed.

