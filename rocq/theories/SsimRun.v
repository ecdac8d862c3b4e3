(** What SSIM computes, in terms of the blurred images. *)
From Verif Require Export MetricsModel ReduceProofs PoolPropLemmas PadRelation MseProofs.
Open Scope Z_scope.

(** The elementwise product. *)
Definition prodt {F : ofield} (x y : tensor F) : tensor F := mkT (shp x) (fun i => fmul (at_ x i) (at_ y i)).

(** The blur b works on images of shape sh: output shape osh, output values E x; afterwards the
    padder's widths are ow. *)
Record blurs {F : ofield} (fwd : pool F -> tensor F -> axes_arg -> pool F * res (tensor F)) (b : pool F) (axes : list Z)
    (sh osh : list Z) (ow : option (nds (Z * Z))) (E : tensor F -> list Z -> F) : Prop := {
  bl_run : forall b' x, mlike F b b' -> shp x = sh -> exists b'' y, fwd b' x (AxSeq axes) = (b'', Ok y) /\
    mlike F b b'' /\ option_map (@p_width F) (pl_padder b'') = ow /\ shp y = osh /\ forall j, valid osh j -> at_ y j = E x j;
  bl_ext : forall x x' j, shp x = sh -> teq x x' -> valid osh j -> E x j = E x' j }.

Section Run.
Variable F : ofield.
Add Field Fsr : (f_field F).
Notation T := (tensor F).
Variable fwd : pool F -> T -> axes_arg -> pool F * res T.

(** luminance and contrast-structure factors, from the local means and second moments *)
Definition lum (C1 m1 m2 : F) : F := fdiv (fadd (fmul two (fmul m1 m2)) C1) (fadd (fadd (fmul m1 m1) (fmul m2 m2)) C1).
Definition lum_den (C1 m1 m2 : F) : F := fadd (fadd (fmul m1 m1) (fmul m2 m2)) C1.
Definition cs_num (c C2 m1 m2 e12 : F) : F := fadd (fmul two (fmul c (fsub e12 (fmul m1 m2)))) C2.
Definition cs_den (c C2 m1 m2 e11 e22 : F) : F := fadd (fadd (fmul c (fsub e11 (fmul m1 m1))) (fmul c (fsub e22 (fmul m2 m2)))) C2.
Definition ssim_num (c C1 C2 m1 m2 e12 : F) : F := fmul (fadd (fmul two (fmul m1 m2)) C1) (cs_num c C2 m1 m2 e12).
Definition ssim_den (c C1 C2 m1 m2 e11 e22 : F) : F := fmul (lum_den C1 m1 m2) (cs_den c C2 m1 m2 e11 e22).

Lemma prodt_teq (x y w : T) : shp x = shp y -> tmap2 fmul x y = Ok w -> shp w = shp x /\ teq w (prodt x y).
Proof.
  intros H E. destruct (tmap2_same fmul x y H) as [w' [E' [S V]]]. rewrite E in E'. inv E'. split; auto. split; auto. intros i Vi. apply V. congruence.
Qed.
Lemma prodt_comm (x y : T) : shp x = shp y -> teq (prodt x y) (prodt y x).
Proof. intros H. split; auto. intros i _. cbn. ring. Qed.

Lemma tany_iff (t : T) (P : F -> bool) : tany (tmap P t) = true <-> exists i, valid (shp t) i /\ P (at_ t i) = true.
Proof.
  unfold tany. rewrite existsb_exists. split; intros [i [A B]]; exists i; rewrite In_tindices in *; auto.
Qed.
Lemma tdiv_ok (a b : T) : shp a = shp b -> (forall i, valid (shp b) i -> at_ b i <> f0) ->
  exists y, tdiv a b = Ok y /\ shp y = shp b /\ forall i, valid (shp b) i -> at_ y i = fdiv (at_ a i) (at_ b i).
Proof.
  intros H Hz. destruct (tmap2_same fdiv a b H) as [y [E [S V]]]. exists y. unfold tdiv. rewrite E. cbn [bind].
  assert (Z : tany (tmap is_zero b) = false).
  { apply not_true_is_false. intros A. apply tany_iff in A. destruct A as [i [Vi Q]]. apply (is_zero_iff F) in Q. now apply (Hz i). }
  rewrite Z. split; auto. split; [congruence|]. intros i Vi. apply V. congruence.
Qed.
Lemma tdiv_zero (a b : T) i : shp a = shp b -> valid (shp b) i -> at_ b i = f0 -> tdiv a b = Err ZeroDivisionError.
Proof.
  intros H Vi Hz. destruct (tmap2_same fdiv a b H) as [y [E _]]. unfold tdiv. rewrite E. cbn [bind].
  assert (Z : tany (tmap is_zero b) = true) by (apply tany_iff; exists i; split; auto; now apply (is_zero_iff F)). now rewrite Z.
Qed.
Lemma tdiv_cases (a b : T) : shp a = shp b ->
  (exists y, tdiv a b = Ok y /\ shp y = shp b /\ (forall i, valid (shp b) i -> at_ b i <> f0) /\ forall i, valid (shp b) i -> at_ y i = fdiv (at_ a i) (at_ b i)) \/
  (tdiv a b = Err ZeroDivisionError /\ exists i, valid (shp b) i /\ at_ b i = f0).
Proof.
  intros H. destruct (tany (tmap is_zero b)) eqn:E.
  - right. apply tany_iff in E. destruct E as [i [Vi Q]]. apply (is_zero_iff F) in Q. split; eauto using tdiv_zero.
  - left. assert (Hz : forall i, valid (shp b) i -> at_ b i <> f0).
    { intros i Vi Q. assert (tany (tmap is_zero b) = true); [|congruence]. apply tany_iff. exists i. split; auto. now apply (is_zero_iff F). }
    destruct (tdiv_ok a b H Hz) as [y [A [B C]]]. exists y. auto.
Qed.

Variables (b : pool F) (axes : list Z) (sh osh : list Z) (ow : option (nds (Z * Z))) (E : T -> list Z -> F).
Hypothesis BL : blurs fwd b axes sh osh ow E.

Definition good (s s' : ssim F) : Prop :=
  exists b', s' = set_blur s b' /\ mlike F b b' /\ option_map (@p_width F) (pl_padder b') = ow.
Lemma good_like s s' : good s s' -> mlike F b (ss_blur s').
Proof. intros [b' [-> [H _]]]. exact H. Qed.

Lemma blur_run s (x : T) : mlike F b (ss_blur s) -> shp x = sh -> exists s' y,
  blur_forward fwd x axes s = (s', Ok y) /\ good s s' /\ shp y = osh /\ forall j, valid osh j -> at_ y j = E x j.
Proof.
  intros M Hx. destruct (bl_run _ _ _ _ _ _ _ BL (ss_blur s) x M Hx) as [b' [y [R [L [W [S V]]]]]].
  exists (set_blur s b'), y. unfold blur_forward. rewrite R. split; auto. split; [exists b'; auto|]. auto.
Qed.
Lemma good_trans s s' s'' : good s s' -> good s' s'' -> good s s''.
Proof. intros [b1 [-> _]] [b2 [-> [H1 H2]]]. exists b2. auto. Qed.

Lemma scale_like s s' : mlike F b (ss_blur s) -> mlike F b (ss_blur s') -> ss_sample s' = ss_sample s -> scale_factor s' axes = scale_factor s axes.
Proof. intros [_ [A _]] [_ [B _]] H. unfold scale_factor. rewrite H, <- A, <- B. reflexivity. Qed.

Ltac sq2 q S V := match goal with |- context [tmap2 ?f ?a ?bb] =>
  destruct (tmap2_same f a bb) as [q [-> [S V]]]; [cbn [tmap shp]; congruence|] end.

Theorem mu_sigma_run s (y1 y2 : T) c : mlike F b (ss_blur s) -> shp y1 = sh -> shp y2 = sh -> scale_factor s axes = Ok c ->
  exists s' q, mu_sigma fwd y1 y2 axes s = (s', Ok q) /\ good s s' /\
    shp (mu1_sq q) = osh /\ shp (mu2_sq q) = osh /\ shp (mu1_mu2 q) = osh /\ shp (sigma1_sq q) = osh /\ shp (sigma2_sq q) = osh /\ shp (sigma12 q) = osh /\
    forall j, valid osh j -> at_ (mu1_sq q) j = fmul (E y1 j) (E y1 j) /\ at_ (mu2_sq q) j = fmul (E y2 j) (E y2 j) /\
      at_ (mu1_mu2 q) j = fmul (E y1 j) (E y2 j) /\
      at_ (sigma1_sq q) j = fmul c (fsub (E (prodt y1 y1) j) (fmul (E y1 j) (E y1 j))) /\
      at_ (sigma2_sq q) j = fmul c (fsub (E (prodt y2 y2) j) (fmul (E y2 j) (E y2 j))) /\
      at_ (sigma12 q) j = fmul c (fsub (E (prodt y1 y2) j) (fmul (E y1 j) (E y2 j))).
Proof.
  intros M H1 H2 Hc. unfold mu_sigma.
  destruct (blur_run s y1 M H1) as [s1 [m1 [R1 [G1 [S1 V1]]]]]. unfold sbind at 1. rewrite R1.
  destruct (blur_run s1 y2 (good_like _ _ G1) H2) as [s2 [m2 [R2 [G2 [S2 V2]]]]]. unfold sbind at 1. rewrite R2.
  cbv zeta. unfold sbind at 1, ret at 1. sq2 m12 S12 V12.
  unfold sbind at 1, ret at 1. destruct (tmap2 fmul y1 y1) as [p11|] eqn:P11; [|destruct (tmap2_same fmul y1 y1 eq_refl) as [w [Q _]]; rewrite Q in P11; discriminate].
  destruct (prodt_teq y1 y1 p11 eq_refl P11) as [S11 T11].
  destruct (blur_run s2 p11 (good_like _ _ G2) ltac:(congruence)) as [s3 [b11 [R3 [G3 [S3 V3]]]]]. unfold sbind at 1. rewrite R3.
  unfold sbind at 1, ret at 1. sq2 d1 Sd1 Vd1.
  unfold sbind at 1, ret at 1. destruct (tmap2 fmul y2 y2) as [p22|] eqn:P22; [|destruct (tmap2_same fmul y2 y2 eq_refl) as [w [Q _]]; rewrite Q in P22; discriminate].
  destruct (prodt_teq y2 y2 p22 eq_refl P22) as [S22 T22].
  destruct (blur_run s3 p22 (good_like _ _ G3) ltac:(congruence)) as [s4 [b22 [R4 [G4 [S4 V4]]]]]. unfold sbind at 1. rewrite R4.
  unfold sbind at 1, ret at 1. sq2 d2 Sd2 Vd2.
  assert (H12 : shp y1 = shp y2) by congruence.
  unfold sbind at 1, ret at 1. destruct (tmap2 fmul y1 y2) as [p12|] eqn:P12; [|destruct (tmap2_same fmul y1 y2 H12) as [w [Q _]]; rewrite Q in P12; discriminate].
  destruct (prodt_teq y1 y2 p12 H12 P12) as [S12' T12].
  destruct (blur_run s4 p12 (good_like _ _ G4) ltac:(congruence)) as [s5 [b12 [R5 [G5 [S5 V5]]]]]. unfold sbind at 1. rewrite R5.
  unfold sbind at 1, ret at 1. sq2 d12 Sd12 Vd12.
  pose proof (good_trans _ _ _ G1 (good_trans _ _ _ G2 (good_trans _ _ _ G3 (good_trans _ _ _ G4 G5)))) as G.
  assert (Hc5 : scale_factor s5 axes = Ok c).
  { rewrite <- Hc. apply scale_like; auto; [eapply good_like; eauto|]. destruct G as [b' [-> _]]. reflexivity. }
  unfold sbind at 1, ret at 1. rewrite Hc5. unfold ret.
  eexists. eexists. split; [reflexivity|]. split; [exact G|]. cbn [mu1_sq mu2_sq mu1_mu2 sigma1_sq sigma2_sq sigma12 tmap shp at_].
  cbn [tmap shp at_] in *.
  assert (SC : forall t : T, shp (if is_zero (fsub c f1) then t else tmap (fun v => fmul v c) t) = shp t) by (intros t; destruct (is_zero _); reflexivity).
  assert (VC : forall (t : T) j, at_ (if is_zero (fsub c f1) then t else tmap (fun v => fmul v c) t) j = fmul c (at_ t j)).
  { intros t j. destruct (is_zero _) eqn:Z; [|cbn; ring]. apply (is_zero_iff F) in Z. assert (c = f1) by (replace c with (fadd (fsub c f1) f1) by ring; rewrite Z; ring). subst c. ring. }
  rewrite !SC. repeat (split; [congruence|]). intros j Vj. rewrite !VC.
  rewrite (Vd1 j), (Vd2 j), (Vd12 j), (V12 j) by congruence.
  rewrite (V1 j Vj), (V2 j Vj), (V3 j Vj), (V4 j Vj), (V5 j Vj).
  rewrite (bl_ext _ _ _ _ _ _ _ BL p11 _ j ltac:(congruence) T11 Vj), (bl_ext _ _ _ _ _ _ _ BL p22 _ j ltac:(congruence) T22 Vj),
    (bl_ext _ _ _ _ _ _ _ BL p12 _ j ltac:(congruence) T12 Vj). repeat split.
Qed.

(** The full SSIM map: a zero denominator is an error. *)
Theorem ssim_full_run s (y1 y2 : T) c : mlike F b (ss_blur s) -> shp y1 = sh -> shp y2 = sh -> scale_factor s axes = Ok c ->
  let C1 := fmul (ss_K1 s) (ss_K1 s) in let C2 := fmul (ss_K2 s) (ss_K2 s) in
  let num j := ssim_num c C1 C2 (E y1 j) (E y2 j) (E (prodt y1 y2) j) in
  let den j := ssim_den c C1 C2 (E y1 j) (E y2 j) (E (prodt y1 y1) j) (E (prodt y2 y2) j) in
  exists s', good s s' /\
  ((exists full, ssim_full fwd y1 y2 axes s = (s', Ok full) /\ shp full = osh /\
     forall j, valid osh j -> den j <> f0 /\ at_ full j = fdiv (num j) (den j)) \/
   (ssim_full fwd y1 y2 axes s = (s', Err ZeroDivisionError) /\ exists j, valid osh j /\ den j = f0)).
Proof.
  intros M H1 H2 Hc C1 C2 num den. unfold ssim_full.
  destruct (mu_sigma_run s y1 y2 c M H1 H2 Hc) as [s' [q [R [G [Q1 [Q2 [Q3 [Q4 [Q5 [Q6 V]]]]]]]]]].
  exists s'. split; auto. unfold sbind. rewrite R. unfold ret.
  assert (K : ss_K1 s' = ss_K1 s /\ ss_K2 s' = ss_K2 s) by (destruct G as [b' [-> _]]; auto). destruct K as [-> ->].
  fold C1 C2.
  destruct (tmap2_same fmul (tmap (fun v => fadd (fmul two v) C1) (mu1_mu2 q)) (tmap (fun v => fadd (fmul two v) C2) (sigma12 q))) as [n [-> [Sn Vn]]]; [cbn; congruence|]. cbn [bind].
  destruct (tmap2_same fadd (mu1_sq q) (mu2_sq q)) as [l [-> [Sl Vl]]]; [congruence|]. cbn [bind].
  destruct (tmap2_same fadd (sigma1_sq q) (sigma2_sq q)) as [d [-> [Sd Vd]]]; [congruence|]. cbn [bind].
  destruct (tmap2_same fmul (tmap (fun v => fadd v C1) l) (tmap (fun v => fadd v C2) d)) as [w [-> [Sw Vw]]]; [cbn; congruence|]. cbn [bind].
  cbn [tmap shp at_] in *.
  assert (Dn : forall j, valid osh j -> at_ n j = num j).
  { intros j Vj. rewrite Vn by congruence. destruct (V j Vj) as [_ [_ [-> [_ [_ ->]]]]]. reflexivity. }
  assert (Dd : forall j, valid osh j -> at_ w j = den j).
  { intros j Vj. rewrite Vw, Vl, Vd by congruence. destruct (V j Vj) as [-> [-> [_ [-> [-> _]]]]]. reflexivity. }
  destruct (tdiv_cases n w) as [[f [-> [Sf [Nz Vf]]]]|[-> [i [Vi Zi]]]]; [congruence| |].
  - left. exists f. split; auto. split; [congruence|]. intros j Vj. rewrite <- Dd, <- Dn by auto. split; [apply Nz|apply Vf]; congruence.
  - right. split; auto. exists i. assert (valid osh i) by congruence. split; auto. rewrite <- Dd; auto.
Qed.
(** The contrast-structure map of MS_SSIM. *)
Theorem cs_full_run s (y1 y2 : T) c : mlike F b (ss_blur s) -> shp y1 = sh -> shp y2 = sh -> scale_factor s axes = Ok c ->
  let C2 := fmul (ss_K2 s) (ss_K2 s) in
  let num j := cs_num c C2 (E y1 j) (E y2 j) (E (prodt y1 y2) j) in
  let den j := cs_den c C2 (E y1 j) (E y2 j) (E (prodt y1 y1) j) (E (prodt y2 y2) j) in
  exists s', good s s' /\
  ((exists full, cs_full fwd y1 y2 axes s = (s', Ok full) /\ shp full = osh /\
     forall j, valid osh j -> den j <> f0 /\ at_ full j = fdiv (num j) (den j)) \/
   (cs_full fwd y1 y2 axes s = (s', Err ZeroDivisionError) /\ exists j, valid osh j /\ den j = f0)).
Proof.
  intros M H1 H2 Hc C2 num den. unfold cs_full.
  destruct (mu_sigma_run s y1 y2 c M H1 H2 Hc) as [s' [q [R [G [Q1 [Q2 [Q3 [Q4 [Q5 [Q6 V]]]]]]]]]].
  exists s'. split; auto. unfold sbind. rewrite R. unfold ret.
  assert (K : ss_K2 s' = ss_K2 s) by (destruct G as [b' [-> _]]; auto). rewrite K. fold C2.
  destruct (tmap2_same fadd (sigma1_sq q) (sigma2_sq q)) as [d [-> [Sd Vd]]]; [congruence|]. cbn [bind].
  assert (Dd : forall j, valid osh j -> at_ (tmap (fun v => fadd v C2) d) j = den j).
  { intros j Vj. cbn [tmap at_]. rewrite Vd by congruence. destruct (V j Vj) as [_ [_ [_ [-> [-> _]]]]]. reflexivity. }
  destruct (tdiv_cases (tmap (fun v => fadd (fmul two v) C2) (sigma12 q)) (tmap (fun v => fadd v C2) d)) as [[f [-> [Sf [Nz Vf]]]]|[-> [i [Vi Zi]]]]; [cbn; congruence| |].
  - left. exists f. split; auto. cbn [tmap shp] in Sf, Nz, Vf. split; [congruence|]. intros j Vj. rewrite <- Dd by auto.
    split; [apply Nz; congruence|]. rewrite Vf by congruence. cbn [tmap at_]. destruct (V j Vj) as [_ [_ [_ [_ [_ ->]]]]]. reflexivity.
  - right. split; auto. cbn [tmap shp] in Vi. exists i. assert (valid osh i) by congruence. split; auto. rewrite <- Dd; auto.
Qed.
End Run.
