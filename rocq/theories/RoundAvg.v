(** Rounding error of average pooling, with and without the padding. *)
From Verif Require Export AvgOriginal RoundAvgModel RoundEdge RoundRel.
Open Scope Z_scope.

Section RAv.
Variable F : ofield.
Add Field Frav : (f_field F).
Notation T := (tensor F).

Lemma one_more (e : F) : fsub (fadd f1 e) f1 = e.
Proof. ring. Qed.
Lemma one_less (e : F) : fadd (fadd f1 e) (fopp f1) = e.
Proof. ring. Qed.
Lemma times_one (e : F) : fmul e f1 = e.
Proof. ring. Qed.
Lemma bind_ok {A B} (r : res A) (k : A -> res B) b : bind r k = Ok b -> exists a, r = Ok a /\ k a = Ok b.
Proof. destruct r; cbn; [eauto|discriminate]. Qed.
Lemma quotient_err e c (y0 y0' y1 z w' : T) q : fle f0 e -> fle f1 c -> shp y0' = shp y0 -> (forall j, valid (shp y0) j -> errs F c (at_ y0 j) (at_ y0' j) (at_ y0 j)) ->
  rounded e (tmap (fun v => fmul v q) y0') y1 -> fl_map2 e fdiv y1 z w' ->
  exists w, tmap2 fdiv (tmap (fun v => fmul v q) y0) z = Ok w /\ shp w' = shp w /\
    forall j, valid (shp w) j -> fle (fabs (fsub (at_ w' j) (at_ w j))) (fmul (fsub (fmul c (fmul (fadd f1 e) (fadd f1 e))) f1) (fabs (at_ w j))).
Proof.
  intros He Hc S0 HE [R1 R2] [d [D [S1 R3]]]. cbn [tmap shp at_] in R1, R2. unfold tmap2 in *. rewrite R1, S0 in D. cbn [tmap shp at_].
  destruct (bshape (shp y0) (shp z)) as [s|] eqn:Bs; [|discriminate]. injection D as <-. cbn [shp at_] in *. eexists. split; [reflexivity|]. cbn [shp at_]. split; [exact S1|]. intros j Vj.
  destruct (bidx_valid _ _ _ _ Bs Vj) as [V1 V2]. set (i := bidx (shp y0) j) in *. set (b := at_ z (bidx (shp z) j)) in *. specialize (R3 j Vj). fold i b in R3.
  specialize (HE i V1). specialize (R2 i). rewrite S0 in R2. specialize (R2 V1).
  assert (Sy : fabs (at_ y0 i) = at_ y0 i) by (apply fabs_pos; eapply err_pos; exact HE).
  assert (Sb : forall v : F, errs F f1 (fabs v) v v).
  { intros v. split; [|apply fle_refl]. replace (fsub v v) with (@f0 F) by ring. rewrite fabs_zero. replace (fmul (fsub (@f1 F) f1) (fabs v)) with (@f0 F) by ring. apply fle_refl. }
  pose proof (err_mul F c f1 _ _ _ _ _ _ Hc HE (Sb q)) as E1. pose proof (err_round F e _ _ _ _ _ He E1 R2) as E2.
  assert (Hc2 : fle f1 (fmul (fmul c f1) (fadd f1 e))).
  { replace (@f1 F) with (fmul (@f1 F) f1) at 1 by ring. assert (fle f1 (fadd f1 e)) by (apply (sub_le F f0 e); auto; ring). replace (fmul c f1) with c by ring. apply mul_le; auto; [apply fle_01|eapply fle_trans; [apply fle_01|exact Hc]]. }
  pose proof (err_mul F _ f1 _ _ _ _ _ _ Hc2 E2 (Sb (finv b))) as E3.
  rewrite !(Fdiv_def (f_field F)) in *. pose proof (err_round F e _ _ _ _ _ He E3 R3) as [E4 _].
  rewrite !fabs_mul, Sy. replace (fmul c (fmul (fadd f1 e) (fadd f1 e))) with (fmul (fmul (fmul (fmul c f1) (fadd f1 e)) f1) (fadd f1 e)) by ring. exact E4.
Qed.

Lemma avg_ker_nonneg l : (forall k, In k l -> 0 <= k) -> forall k b, In k (map (avg_ker F) l) -> In b k -> fle f0 b.
Proof.
  intros H k b I1 I2. apply in_map_iff in I1 as [n [<- I1]]. unfold avg_ker, zrepeat in I2. pose proof (repeat_spec _ _ _ I2) as ->.
  destruct (Z.eq_dec n 0) as [->|N]; [destruct I2|]. apply fdiv_nonneg; [apply fle_01|]. apply fofZ_pos. specialize (H n I1). lia.
Qed.
Lemma avg_built n (ks : nds Z) stride pd (m : pool F) l sts : expand n ks = Some l -> expand n stride = Some sts -> avg_init ks stride pd = Ok m ->
  built n (map (avg_ker F) l) (map2 stride_or_size l sts) pd m /\ forall k, In k l -> 0 <= k.
Proof.
  intros Hk Hs Hm. destruct (avg_init_kernel F _ _ _ _ _ _ Hk Hm) as [kers [A1 [A2 A3]]]. split; auto. rewrite <- (avg_strides F) by auto. econstructor; eauto.
Qed.
(** Padding left out. *)
Theorem avg_original_rounding e fuel junk (ks : nds Z) stride (m : pool F) (x y' : T) ax al l sts p ms : fle f0 e ->
  expand (length al) ks = Some l -> expand (length al) stride = Some sts -> avg_init ks stride (Some p) = Ok m ->
  same_call F fuel p x ax al ms (map (avg_ker F) l) (map2 stride_or_size l sts) -> every_axis (length al) p plain_mode ->
  (forall i, valid (shp x) i -> fle f0 (at_ x i)) -> fl_avg_forward e fuel junk m x ax y' ->
  exists y, snd (avg_forward fuel junk false m x ax) = Ok y /\ shp y' = shp y /\
    forall j, valid (shp y) j -> fle (fabs (fsub (at_ y' j) (at_ y j))) (fmul (fsub (fpow (fadd f1 e) (roundings (map (avg_ker F) l) + 2)) f1) (fabs (at_ y j))).
Proof.
  intros He Hk Hs Hm SC EA Hx [al' [sizes [y0' [z0 [z [y1 [C1 [C2 [C3 [C4 [C5 [C6 [C7 C8]]]]]]]]]]]]].
  destruct (avg_built _ _ _ _ _ _ _ Hk Hs Hm) as [B0 Hl]. pose proof SC as [[A1 A2 A3] _ _ _ _ _ _ _]. rewrite A1 in C1. injection C1 as <-.
  assert (SC' : same_call F fuel p x (AxSeq (map Z.of_nat al)) al ms (map (avg_ker F) l) (map2 stride_or_size l sts)).
  { destruct SC. constructor; auto. constructor; auto. now apply check_axes_seq_nat. }
  destruct (rel_same_errs F e fuel junk m x x y0' (AxSeq (map Z.of_nat al)) al _ _ p ms He B0 SC' EA (avg_ker_nonneg l Hl) (majorant_self F x Hx) C4) as [y0 [Y [Y1 [Y2 [Y3 [_ Y5]]]]]].
  rewrite Y1 in Y2. injection Y2 as <-.
  destruct (quotient_err e (fpow (fadd f1 e) (roundings (map (avg_ker F) l))) y0 y0' y1 z y' (fofZ (zprod sizes)) He (pow_ge1 F e _ He) Y3) as [w [W1 [W2 W3]]]; auto.
  exists w. split; [|split; auto].
  - unfold avg_forward. rewrite A1, C2, C3. destruct (sep_forward fuel junk m x (AxSeq (map Z.of_nat al))) as [m' r] eqn:E. cbn [fst snd] in *. subst r. cbn [bind].
    apply bind_ok in C5 as [a1 [D1 C5]]. apply bind_ok in C5 as [a2 [D2 C5]]. apply bind_ok in C5 as [a3 [D3 C5]]. apply bind_ok in C5 as [a4 [D4 C5]].
    rewrite D1. cbn [bind]. rewrite D2. cbn [bind]. rewrite D3. cbn [bind]. rewrite D4. cbn [bind]. rewrite C5. cbn [bind].
    apply bind_ok in C6 as [ns [D5 C6]]. replace (ndim y0') with (ndim y0) in D5 by (unfold ndim; now rewrite Y3). rewrite D5. cbn [bind]. rewrite C6. cbn [bind]. exact W1.
  - intros j Vj. rewrite pow_add. cbn [fpow]. replace (fmul (fadd f1 e) (fmul (fadd f1 e) f1)) with (fmul (fadd (@f1 F) e) (fadd f1 e)) by ring. auto.
Qed.
(** Rounding the last operation only. *)
Theorem avg_last e fuel junk (m : pool F) (x w w' : T) ax : fle f0 e -> snd (avg_forward fuel junk false m x ax) = Ok w -> rounded e w w' -> fl_avg_forward e fuel junk m x ax w'.
Proof.
  intros He H R. unfold avg_forward in H. destruct (check_axes (Z.of_nat (ndim x)) ax) as [al|] eqn:C; [|discriminate]. destruct (mapM (nds_get (pl_size m)) _) as [sizes|] eqn:M; [|discriminate].
  destruct (distinctb al) eqn:D; [|discriminate]. destruct (sep_forward fuel junk m x (AxSeq al)) as [m' r] eqn:E. cbn [snd] in H. apply bind_ok in H as [y0 [-> H]].
  apply bind_ok in H as [a1 [D1 H]]. apply bind_ok in H as [a2 [D2 H]]. apply bind_ok in H as [a3 [D3 H]]. apply bind_ok in H as [a4 [D4 H]]. apply bind_ok in H as [z0 [D5 H]].
  apply bind_ok in H as [ns [D6 H]]. apply bind_ok in H as [z [D7 H]].
  exists al, sizes, y0, z0, z, (tmap (fun v => fmul v (fofZ (zprod sizes))) y0). do 3 (split; auto). split; [apply forward_exact; auto; now rewrite E|]. rewrite E. cbn [fst].
  split; [rewrite D1; cbn [bind]; rewrite D2; cbn [bind]; rewrite D3; cbn [bind]; rewrite D4; exact D5|]. split; [rewrite D6; exact D7|].
  split; [now apply rounded_refl|]. exists w. auto.
Qed.
Theorem avg_exact e fuel junk (m : pool F) (x y : T) ax : fle f0 e -> snd (avg_forward fuel junk false m x ax) = Ok y -> fl_avg_forward e fuel junk m x ax y.
Proof. intros He H. apply (avg_last e fuel junk m x y y ax He H). now apply rounded_refl. Qed.
(** Padding counted. *)
Theorem avg_rounding e fuel junk (ks : nds Z) stride (m : pool F) (x y' : T) ax al l sts p ms : fle f0 e ->
  expand (length al) ks = Some l -> expand (length al) stride = Some sts -> avg_init ks stride (Some p) = Ok m ->
  same_call F fuel p x ax al ms (map (avg_ker F) l) (map2 stride_or_size l sts) -> every_axis (length al) p plain_mode ->
  (forall i, valid (shp x) i -> fle f0 (at_ x i)) -> fl_forward e fuel junk m x ax y' ->
  exists y, snd (avg_forward fuel junk true m x ax) = Ok y /\ shp y' = shp y /\
    forall j, valid (shp y) j -> fle (fabs (fsub (at_ y' j) (at_ y j))) (fmul (fsub (fpow (fadd f1 e) (roundings (map (avg_ker F) l))) f1) (at_ y j)).
Proof.
  intros He Hk Hs Hm SC EA Hx HF. destruct (avg_built _ _ _ _ _ _ _ Hk Hs Hm) as [B0 Hl]. eapply rel_same_nonneg; eauto. now apply avg_ker_nonneg.
Qed.
(** Rounding decides neither whether a call succeeds nor the shape of its result. *)
Lemma loop_shape e m axes : forall i (x x2 y : T), shp x2 = shp x -> fl_loop e m x i axes y -> exists y2, pool_loop m x2 i axes = Ok y2 /\ shp y2 = shp y.
Proof.
  induction axes as [|a axes IH]; cbn [fl_loop pool_loop]; intros i x x2 y Sx H; [subst y; eauto|].
  destruct H as [ks [K H]]. rewrite K. cbn [bind]. destruct (ks =? 0); [eapply IH; eauto|].
  destruct H as [s [a' [u [k [x' [H1 [H2 [H3 [H4 [[M1 [M2 _]] H5]]]]]]]]]]. rewrite H1. cbn [bind].
  assert (N : ndim x2 = ndim x) by (unfold ndim; now rewrite Sx). rewrite N, H2. cbn [bind].
  unfold tunfold, dimlen in *. rewrite Sx. destruct (_ && _ && _) in *; [|discriminate]. injection H3 as <-. cbn [bind]. rewrite H4. cbn [bind].
  unfold tmatvec. cbn [shp] in *. rewrite M1, Z.eqb_refl. cbn [bind]. eapply IH; [|exact H5]. cbn [shp]. now rewrite M2.
Qed.
Theorem forward_outcome e fuel junk m (x y' : T) ax : fl_forward e fuel junk m x ax y' -> exists y, snd (sep_forward fuel junk m x ax) = Ok y /\ shp y = shp y'.
Proof.
  intros [al [m' [xp [C1 [C2 [C3 C4]]]]]]. unfold sep_forward. rewrite C1.
  replace ((pl_ndim m =? 0) || (pl_ndim m =? Z.of_nat (length al)))%bool with true by (symmetry; apply orb_true_iff; rewrite !Z.eqb_eq; tauto).
  rewrite C3. cbn [snd bind]. eapply loop_shape; eauto.
Qed.
Theorem avg_outcome e fuel junk m (x y' : T) ax : fl_avg_forward e fuel junk m x ax y' -> exists y, snd (avg_forward fuel junk false m x ax) = Ok y /\ shp y = shp y'.
Proof.
  intros [al [sizes [y0' [z0 [z [y1 [C1 [C2 [C3 [C4 [C5 [C6 [[C7 _] [d [D [C8 _]]]]]]]]]]]]]]]].
  destruct (forward_outcome _ _ _ _ _ _ _ C4) as [y0 [Y1 Y2]]. cbn [tmap shp] in C7. unfold tmap2 in D. rewrite C7 in D.
  destruct (bshape (shp y0') (shp z)) as [s|] eqn:Bs; [|discriminate]. injection D as <-.
  unfold avg_forward. rewrite C1, C2, C3. destruct (sep_forward fuel junk m x (AxSeq al)) as [m' r] eqn:E. cbn [fst snd] in *. subst r. cbn [bind].
  apply bind_ok in C5 as [a1 [D1 C5]]. apply bind_ok in C5 as [a2 [D2 C5]]. apply bind_ok in C5 as [a3 [D3 C5]]. apply bind_ok in C5 as [a4 [D4 C5]].
  rewrite D1. cbn [bind]. rewrite D2. cbn [bind]. rewrite D3. cbn [bind]. rewrite D4. cbn [bind]. rewrite C5. cbn [bind].
  apply bind_ok in C6 as [ns [D5 C6]]. replace (ndim y0) with (ndim y0') by (unfold ndim; now rewrite Y2). rewrite D5. cbn [bind]. rewrite C6. cbn [bind].
  unfold tmap2. cbn [tmap shp]. rewrite Y2, Bs. eexists. split; [reflexivity|]. cbn [shp] in *. congruence.
Qed.
End RAv.
