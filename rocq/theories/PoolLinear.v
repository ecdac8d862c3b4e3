(** Separable pooling as an operator on images (C38): linearity, constant images, value range. *)
From Verif Require Export PoolSame PadLinear.
Open Scope Z_scope.

(** Sum and product of a list of weights. *)
Definition wsum {F : ofield} (l : list F) : F := fold_right fadd f0 l.

(** The padder's mode, constant values and end values on every one of n axes satisfy P. *)
Definition every_axis {F : ofield} (n : nat) (p : padder F) (P : mode F -> F * F -> F * F -> Prop) : Prop :=
  exists ms cs es, expand n (p_mode p) = Some ms /\ expand n (p_const p) = Some cs /\ expand n (p_end p) = Some es /\
  forall r, (r < n)%nat -> P (nth r ms MUnknown) (nth r cs (f0, f0)) (nth r es (f0, f0)).

Section PL.
Variable F : ofield.
Add Field Fpl : (f_field F).
Notation T := (tensor F).

Lemma every_axis_par n (p : padder F) ms ws al P : padder_for n p ms -> every_axis n p P -> length ws = n -> length al = n -> NoDup al ->
  all_par F (par_of P) (with_width p ws) al.
Proof.
  intros [H1 H2 H3 H4] [ms' [cs [es [E1 [E2 [E3 E4]]]]]] Lw La Hn a q Ha Hq.
  destruct (with_width_par F n p ms ws al (Build_padder_for F n p ms H1 H2 H3 H4) Lw La Hn) as [L _]. rewrite L in Hq.
  destruct (In_pos a al 0%nat Ha) as [r [Hr <-]].
  destruct (nth_split al 0%nat Hr) as [l1 [l2 [E El]]]. set (a := nth r al 0%nat) in *.
  assert (Hna : ~ In a l1). { rewrite E in Hn. apply NoDup_remove_2 in Hn. rewrite in_app_iff in Hn. tauto. }
  rewrite E in Hq. rewrite axis_par_in in Hq by auto.
  assert (L2 : length l2 = (n - 1 - r)%nat). { rewrite E in La. rewrite app_length in La. simpl in La. lia. }
  rewrite L2 in Hq. unfold params in Hq. assert (Hr' : (r < n)%nat) by lia.
  assert (Hw : expand n (NList ws) = Some ws) by (simpl; now rewrite Lw, Nat.eqb_refl).
  change (p_width (with_width p ws)) with (NList ws) in Hq. change (p_mode (with_width p ws)) with (p_mode p) in Hq.
  change (p_const (with_width p ws)) with (p_const p) in Hq. change (p_end (with_width p ws)) with (p_end p) in Hq.
  change (p_stat (with_width p ws)) with (p_stat p) in Hq.
  destruct (expand n (p_stat p)) as [ss|] eqn:X3; [|congruence].
  rewrite (item_expand n _ _ r (0, 0) Hw Hr'), (item_expand n _ _ r MUnknown E1 Hr'), (item_expand n _ _ r (f0, f0) E2 Hr'),
    (item_expand n _ _ r (f0, f0) E3 Hr'), (item_expand n _ _ r (None, None) X3 Hr') in Hq.
  destruct (nth r ws (0, 0)) as [b c]. injection Hq as <-. unfold par_of. simpl. auto.
Qed.

(** *** correlation as an operator *)
Definition steps_ok (al : list nat) (kers : list (list F)) (sts : list Z) (sh : list Z) : Prop :=
  NoDup al /\ (forall a, In a al -> (a < length sh)%nat) /\ length kers = length al /\ length sts = length al /\
  forall r, (r < length al)%nat -> 1 <= nth r sts 1.

Lemma correlate_lin al (kers : list (list F)) sts a b (x y z : T) : steps_ok al kers sts (shp x) ->
  combination a b x y z -> combination a b (correlate al kers sts x) (correlate al kers sts y) (correlate al kers sts z).
Proof.
  intros [Hn [Hl [Hk [Hs Hw]]]] [S1 [S2 E]]. unfold combination, correlate. cbn [shp at_].
  split; [now rewrite S1|]. split; [now rewrite S2|]. intros j Vj.
  rewrite <- !bsum_mul, <- bsum_add. apply bsum_ext. intros o Vo.
  rewrite E by (eapply place_valid; eauto). ring.
Qed.
Lemma wsum_fsum (k : list F) : wsum k = fsum (klen k) (fun i => nth (Z.to_nat i) k f0).
Proof.
  unfold wsum, klen. rewrite <- fold_zrange. f_equal. apply list_ext with (d := f0).
  - now rewrite map_length, zrange_length, Nat2Z.id.
  - intros i Hi. rewrite (nth_indep (map _ (zrange _)) f0 ((fun i => nth (Z.to_nat i) k f0) 0)) by (rewrite map_length, zrange_length; lia).
    rewrite (map_nth (fun i => nth (Z.to_nat i) k f0)), nth_zrange by lia. now rewrite Nat2Z.id.
Qed.
Lemma weight_sum (kers : list (list F)) : (forall k, In k kers -> wsum k = f1) ->
  bsum (map klen kers) (weight kers) = f1.
Proof.
  induction kers as [|k kers IH]; intros H; simpl; auto.
  rewrite (fsum_ext F _ _ (fun i => fmul (nth (Z.to_nat i) k f0) f1)).
  - rewrite fsum_mul_r, <- wsum_fsum, (H k) by now left. ring.
  - intros i Hi. rewrite bsum_mul, IH; auto. intros k' Hk'. apply H. now right.
Qed.
Lemma weight_nonneg (kers : list (list F)) : forall o, (forall k e, In k kers -> In e k -> fle f0 e) -> valid (map klen kers) o ->
  fle f0 (weight kers o).
Proof.
  induction kers as [|k kers IH]; intros o H V; simpl in *; inv V; [apply fle_01|].
  apply fmul_nonneg; [|apply IH; auto; intros k' e Hk'; apply H; auto].
  apply (H k); auto. apply nth_In. unfold klen in *. lia.
Qed.
Lemma correlate_const al (kers : list (list F)) sts c (x : T) : steps_ok al kers sts (shp x) ->
  (forall k, In k kers -> wsum k = f1) -> constant_image c x -> constant_image c (correlate al kers sts x).
Proof.
  intros [Hn [Hl [Hk [Hs Hw]]]] H1 C j Vj. cbn [correlate shp at_] in *.
  rewrite (bsum_ext F _ _ (fun o => fmul c (weight kers o))).
  - rewrite bsum_mul, weight_sum by auto. ring.
  - intros o Vo. rewrite C by (eapply place_valid; eauto). ring.
Qed.
Lemma correlate_range al (kers : list (list F)) sts lo hi (x : T) : steps_ok al kers sts (shp x) ->
  (forall k, In k kers -> wsum k = f1) -> (forall k e, In k kers -> In e k -> fle f0 e) ->
  in_range lo hi x -> in_range lo hi (correlate al kers sts x).
Proof.
  intros [Hn [Hl [Hk [Hs Hw]]]] H1 H2 C j Vj. cbn [correlate shp at_] in *.
  assert (E : forall c, bsum (map klen kers) (fun o => fmul (weight kers o) c) = c).
  { intros c. rewrite (bsum_ext F _ _ (fun o => fmul c (weight kers o))); [|intros; ring].
    rewrite bsum_mul, weight_sum by auto. ring. }
  rewrite <- (E lo) at 1. rewrite <- (E hi).
  split; apply bsum_le; intros o Vo; destruct (C (place al sts j o)); try (eapply place_valid; eauto);
  apply fmul_le_l; auto; apply weight_nonneg; auto.
Qed.

(** *** forward *)
Lemma eff_steps (m : pool F) al kers sts sh : NoDup al -> (forall a, In a al -> (a < length sh)%nat) ->
  pool_par F m (length al) kers sts -> steps_ok al (map eff_kernel kers) (map2 eff_stride kers sts) sh.
Proof.
  intros Hn Hl [P1 [P2 [P3 P4]]]. split; [auto|]. split; [auto|]. split; [now rewrite map_length|].
  split; [rewrite map2_length; lia|]. intros r Hr. rewrite nth_map2 with (da := []) (db := 1) by lia.
  destruct (P4 r Hr) as [_ [_ [_ Q]]]. destruct (nth r kers []) as [|c k]; simpl; [lia|]. apply Q. discriminate.
Qed.
Lemma eff_sum (kers : list (list F)) : (forall k, In k kers -> k = [] \/ wsum k = f1) ->
  forall k, In k (map eff_kernel kers) -> wsum k = f1.
Proof.
  intros H k Hk. apply in_map_iff in Hk. destruct Hk as [k0 [<- Hk]]. destruct (H k0 Hk) as [->|E].
  - unfold wsum. simpl. ring.
  - destruct k0 as [|e l]; simpl; auto. unfold wsum. simpl. ring.
Qed.
Lemma eff_nonneg (kers : list (list F)) : (forall k e, In k kers -> In e k -> fle f0 e) ->
  forall k e, In k (map eff_kernel kers) -> In e k -> fle f0 e.
Proof.
  intros H k e Hk He. apply in_map_iff in Hk. destruct Hk as [k0 [<- Hk]].
  destruct k0 as [|c l]; simpl in He; [destruct He as [<-|[]]; apply fle_01|]. eapply H; eauto.
Qed.
Lemma comb_teq a b (x y z x' y' z' : T) : teq x' x -> teq y' y -> teq z' z -> combination a b x y z -> combination a b x' y' z'.
Proof.
  intros [A1 A2] [B1 B2] [D1 D2] [E1 [E2 E3]].
  split; [congruence|]. split; [congruence|]. intros i V. rewrite A2, B2, D2; try congruence. apply E3. congruence.
Qed.
Lemma on_axes_shape (x y : T) ax al : shp y = shp x -> on_axes x ax al -> on_axes y ax al.
Proof. intros S [A1 A2 A3]. constructor; unfold ndim in *; try rewrite S; auto. Qed.
Lemma same_call_shape fuel p (x y : T) ax al ms kers sts : shp y = shp x ->
  same_call F fuel p x ax al ms kers sts -> same_call F fuel p y ax al ms kers sts.
Proof.
  intros S [A B C D E G H I]. constructor; auto; try (eapply on_axes_shape; eauto; fail); unfold ndim in *; rewrite S; auto.
Qed.

Theorem pool_linear_valid fuel junk (m : pool F) a b (x y z : T) ax al kers sts : on_axes x ax al ->
  pool_par F m (length al) kers sts -> pl_padder m = None ->
  (forall r, (r < length al)%nat -> klen (nth r kers []) <= nth (nth r al 0%nat) (shp x) 0) ->
  combination a b x y z ->
  exists x' y' z', sep_forward fuel junk m x ax = (m, Ok x') /\ sep_forward fuel junk m y ax = (m, Ok y') /\
    sep_forward fuel junk m z ax = (m, Ok z') /\ combination a b x' y' z'.
Proof.
  intros OA PP Hp Hf C. pose proof C as [S1 [S2 _]].
  destruct (sep_forward_valid F fuel junk m x ax al kers sts OA PP Hp Hf) as [x' [X1 X2]].
  destruct (sep_forward_valid F fuel junk m y ax al kers sts (on_axes_shape _ _ _ _ S1 OA) PP Hp) as [y' [Y1 Y2]]; [now rewrite S1|].
  destruct (sep_forward_valid F fuel junk m z ax al kers sts (on_axes_shape _ _ _ _ S2 OA) PP Hp) as [z' [Z1 Z2]]; [now rewrite S2|].
  exists x', y', z'. split; auto. split; auto. split; auto.
  apply (comb_teq _ _ _ _ _ _ _ _ X2 Y2 Z2). apply correlate_lin; auto.
  destruct OA as [A1 A2 A3]. apply (eff_steps m); auto.
Qed.
Theorem pool_linear_same fuel junk (m : pool F) a b (x y z : T) ax al kers sts p ms :
  pool_par F m (length al) kers sts -> expand (length al) (pl_size m) = Some (map klen kers) ->
  expand (length al) (pl_stride m) = Some sts -> pl_padder m = Some p ->
  same_call F fuel p x ax al ms kers sts -> every_axis (length al) p linear_mode ->
  combination a b x y z ->
  exists x' y' z', snd (sep_forward fuel junk m x ax) = Ok x' /\ snd (sep_forward fuel junk m y ax) = Ok y' /\
    snd (sep_forward fuel junk m z ax) = Ok z' /\ combination a b x' y' z'.
Proof.
  intros PP He1 He2 Hp SC EA C. pose proof C as [S1 [S2 _]]. pose proof PP as [P1 [P2 _]].
  destruct (sep_forward_same F fuel junk m x ax al kers sts p ms PP He1 He2 Hp SC) as [wx [xp [x' [X1 [X2 [X3 [X4 [X5 [X6 [X7 [X8 [X9 _]]]]]]]]]]]].
  destruct (sep_forward_same F fuel junk m y ax al kers sts p ms PP He1 He2 Hp (same_call_shape _ _ _ _ _ _ _ _ _ S1 SC)) as [wy [yp [y' [Y1 [Y2 [Y3 [Y4 [Y5 [Y6 [Y7 [Y8 [Y9 _]]]]]]]]]]]].
  destruct (sep_forward_same F fuel junk m z ax al kers sts p ms PP He1 He2 Hp (same_call_shape _ _ _ _ _ _ _ _ _ S2 SC)) as [wz [zp [z' [Z1 [Z2 [Z3 [Z4 [Z5 [Z6 [Z7 [Z8 [Z9 _]]]]]]]]]]]].
  pose proof SC as [OA N0 _ _ SS PF _ _].
  assert (wy = wx). { apply list_ext with (d := (0,0)); [lia|]. intros r Hr. eapply same_width_unique; [apply (SS r)|apply (Y2 r)|rewrite S1; apply (X2 r)]; lia. }
  assert (wz = wx). { apply list_ext with (d := (0,0)); [lia|]. intros r Hr. eapply same_width_unique; [apply (SS r)|apply (Z2 r)|rewrite S2; apply (X2 r)]; lia. }
  subst wy wz. exists x', y', z'. rewrite X8, Y8, Z8. split; auto. split; auto. split; auto.
  apply (comb_teq _ _ _ _ _ _ _ _ X9 Y9 Z9). pose proof OA as [A1 A2 A3].
  destruct (forward_linear F fuel junk (with_width p wx) a b x y z ax al X3 X4 X5) as [x1 [y1 [z1 [E1 [E2 [E3 E4]]]]]]; auto.
  { eapply every_axis_par; eauto. }
  rewrite X6 in E1. rewrite Y6 in E2. rewrite Z6 in E3. inv E1. inv E2. inv E3.
  apply correlate_lin; auto. apply (eff_steps m); auto. intros c Hc. rewrite X7.
  unfold full_shape. rewrite map_length, seq_length. apply A2; auto.
Qed.
(** Anything preserved by padding and by correlation is preserved by pooling. *)
Lemma pool_inv_same fuel junk (m : pool F) (Q : T -> Prop) P (x : T) ax al kers sts p ms :
  (forall q xx ax' al', pad_call fuel q xx ax' al' -> all_fine F q xx al' -> no_empty_mode F q al' -> all_par F (par_of P) q al' -> Q xx ->
     exists x', padder_forward fuel junk q xx ax' = Ok x' /\ Q x') ->
  (forall t, steps_ok al (map eff_kernel kers) (map2 eff_stride kers sts) (shp t) -> Q t -> Q (correlate al (map eff_kernel kers) (map2 eff_stride kers sts) t)) ->
  (forall t u, teq t u -> Q u -> Q t) ->
  pool_par F m (length al) kers sts -> expand (length al) (pl_size m) = Some (map klen kers) ->
  expand (length al) (pl_stride m) = Some sts -> pl_padder m = Some p ->
  same_call F fuel p x ax al ms kers sts -> every_axis (length al) p P -> Q x ->
  exists x', snd (sep_forward fuel junk m x ax) = Ok x' /\ Q x'.
Proof.
  intros Q1 Q2 Q3 PP He1 He2 Hp SC EA C.
  destruct (sep_forward_same F fuel junk m x ax al kers sts p ms PP He1 He2 Hp SC) as [wx [xp [x' [X1 [X2 [X3 [X4 [X5 [X6 [X7 [X8 [X9 _]]]]]]]]]]]].
  pose proof SC as [OA N0 _ _ SS PF _ _]. pose proof OA as [A1 A2 A3].
  exists x'. rewrite X8. split; auto. apply (Q3 _ _ X9).
  destruct (Q1 (with_width p wx) x ax al X3 X4 X5) as [x1 [E1 E2]]; auto.
  { eapply every_axis_par; eauto. }
  rewrite X6 in E1. inv E1. apply Q2; auto. apply (eff_steps m); auto. intros c Hc. rewrite X7.
  unfold full_shape. rewrite map_length, seq_length. apply A2; auto.
Qed.
Lemma const_teq c (t u : T) : teq t u -> constant_image c u -> constant_image c t.
Proof. intros [E1 E2] H i V. rewrite E2; [apply H|]; congruence. Qed.
Lemma range_teq lo hi (t u : T) : teq t u -> in_range lo hi u -> in_range lo hi t.
Proof. intros [E1 E2] H i V. rewrite E2; [apply H|]; congruence. Qed.
Theorem pool_const_same fuel junk (m : pool F) c (x : T) ax al kers sts p ms :
  pool_par F m (length al) kers sts -> expand (length al) (pl_size m) = Some (map klen kers) ->
  expand (length al) (pl_stride m) = Some sts -> pl_padder m = Some p ->
  same_call F fuel p x ax al ms kers sts -> every_axis (length al) p const_mode ->
  (forall k, In k kers -> k = [] \/ wsum k = f1) -> constant_image c x ->
  exists x', snd (sep_forward fuel junk m x ax) = Ok x' /\ constant_image c x'.
Proof.
  intros PP He1 He2 Hp SC EA HW C.
  eapply (pool_inv_same fuel junk m (constant_image c) const_mode); eauto.
  - intros. eapply forward_constant; eauto.
  - intros. apply correlate_const; auto. now apply eff_sum.
  - intros t u. apply const_teq.
Qed.
Theorem pool_range_same fuel junk (m : pool F) lo hi (x : T) ax al kers sts p ms :
  pool_par F m (length al) kers sts -> expand (length al) (pl_size m) = Some (map klen kers) ->
  expand (length al) (pl_stride m) = Some sts -> pl_padder m = Some p ->
  same_call F fuel p x ax al ms kers sts -> every_axis (length al) p (range_mode lo hi) ->
  (forall k, In k kers -> k = [] \/ wsum k = f1) -> (forall k e, In k kers -> In e k -> fle f0 e) -> in_range lo hi x ->
  exists x', snd (sep_forward fuel junk m x ax) = Ok x' /\ in_range lo hi x'.
Proof.
  intros PP He1 He2 Hp SC EA HW HN C.
  eapply (pool_inv_same fuel junk m (in_range lo hi) (range_mode lo hi)); eauto.
  - intros. eapply forward_range; eauto.
  - intros. apply correlate_range; auto. { now apply eff_sum. } now apply eff_nonneg.
  - intros t u. apply range_teq.
Qed.
Theorem pool_const_valid fuel junk (m : pool F) c (x : T) ax al kers sts : on_axes x ax al ->
  pool_par F m (length al) kers sts -> pl_padder m = None ->
  (forall r, (r < length al)%nat -> klen (nth r kers []) <= nth (nth r al 0%nat) (shp x) 0) ->
  (forall k, In k kers -> k = [] \/ wsum k = f1) -> constant_image c x ->
  exists x', sep_forward fuel junk m x ax = (m, Ok x') /\ constant_image c x'.
Proof.
  intros OA PP Hp Hf HW C. destruct (sep_forward_valid F fuel junk m x ax al kers sts OA PP Hp Hf) as [x' [X1 X2]].
  exists x'. split; auto. apply (const_teq _ _ _ X2). destruct OA as [A1 A2 A3].
  apply correlate_const; auto. { apply (eff_steps m); auto. } now apply eff_sum.
Qed.
Theorem pool_range_valid fuel junk (m : pool F) lo hi (x : T) ax al kers sts : on_axes x ax al ->
  pool_par F m (length al) kers sts -> pl_padder m = None ->
  (forall r, (r < length al)%nat -> klen (nth r kers []) <= nth (nth r al 0%nat) (shp x) 0) ->
  (forall k, In k kers -> k = [] \/ wsum k = f1) -> (forall k e, In k kers -> In e k -> fle f0 e) -> in_range lo hi x ->
  exists x', sep_forward fuel junk m x ax = (m, Ok x') /\ in_range lo hi x'.
Proof.
  intros OA PP Hp Hf HW HN C. destruct (sep_forward_valid F fuel junk m x ax al kers sts OA PP Hp Hf) as [x' [X1 X2]].
  exists x'. split; auto. apply (range_teq _ _ _ _ X2). destruct OA as [A1 A2 A3].
  apply correlate_range; auto. { apply (eff_steps m); auto. } { now apply eff_sum. } now apply eff_nonneg.
Qed.
End PL.
