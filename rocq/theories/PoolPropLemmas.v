(** The pooling properties (C36-C40) in terms of a module built by its constructor. *)
From Coq Require Import Sorted Permutation.
From Verif Require Export AvgOriginal PoolLinear PoolHistory.
Open Scope Z_scope.

Section PPL.
Context {F : ofield}.
Notation T := (tensor F).

(** A module with one kernel and one stride for each of n axes, built by the constructor and
    possibly turned into a filter (base.py:155-186, 121-151). *)
Inductive built (n : nat) (kers : list (list F)) : list Z -> option (padder F) -> pool F -> Prop :=
| built_init kernel stride ss pd m : expand n kernel = Some kers -> expand n stride = Some ss ->
    sep_init kernel stride pd = Ok m -> built n kers (map2 real_stride kers ss) pd m
| built_filter sts pd0 m0 pd m : built n kers sts pd0 m0 -> to_filter m0 pd = Ok m ->
    built n kers (repeat 1 n) (match pd with None => pd0 | Some _ => pd end) m.

(** The output at j is the sum over all kernel offsets o of the product of the weights times
    the input at j * stride + o; an axis with an empty kernel is left alone. *)
Definition correlation (al : list nat) (kers : list (list F)) (sts : list Z) (x : T) (j : list Z) : F :=
  bsum (map klen (map eff_kernel kers)) (fun o =>
    fmul (weight (map eff_kernel kers) o) (at_ x (place al (map2 eff_stride kers sts) j o))).
End PPL.

Section PPL2.
Variable F : ofield.
Add Field Fppl : (f_field F).
Notation T := (tensor F).

Lemma real_stride_nth (kers : list (list F)) ss r : length ss = length kers -> (r < length kers)%nat ->
  (forall s, In (Some s) ss -> 1 <= s) -> nth r kers [] <> [] -> 1 <= nth r (map2 real_stride kers ss) 1.
Proof.
  intros L Hr Hs Hk. rewrite nth_map2 with (da := []) (db := None) by lia.
  destruct (nth r ss None) as [s|] eqn:E; cbn [real_stride].
  - apply Hs. rewrite <- E. apply nth_In. lia.
  - destruct (nth r kers []); [congruence|]. unfold klen. simpl length. lia.
Qed.

Lemma expand_item {A} n (a : A) : expand n (NItem a) = Some (repeat a n).
Proof. reflexivity. Qed.

Lemma built_par n kers sts pd (m : pool F) : built n kers sts pd m ->
  pool_par F m n kers sts /\ pl_padder m = pd /\ expand n (pl_size m) = Some (map klen kers) /\
  expand n (pl_stride m) = Some sts /\ expand n (pl_kernel m) = Some kers.
Proof.
  induction 1 as [kernel stride ss pd m H1 H2 H3 | sts pd0 m0 pd m H IH H2].
  - destruct (sep_init_par F n kernel stride pd kers ss m H1 H2 H3) as [A [B [C [D E]]]]. split; auto. split; auto. split; auto. split; auto.
    unfold sep_init in H3. destruct (read_stride _ _); [|discriminate]. cbn [bind] in H3.
    destruct (pool_align _ _); [|discriminate]. cbn [bind] in H3. inv H3. exact H1.
  - destruct IH as [[A1 [A2 [A3 A4]]] [B [C [D E]]]]. unfold to_filter in H2.
    destruct (pool_align _ _) as [k|] eqn:Ea; [|discriminate]. cbn [bind] in H2. injection H2 as <-. cbn [pl_padder pl_size pl_kernel pl_stride].
    split; [|split; [rewrite <- B; destruct pd; auto|split; [auto|split; [reflexivity|auto]]]].
    split; [auto|]. split; [apply repeat_length|]. split; cbn [pl_ndim].
    + unfold pool_align in Ea. destruct (pl_kernel m0) as [k0|ks]; cbn in Ea.
      * inv Ea. auto.
      * cbn in E. destruct (Nat.eqb_spec (length ks) n); inv E. inv Ea. auto.
    + intros r Hr. destruct (A4 r Hr) as [Q1 [Q2 [Q3 Q4]]]. split; auto. split; auto.
      split; [rewrite nth_repeat; reflexivity|]. rewrite nth_repeat. lia.
Qed.

Theorem pool_valid fuel junk (m : pool F) (x : T) ax al kers sts : on_axes x ax al -> built (length al) kers sts None m ->
  (forall r, (r < length al)%nat -> klen (nth r kers []) <= nth (nth r al 0%nat) (shp x) 0) ->
  exists y, snd (sep_forward fuel junk m x ax) = Ok y /\ ndim y = ndim x /\
    (forall r, (r < length al)%nat -> nth r kers [] <> [] ->
       nth (nth r al 0%nat) (shp y) 0 = (nth (nth r al 0%nat) (shp x) 0 - klen (nth r kers [])) / nth r sts 1 + 1) /\
    (forall r, (r < length al)%nat -> nth r kers [] = [] -> nth (nth r al 0%nat) (shp y) 0 = nth (nth r al 0%nat) (shp x) 0) /\
    (forall d, ~ In d al -> nth d (shp y) 0 = nth d (shp x) 0) /\
    forall j, valid (shp y) j -> at_ y j = correlation al kers sts x j.
Proof.
  intros OA B Hf. destruct (built_par _ _ _ _ _ B) as [PP [Pd _]].
  destruct (sep_forward_valid F fuel junk m x ax al kers sts OA PP Pd Hf) as [y [Y1 [Y2 Y3]]].
  pose proof PP as [L1 [L2 _]]. destruct OA as [O1 O2 O3].
  assert (G : forall r, (r < length al)%nat -> nth (nth r al 0%nat) (shp y) 0 =
     (nth (nth r al 0%nat) (shp x) 0 - klen (eff_kernel (nth r kers []))) / eff_stride (nth r kers []) (nth r sts 1) + 1).
  { intros r Hr. rewrite Y2. cbn [correlate shp]. rewrite pooled_nth; auto.
    - rewrite (nth_indep (map eff_kernel kers) [] (eff_kernel [])) by (rewrite map_length; lia). rewrite map_nth.
      rewrite nth_map2 with (da := []) (db := 1) by lia. reflexivity.
    - now rewrite map_length.
    - rewrite map2_length. lia. }
  exists y. rewrite Y1. split; auto. split; [|split; [|split; [|split]]].
  - unfold ndim. rewrite Y2. cbn [correlate shp]. apply pooled_length.
  - intros r Hr Hk. rewrite G by auto. destruct (nth r kers []); [congruence|]. reflexivity.
  - intros r Hr Hk. rewrite G, Hk by auto. cbn [eff_kernel eff_stride]. change (klen [@f1 F]) with 1. rewrite Z.div_1_r. lia.
  - intros d Hd. rewrite Y2. cbn [correlate shp]. apply pooled_notin; auto.
  - intros j Vj. rewrite Y3 by auto. reflexivity.
Qed.
Theorem pool_too_large fuel junk (m : pool F) (x : T) ax al kers sts : on_axes x ax al -> built (length al) kers sts None m ->
  (exists r, (r < length al)%nat /\ nth r kers [] <> [] /\ nth (nth r al 0%nat) (shp x) 0 < klen (nth r kers [])) ->
  snd (sep_forward fuel junk m x ax) = Err RuntimeError.
Proof.
  intros OA B H. destruct (built_par _ _ _ _ _ B) as [PP [Pd _]]. now rewrite (sep_forward_too_large F fuel junk m x ax al kers sts).
Qed.

(** With a same padder. *)
Theorem pool_same fuel junk (m : pool F) (x : T) ax al kers sts p ms : built (length al) kers sts (Some p) m ->
  same_call F fuel p x ax al ms kers sts ->
  exists ws xp y, length ws = length al /\
    (forall r, (r < length al)%nat -> is_same_width (klen (nth r kers [])) (nth r sts 1) (nth (nth r al 0%nat) (shp x) 0) (nth r ws (0, 0))) /\
    padder_forward fuel junk (with_width p ws) x ax = Ok xp /\
    snd (sep_forward fuel junk m x ax) = Ok y /\ ndim y = ndim x /\
    (forall r c, (r < length al)%nat -> nth r kers [] <> [] -> nth r ms MUnknown <> MPeriodize ->
       is_ceil_div (nth (nth r al 0%nat) (shp x) 0) (nth r sts 1) c -> nth (nth r al 0%nat) (shp y) 0 = c) /\
    (forall r, (r < length al)%nat -> nth r kers [] = [] -> nth (nth r al 0%nat) (shp y) 0 = nth (nth r al 0%nat) (shp x) 0) /\
    (forall d, ~ In d al -> nth d (shp y) 0 = nth d (shp x) 0) /\
    forall j, valid (shp y) j -> at_ y j = correlation al kers sts xp j.
Proof.
  intros B SC. destruct (built_par _ _ _ _ _ B) as [PP [Pd [E1 [E2 _]]]].
  destruct (sep_forward_same F fuel junk m x ax al kers sts p ms PP E1 E2 Pd SC) as [ws [xp [y [W1 [W2 [W3 [W4 [W5 [W6 [W7 [W8 [[W9 W9b] W10]]]]]]]]]]]].
  pose proof PP as [L1 [L2 _]]. pose proof SC as [[O1 O2 O3] N0 P0 P1 SS PF FM FU].
  destruct (same_pad_call F fuel p x ax al ms kers sts ws SC W1 L1 W2) as [_ [_ [_ [FL [FN FS]]]]].
  exists ws, xp, y. split; auto. split; auto. split; auto. rewrite W8. split; auto. split; [|split; [|split; [|split]]]; auto.
  - unfold ndim in *. rewrite W9. cbn [correlate shp]. rewrite pooled_length, W7. auto.
  - intros r Hr Hk. rewrite W9. cbn [correlate shp]. rewrite pooled_nth; auto.
    + rewrite (nth_indep (map eff_kernel kers) [] (eff_kernel [])) by (rewrite map_length; lia). rewrite map_nth.
      rewrite nth_map2 with (da := []) (db := 1) by lia. rewrite Hk. cbn [eff_kernel eff_stride]. rewrite W7, FS by auto. cbv zeta.
      specialize (W2 r Hr). rewrite Hk in W2. change (klen (@nil F)) with 0 in W2.
      pose proof (same_width_bounds _ _ _ _ (SS r Hr) (Z.le_refl 0) W2) as Bw.
      assert (Ew : (fst (nth r ws (0, 0)) =? 0) && (snd (nth r ws (0, 0)) =? 0) = true) by (apply andb_true_iff; rewrite !Z.eqb_eq; lia).
      rewrite Ew. change (klen [@f1 F]) with 1. rewrite Z.div_1_r. lia.
    + intros a Ha. rewrite W7, FL. auto.
    + now rewrite map_length.
    + rewrite map2_length. lia.
  - intros d Hd. rewrite W9. cbn [correlate shp]. rewrite pooled_notin by auto. rewrite W7.
    destruct (Nat.lt_ge_cases d (ndim x)) as [Hd2|Hd2]; [now rewrite FN|].
    rewrite !nth_overflow; auto. rewrite FL. auto.
Qed.

(** The same, with the lengths in terms of the padded image. *)
Theorem pool_same_corr fuel junk (m : pool F) (x : T) ax al kers sts p ms : built (length al) kers sts (Some p) m ->
  same_call F fuel p x ax al ms kers sts ->
  exists ws xp y, length ws = length al /\
    (forall r, (r < length al)%nat -> is_same_width (klen (nth r kers [])) (nth r sts 1) (nth (nth r al 0%nat) (shp x) 0) (nth r ws (0, 0))) /\
    padder_forward fuel junk (with_width p ws) x ax = Ok xp /\
    snd (sep_forward fuel junk m x ax) = Ok y /\ ndim y = ndim x /\
    (forall r, (r < length al)%nat -> nth r kers [] <> [] ->
       nth (nth r al 0%nat) (shp y) 0 = (nth (nth r al 0%nat) (shp xp) 0 - klen (nth r kers [])) / nth r sts 1 + 1) /\
    (forall d, (forall r, (r < length al)%nat -> nth r al 0%nat = d -> nth r kers [] = []) -> nth d (shp y) 0 = nth d (shp x) 0) /\
    forall j, valid (shp y) j -> at_ y j = correlation al kers sts xp j.
Proof.
  intros B SC. pose proof (pool_same fuel junk m x ax al kers sts p ms B SC) as [ws' [xp' [y' [_ [_ [_ [Ey [_ [_ [Q1 [Q2 _]]]]]]]]]]].
  destruct (built_par _ _ _ _ _ B) as [PP [Pd [E1 [E2 _]]]].
  destruct (sep_forward_same F fuel junk m x ax al kers sts p ms PP E1 E2 Pd SC) as [ws [xp [y [W1 [W2 [W3 [W4 [W5 [W6 [W7 [W8 [[W9 W9b] W10]]]]]]]]]]]].
  rewrite W8 in Ey. injection Ey as <-.
  pose proof PP as [L1 [L2 _]]. pose proof SC as [[O1 O2 O3] N0 P0 P1 SS PF FM FU].
  assert (FL : length (shp xp) = ndim x) by (rewrite W7; unfold full_shape; now rewrite map_length, seq_length).
  exists ws, xp, y. split; auto. split; auto. split; auto. rewrite W8. split; auto. split; [|split; [|split]].
  - unfold ndim in *. rewrite W9. cbn [correlate shp]. rewrite pooled_length. auto.
  - intros r Hr Hk. rewrite W9. cbn [correlate shp]. rewrite pooled_nth; auto.
    + rewrite (nth_indep (map eff_kernel kers) [] (eff_kernel [])) by (rewrite map_length; lia). rewrite map_nth.
      rewrite nth_map2 with (da := []) (db := 1) by lia. destruct (nth r kers []); [congruence|]. reflexivity.
    + intros a Ha. rewrite FL. auto.
    + now rewrite map_length.
    + rewrite map2_length. lia.
  - intros d Hd. destruct (in_dec Nat.eq_dec d al) as [Hi|Hi]; [|auto].
    destruct (In_pos d al 0%nat Hi) as [r [Hr E]]. rewrite <- E. apply Q1; auto.
  - intros j Vj. rewrite W9b by auto. reflexivity.
Qed.
(** The lengths in terms of the input. *)
Theorem pool_same_shape fuel junk (m : pool F) (x : T) ax al kers sts p ms : built (length al) kers sts (Some p) m ->
  same_call F fuel p x ax al ms kers sts ->
  exists y, snd (sep_forward fuel junk m x ax) = Ok y /\ ndim y = ndim x /\
    (forall r c, (r < length al)%nat -> nth r kers [] <> [] -> nth r ms MUnknown <> MPeriodize ->
       is_ceil_div (nth (nth r al 0%nat) (shp x) 0) (nth r sts 1) c -> nth (nth r al 0%nat) (shp y) 0 = c) /\
    (forall d, (forall r, (r < length al)%nat -> nth r al 0%nat = d -> nth r kers [] = []) -> nth d (shp y) 0 = nth d (shp x) 0).
Proof.
  intros B SC. destruct (pool_same fuel junk m x ax al kers sts p ms B SC) as [ws' [xp' [y' [_ [_ [_ [Ey [Q0 [Q3 [Q1 [Q2 _]]]]]]]]]]].
  exists y'. split; auto. split; auto. split; auto.
  intros d Hd. destruct (in_dec Nat.eq_dec d al) as [Hi|Hi]; [|auto].
  destruct (In_pos d al 0%nat Hi) as [r [Hr E]]. rewrite <- E. apply Q1; auto.
Qed.
Theorem pool_valid_corr fuel junk (m : pool F) (x : T) ax al kers sts : on_axes x ax al -> built (length al) kers sts None m ->
  (forall r, (r < length al)%nat -> klen (nth r kers []) <= nth (nth r al 0%nat) (shp x) 0) ->
  exists y, snd (sep_forward fuel junk m x ax) = Ok y /\ ndim y = ndim x /\
    (forall r, (r < length al)%nat -> nth r kers [] <> [] ->
       nth (nth r al 0%nat) (shp y) 0 = (nth (nth r al 0%nat) (shp x) 0 - klen (nth r kers [])) / nth r sts 1 + 1) /\
    (forall d, (forall r, (r < length al)%nat -> nth r al 0%nat = d -> nth r kers [] = []) -> nth d (shp y) 0 = nth d (shp x) 0) /\
    forall j, valid (shp y) j -> at_ y j = correlation al kers sts x j.
Proof.
  intros A B C. destruct (pool_valid fuel junk m x ax al kers sts A B C) as [y [Y1 [Y2 [Y3 [Y4 [Y5 Y6]]]]]].
  exists y. split; auto. split; auto. split; auto. split; auto.
  intros d Hd. destruct (in_dec Nat.eq_dec d al) as [Hi|Hi]; [|auto].
  destruct (In_pos d al 0%nat Hi) as [r [Hr E]]. rewrite <- E. apply Y4; auto.
Qed.
Theorem pool_valid_shape fuel junk (m : pool F) (x : T) ax al kers sts : on_axes x ax al -> built (length al) kers sts None m ->
  (forall r, (r < length al)%nat -> klen (nth r kers []) <= nth (nth r al 0%nat) (shp x) 0) ->
  exists y, snd (sep_forward fuel junk m x ax) = Ok y /\ ndim y = ndim x /\
    (forall r, (r < length al)%nat -> nth r kers [] <> [] ->
       nth (nth r al 0%nat) (shp y) 0 = (nth (nth r al 0%nat) (shp x) 0 - klen (nth r kers [])) / nth r sts 1 + 1) /\
    (forall d, (forall r, (r < length al)%nat -> nth r al 0%nat = d -> nth r kers [] = []) -> nth d (shp y) 0 = nth d (shp x) 0).
Proof.
  intros A B C. destruct (pool_valid_corr fuel junk m x ax al kers sts A B C) as [y [Y1 [Y2 [Y3 [Y4 Y5]]]]].
  exists y. auto.
Qed.

(** A filter with a same padder keeps the shape. *)
Theorem filter_keeps_shape fuel junk (m0 m : pool F) (x : T) ax al kers sts0 pd0 pd p ms : built (length al) kers sts0 pd0 m0 ->
  to_filter m0 pd = Ok m -> match pd with None => pd0 | Some _ => pd end = Some p ->
  same_call F fuel p x ax al ms kers (repeat 1 (length al)) -> ~ In MPeriodize ms ->
  exists y, snd (sep_forward fuel junk m x ax) = Ok y /\ shp y = shp x.
Proof.
  intros B Hf Hp SC Hm. pose proof (built_filter _ _ _ _ _ _ _ B Hf) as B2. rewrite Hp in B2.
  destruct (pool_same fuel junk m x ax al kers _ p ms B2 SC) as [ws [xp [y [_ [_ [_ [Y1 [Y2 [Y3 [Y4 [Y5 _]]]]]]]]]]].
  exists y. split; auto. apply list_ext with (d := 0); auto. intros d Hd.
  pose proof SC as [[O1 O2 O3] N0 P0 P1 SS PF FM FU].
  destruct (in_dec Nat.eq_dec d al) as [Hi|Hi]; [|auto]. destruct (In_pos d al 0%nat Hi) as [r [Hr <-]].
  destruct (nth r kers []) as [|c0 k0] eqn:Ek; [auto|]. apply Y3; auto.
  - rewrite Ek. discriminate.
  - intros E. apply Hm. rewrite <- E. apply nth_In. rewrite (expand_length _ _ _ (pf_mode _ _ _ PF)). auto.
  - rewrite nth_repeat. unfold is_ceil_div. lia.
Qed.

(** C38 in terms of [built]. *)
Theorem linear_valid fuel junk (m : pool F) a b (x y z : T) ax al kers sts : on_axes x ax al -> built (length al) kers sts None m ->
  (forall r, (r < length al)%nat -> klen (nth r kers []) <= nth (nth r al 0%nat) (shp x) 0) ->
  combination a b x y z ->
  exists x' y' z', snd (sep_forward fuel junk m x ax) = Ok x' /\ snd (sep_forward fuel junk m y ax) = Ok y' /\
    snd (sep_forward fuel junk m z ax) = Ok z' /\ combination a b x' y' z'.
Proof.
  intros OA B Hf C. destruct (built_par _ _ _ _ _ B) as [PP [Pd _]].
  destruct (pool_linear_valid F fuel junk m a b x y z ax al kers sts OA PP Pd Hf C) as [x' [y' [z' [-> [-> [-> Q]]]]]].
  exists x', y', z'. auto.
Qed.
Theorem linear_same fuel junk (m : pool F) a b (x y z : T) ax al kers sts p ms : built (length al) kers sts (Some p) m ->
  same_call F fuel p x ax al ms kers sts -> every_axis (length al) p linear_mode -> combination a b x y z ->
  exists x' y' z', snd (sep_forward fuel junk m x ax) = Ok x' /\ snd (sep_forward fuel junk m y ax) = Ok y' /\
    snd (sep_forward fuel junk m z ax) = Ok z' /\ combination a b x' y' z'.
Proof.
  intros B SC EA C. destruct (built_par _ _ _ _ _ B) as [PP [Pd [E1 [E2 _]]]]. eapply pool_linear_same; eauto.
Qed.
Theorem const_valid fuel junk (m : pool F) c (x : T) ax al kers sts : on_axes x ax al -> built (length al) kers sts None m ->
  (forall r, (r < length al)%nat -> klen (nth r kers []) <= nth (nth r al 0%nat) (shp x) 0) ->
  (forall k, In k kers -> k = [] \/ wsum k = f1) -> constant_image c x ->
  exists x', snd (sep_forward fuel junk m x ax) = Ok x' /\ constant_image c x'.
Proof.
  intros OA B Hf C Hc. destruct (built_par _ _ _ _ _ B) as [PP [Pd _]].
  destruct (pool_const_valid F fuel junk m c x ax al kers sts OA PP Pd Hf C Hc) as [x' [-> Q]]. exists x'. auto.
Qed.
Theorem const_same fuel junk (m : pool F) c (x : T) ax al kers sts p ms : built (length al) kers sts (Some p) m ->
  same_call F fuel p x ax al ms kers sts -> every_axis (length al) p const_mode ->
  (forall k, In k kers -> k = [] \/ wsum k = f1) -> constant_image c x ->
  exists x', snd (sep_forward fuel junk m x ax) = Ok x' /\ constant_image c x'.
Proof.
  intros B SC EA C Hc. destruct (built_par _ _ _ _ _ B) as [PP [Pd [E1 [E2 _]]]]. eapply pool_const_same; eauto.
Qed.
Theorem range_valid fuel junk (m : pool F) lo hi (x : T) ax al kers sts : on_axes x ax al -> built (length al) kers sts None m ->
  (forall r, (r < length al)%nat -> klen (nth r kers []) <= nth (nth r al 0%nat) (shp x) 0) ->
  (forall k, In k kers -> k = [] \/ wsum k = f1) -> (forall k e, In k kers -> In e k -> fle f0 e) -> in_range lo hi x ->
  exists x', snd (sep_forward fuel junk m x ax) = Ok x' /\ in_range lo hi x'.
Proof.
  intros OA B Hf C Hn Hc. destruct (built_par _ _ _ _ _ B) as [PP [Pd _]].
  destruct (pool_range_valid F fuel junk m lo hi x ax al kers sts OA PP Pd Hf C Hn Hc) as [x' [-> Q]]. exists x'. auto.
Qed.
Theorem range_same fuel junk (m : pool F) lo hi (x : T) ax al kers sts p ms : built (length al) kers sts (Some p) m ->
  same_call F fuel p x ax al ms kers sts -> every_axis (length al) p (range_mode lo hi) ->
  (forall k, In k kers -> k = [] \/ wsum k = f1) -> (forall k e, In k kers -> In e k -> fle f0 e) -> in_range lo hi x ->
  exists x', snd (sep_forward fuel junk m x ax) = Ok x' /\ in_range lo hi x'.
Proof.
  intros B SC EA C Hn Hc. destruct (built_par _ _ _ _ _ B) as [PP [Pd [E1 [E2 _]]]]. eapply pool_range_same; eauto.
Qed.

(** C39 *)
Theorem avg_mean fuel junk (ks : nds Z) stride (m : pool F) (x : T) ax al l sts : on_axes x ax al ->
  expand (length al) ks = Some l -> expand (length al) stride = Some sts -> avg_init ks stride None = Ok m ->
  (forall r, (r < length al)%nat -> 1 <= nth r l 0 <= nth (nth r al 0%nat) (shp x) 0) ->
  exists y, snd (avg_forward fuel junk true m x ax) = Ok y /\ ndim y = ndim x /\
    (forall r, (r < length al)%nat ->
       nth (nth r al 0%nat) (shp y) 0 = (nth (nth r al 0%nat) (shp x) 0 - nth r l 0) / nth r (map2 stride_or_size l sts) 1 + 1) /\
    (forall d, ~ In d al -> nth d (shp y) 0 = nth d (shp x) 0) /\
    forall j, valid (shp y) j ->
      at_ y j = fdiv (bsum l (fun o => at_ x (place al (map2 stride_or_size l sts) j o))) (fofZ (zprod l)) /\
      forall lo hi, (forall o, valid l o -> fle lo (at_ x (place al (map2 stride_or_size l sts) j o)) /\
                                            fle (at_ x (place al (map2 stride_or_size l sts) j o)) hi) ->
        fle lo (at_ y j) /\ fle (at_ y j) hi.
Proof.
  intros OA Hk Hs Hm Hr. destruct (avg_valid F fuel junk ks stride m x ax al l sts OA Hk Hs Hm Hr) as [y [Y1 [Y2 Y3]]].
  pose proof (expand_length _ _ _ Hk) as Ll. pose proof (expand_length _ _ _ Hs) as Ls. destruct OA as [O1 O2 O3].
  assert (K4 : forall k, In k l -> 1 <= k).
  { intros k H. apply In_nth with (d := 0) in H. destruct H as [r [H1 <-]]. apply Hr. lia. }
  exists y. rewrite Y1. split; auto. split; [|split; [|split]].
  - unfold ndim. rewrite Y2. cbn [correlate shp]. apply pooled_length.
  - intros r Hr2. rewrite Y2. cbn [correlate shp]. rewrite pooled_nth; auto.
    + rewrite (nth_indep (map (avg_ker F) l) [] (avg_ker F 0)) by (rewrite map_length; lia). rewrite map_nth.
      rewrite avg_ker_klen; [reflexivity|]. specialize (Hr r Hr2). lia.
    + rewrite map_length. lia.
    + rewrite map2_length. lia.
  - intros d Hd. rewrite Y2. cbn [correlate shp]. apply pooled_notin; auto.
  - intros j Vj. rewrite Y3 by auto. split; [reflexivity|]. intros lo hi H. apply window_mean_bounds; auto.
Qed.
End PPL2.
