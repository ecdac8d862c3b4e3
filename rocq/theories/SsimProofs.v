(** SSIM: the score, symmetry, identical images, bounds (C51). *)
From Verif Require Export SsimBlur.
Open Scope Z_scope.

Section SP.
Variable F : ofield.
Add Field Fsp : (f_field F).
Notation T := (tensor F).

(** *** cropping *)
(** c is full without the widths cw on the axes al. *)
Record crop_of (al : list nat) (cw : list (Z * Z)) (full c : T) : Prop := {
  co_nd : ndim c = ndim full;
  co_shape : forall r, (r < length al)%nat -> nth (nth r al 0%nat) (shp c) 0 = nth (nth r al 0%nat) (shp full) 0 - pair_sum (nth r cw (0, 0));
  co_other : forall d, ~ In d al -> nth d (shp c) 0 = nth d (shp full) 0;
  co_val : forall j, valid (shp c) j -> valid (shp full) (place al (repeat 1 (length al)) j (map fst cw)) /\
    at_ c j = at_ full (place al (repeat 1 (length al)) j (map fst cw)) }.

Lemma pyidx_nth {A} (l : list A) r d : (r < length l)%nat -> pyidx l (Z.of_nat r) = Ok (nth r l d).
Proof.
  intros H. unfold pyidx. destruct (Z.ltb_spec (Z.of_nat r) 0); [lia|]. destruct (Z.leb_spec 0 (Z.of_nat r)); [|lia].
  destruct (Z.ltb_spec (Z.of_nat r) (Z.of_nat (length l))); [|lia]. cbn [andb]. rewrite Nat2Z.id, (nth_error_nth' l d H). reflexivity.
Qed.
Lemma crop_idx_ok (w : nds (Z * Z)) (ws : list (Z * Z)) sh : forall al k idx, NoDup al -> (forall a, In a al -> (a < length sh)%nat) -> length idx = length sh ->
  (forall r, (r < length al)%nat -> nds_get w (k + Z.of_nat r) = Ok (nth r ws (0, 0))) ->
  exists idx', crop_idx w sh k (map Z.of_nat al) idx = Ok idx' /\ length idx' = length idx /\
    (forall r, (r < length al)%nat -> nth (nth r al 0%nat) idx' sfull = srng (fst (nth r ws (0, 0))) (nth (nth r al 0%nat) sh 0 - snd (nth r ws (0, 0)))) /\
    (forall d, ~ In d al -> nth d idx' sfull = nth d idx sfull).
Proof.
  intros al. revert ws. induction al as [|a al IH]; intros ws k idx N L Li H; cbn [map crop_idx].
  - exists idx. split; auto. split; auto. split; auto. intros r Hr. cbn in Hr. lia.
  - inv N. pose proof (H 0%nat ltac:(cbn; lia)) as H0. replace (k + Z.of_nat 0) with k in H0 by lia. rewrite H0. cbn [bind].
    assert (La : (a < length sh)%nat) by (apply L; now left).
    rewrite (pyidx_nth sh a 0 La). cbn [bind]. rewrite axis_nat_ok by lia. cbn [bind].
    destruct (IH (tl ws) (k + 1) (upd a (srng (fst (nth 0 ws (0, 0))) (nth a sh 0 - snd (nth 0 ws (0, 0)))) idx)) as [idx' [E1 [E2 [E3 E4]]]]; auto.
    { intros c Hc. apply L. now right. }
    { now rewrite upd_length. }
    { intros r Hr. replace (k + 1 + Z.of_nat r) with (k + Z.of_nat (S r)) by lia. rewrite H by (cbn; lia). destruct ws; [destruct r; reflexivity|reflexivity]. }
    exists idx'. rewrite E1. split; auto. split; [now rewrite E2, upd_length|]. split.
    + intros [|r] Hr; cbn [nth].
      * rewrite E4 by auto. rewrite nth_upd_eq by lia. reflexivity.
      * cbn [length] in Hr. rewrite E3 by lia. destruct ws; [destruct r; reflexivity|reflexivity].
    + intros d Hd. rewrite E4 by (intros Q; apply Hd; now right). rewrite nth_upd_ne; auto. intros ->. apply Hd. now left.
Qed.

Lemma resolve_rng n lo hi : 0 <= lo -> lo <= hi -> hi <= n -> resolve n (srng lo hi) = mkR lo (hi - lo) 1.
Proof.
  intros. unfold resolve, srng, clampi. cbn [s_lo s_hi s_st]. destruct (Z.ltb_spec lo 0); [lia|]. destruct (Z.ltb_spec hi 0); [lia|].
  replace (Z.max 0 (Z.min n lo)) with lo by lia. replace (Z.max 0 (Z.min n hi)) with hi by lia. rewrite Z.div_1_r. f_equal. lia.
Qed.
Lemma resolve_full n : 0 <= n -> resolve n sfull = mkR 0 n 1.
Proof. intros. unfold resolve, sfull. cbn [s_lo s_hi s_st]. rewrite Z.div_1_r. f_equal. lia. Qed.

Lemma nth_map2z {A B C} (f : A -> B -> C) : forall l m k da db dc, (k < length l)%nat -> (k < length m)%nat -> nth k (map2 f l m) dc = f (nth k l da) (nth k m db).
Proof. induction l as [|a l IH]; intros [|b' m] [|k] da db dc H1 H2; cbn in *; try lia; auto. apply IH; lia. Qed.

(** What crop_border does: nothing, or cutting off the padder's widths. *)
Lemma crop_border_none (full : T) axes s : (ss_crop s = false \/ pl_padder (ss_blur s) = None) -> crop_border full axes s = (s, Ok full).
Proof. intros [H|H]; unfold crop_border, ret; rewrite H; auto. destruct (ss_crop s); reflexivity. Qed.
Lemma crop_border_some (full : T) al ws s p : ss_crop s = true -> pl_padder (ss_blur s) = Some p -> p_width p = NList ws -> length ws = length al ->
  NoDup al -> (forall a, In a al -> (a < ndim full)%nat) -> (forall d, (d < ndim full)%nat -> 0 <= nth d (shp full) 0) ->
  (forall r, (r < length al)%nat -> 0 <= fst (nth r ws (0, 0)) /\ 0 <= snd (nth r ws (0, 0)) /\ pair_sum (nth r ws (0, 0)) <= nth (nth r al 0%nat) (shp full) 0) ->
  exists c, crop_border full (map Z.of_nat al) s = (s, Ok c) /\ crop_of al ws full c.
Proof.
  intros Hc Hp Hw Lw N L P0 H. unfold crop_border, ret. rewrite Hc, Hp, Hw.
  destruct (crop_idx_ok (NList ws) ws (shp full) al 0 (repeat sfull (ndim full)) N L) as [idx [E1 [E2 [E3 E4]]]].
  { apply repeat_length. }
  { intros r Hr. cbn [nds_get]. rewrite Z.add_0_l. apply pyidx_nth. lia. }
  rewrite E1. cbn [bind]. rewrite repeat_length in E2. unfold tget. rewrite E2, Nat.eqb_refl. eexists. split; [reflexivity|].
  assert (RR : forall d, (d < ndim full)%nat -> resolve (nth d (shp full) 0) (nth d idx sfull) =
    match in_dec Nat.eq_dec d al with
    | left _ => resolve (nth d (shp full) 0) (nth d idx sfull)
    | right _ => mkR 0 (nth d (shp full) 0) 1 end).
  { intros d Hd. destruct (in_dec Nat.eq_dec d al); auto. rewrite E4, nth_repeat by auto. apply resolve_full; auto. }
  assert (RA : forall r, (r < length al)%nat -> resolve (nth (nth r al 0%nat) (shp full) 0) (nth (nth r al 0%nat) idx sfull) =
    mkR (fst (nth r ws (0, 0))) (nth (nth r al 0%nat) (shp full) 0 - pair_sum (nth r ws (0, 0))) 1).
  { intros r Hr. rewrite E3 by auto. destruct (H r Hr) as [H1 [H2 H3]]. unfold pair_sum in *. rewrite resolve_rng by lia. f_equal. lia. }
  assert (LL : length (map r_len (map2 resolve (shp full) idx)) = ndim full) by (rewrite map_length, map2_length; unfold ndim in *; lia).
  assert (NL : forall d, (d < ndim full)%nat -> nth d (map r_len (map2 resolve (shp full) idx)) 0 = r_len (resolve (nth d (shp full) 0) (nth d idx sfull))).
  { intros d Hd. rewrite (nth_indep _ 0 (r_len (resolve 0 sfull))) by lia. rewrite map_nth. f_equal. apply nth_map2z; unfold ndim in *; lia. }
  constructor; cbn [shp at_].
  - exact LL.
  - intros r Hr. assert (Hl : (nth r al 0 < ndim full)%nat) by (apply L, nth_In; auto). rewrite NL, RA by auto. reflexivity.
  - intros d Hd. destruct (Nat.lt_ge_cases d (ndim full)) as [Hl|Hl]; [|rewrite !nth_overflow; auto; lia].
    rewrite NL, RR by auto. destruct (in_dec Nat.eq_dec d al); [contradiction|reflexivity].
  - intros j Vj. assert (Lj := valid_length _ _ Vj). rewrite LL in Lj.
    assert (EQ : map2 rpos (map2 resolve (shp full) idx) j = place al (repeat 1 (length al)) j (map fst ws)).
    { apply list_ext with (d := 0); [rewrite place_length, !map2_length; unfold ndim in *; lia|]. rewrite !map2_length. intros d Hd.
      assert (Hl : (d < ndim full)%nat) by (unfold ndim in *; lia).
      rewrite (nth_map2z rpos _ _ d (resolve 0 sfull) 0 0); [|rewrite map2_length; unfold ndim in *; lia|lia].
      rewrite (nth_map2z resolve _ _ d 0 sfull) by (unfold ndim in *; lia).
      destruct (in_dec Nat.eq_dec d al) as [Hi|Hi].
      - destruct (In_pos d al 0%nat Hi) as [r [Hr <-]]. rewrite RA by auto. unfold rpos. cbn [r_lo r_st].
        rewrite place_nth; auto; [|intros a Ha; rewrite Lj; auto|now rewrite repeat_length|now rewrite map_length].
        rewrite nth_repeat, (nth_indep (map fst ws) 0 (fst (0, 0))) by (rewrite map_length; lia). rewrite map_nth. lia.
      - rewrite RR by auto. destruct (in_dec Nat.eq_dec d al); [contradiction|]. unfold rpos. cbn [r_lo r_st]. rewrite place_notin by auto. lia. }
    split; [|now rewrite EQ]. apply valid_iff. rewrite place_length. split; [exact Lj|]. intros d Hd.
    assert (Hl : (d < ndim full)%nat) by exact Hd.
    pose proof (valid_nth _ _ d Vj) as Vd. rewrite LL in Vd. specialize (Vd Hl). rewrite NL in Vd by auto.
    destruct (in_dec Nat.eq_dec d al) as [Hi|Hi].
    + destruct (In_pos d al 0%nat Hi) as [r [Hr <-]]. rewrite RA in Vd by auto. cbn [r_len] in Vd.
      rewrite place_nth; auto; [|intros a Ha; rewrite Lj; auto|now rewrite repeat_length|now rewrite map_length].
      rewrite nth_repeat, (nth_indep (map fst ws) 0 (fst (0, 0))) by (rewrite map_length; lia). rewrite map_nth.
      destruct (H r Hr) as [H1 [H2 H3]]. unfold pair_sum in *. lia.
    + rewrite place_notin by auto. rewrite RR in Vd by auto. destruct (in_dec Nat.eq_dec d al); [contradiction|]. exact Vd.
Qed.
Lemma crop_of_refl al (full : T) : NoDup al -> (forall a, In a al -> (a < ndim full)%nat) -> crop_of al (repeat (0, 0) (length al)) full full.
Proof.
  intros N L. constructor; auto.
  - intros r Hr. rewrite nth_repeat. unfold pair_sum. cbn. lia.
  - intros j Vj. assert (Lj := valid_length _ _ Vj).
    assert (EQ : place al (repeat 1 (length al)) j (map fst (repeat (0, 0) (length al))) = j); [|now rewrite EQ].
    apply list_ext with (d := 0); [apply place_length|]. rewrite place_length. intros d Hd.
    destruct (in_dec Nat.eq_dec d al) as [Hi|Hi]; [|now rewrite place_notin].
    destruct (In_pos d al 0%nat Hi) as [r [Hr <-]].
    rewrite place_nth; auto; [|intros a Ha; rewrite Lj; auto|now rewrite repeat_length|now rewrite map_length, repeat_length].
    rewrite nth_repeat, (nth_indep (map fst _) 0 (fst (0, 0))) by (rewrite map_length, repeat_length; lia). rewrite map_nth, nth_repeat. cbn [fst]. lia.
Qed.

(** *** the mean over axes *)
Lemma tmean_some (x : T) al kd : (forall a, In a al -> (a < ndim x)%nat) -> NoDup al -> (forall n, In n (shp x) -> 1 <= n) ->
  exists y, tmean x (map Z.of_nat al) kd = Ok y.
Proof.
  intros L N P. destruct (tmean_ok F x al kd L N) as [y [E _]]; eauto. intros a Ha. assert (a < ndim x)%nat by (eapply reduced_in; eauto).
  assert (1 <= nth a (shp x) 0); [|lia]. apply P, nth_In. auto.
Qed.
(** Every value of the mean is the mean of values of x. *)
Lemma tmean_val (x : T) al kd y : (forall a, In a al -> (a < ndim x)%nat) -> NoDup al -> (forall n, In n (shp x) -> 1 <= n) ->
  tmean x (map Z.of_nat al) kd = Ok y ->
  shp y = (if kd then ones_at (reduced (ndim x) al) (shp x) else outside (reduced (ndim x) al) (shp x)) /\
  forall j, valid (shp y) j -> exists L n, 0 < n /\ Z.of_nat (length L) = n /\ (forall i, In i L -> valid (shp x) i) /\ at_ y j = fdiv (lsum (map (at_ x) L)) (fofZ n).
Proof.
  intros L N P E.
  assert (P' : forall a, In a (reduced (ndim x) al) -> 0 < nth a (shp x) 0).
  { intros a Ha. assert (a < ndim x)%nat by (eapply reduced_in; eauto). assert (1 <= nth a (shp x) 0); [|lia]. apply P, nth_In. auto. }
  destruct (tmean_ok F x al kd L N P') as [y' [E' [S V]]]. rewrite E in E'. inv E'. split; auto. intros j Vj.
  assert (LR : forall a, In a (reduced (ndim x) al) -> (a < length (shp x))%nat) by (intros a Ha; eapply reduced_in in Ha; eauto).
  set (jo := if kd then outside (reduced (ndim x) al) j else j).
  assert (VO : valid (outside (reduced (ndim x) al) (shp x)) jo).
  { unfold jo. destruct kd.
    - rewrite <- (outside_ones _ _ LR), <- S. now apply outside_valid.
    - now rewrite <- S. }
  pose proof (block_ok (shp x) (reduced (ndim x) al) jo) as B.
  exists (block (shp x) (reduced (ndim x) al) jo), (red_count F x (reduced (ndim x) al)). split; [now apply count_pos|]. split.
  - apply (block_length (shp x) (reduced (ndim x) al) jo); auto; [now apply reduced_NoDup|]. intros n Hn. specialize (P n Hn). lia.
  - split; [intros i Hi; apply (proj1 (proj2 B i) Hi)|]. now apply V.
Qed.
Lemma tmean_const (x : T) al kd y c : (forall a, In a al -> (a < ndim x)%nat) -> NoDup al -> (forall n, In n (shp x) -> 1 <= n) ->
  tmean x (map Z.of_nat al) kd = Ok y -> constant_image c x -> constant_image c y.
Proof.
  intros L N P E C j Vj. destruct (tmean_val x al kd y L N P E) as [S V]. destruct (V j Vj) as [B [n [Hn [Lb [Hb ->]]]]].
  apply mean_const with (c := c); auto.
Qed.
Lemma lsum_range lo hi (l : list F) : (forall e, In e l -> fle lo e /\ fle e hi) ->
  fle (fmul (fofZ (Z.of_nat (length l))) lo) (lsum l) /\ fle (lsum l) (fmul (fofZ (Z.of_nat (length l))) hi).
Proof.
  induction l as [|a l IH]; intros H.
  - cbn. replace (fmul f0 lo) with (@f0 F) by ring. replace (fmul f0 hi) with (@f0 F) by ring. split; apply fle_refl.
  - destruct (H a (or_introl eq_refl)) as [A1 A2]. destruct IH as [B1 B2]; [intros; apply H; now right|].
    change (lsum (a :: l)) with (fadd a (lsum l)). cbn [length]. replace (Z.of_nat (S (length l))) with (1 + Z.of_nat (length l)) by lia. rewrite fofZ_add, fofZ_1.
    replace (fmul (fadd f1 (fofZ (Z.of_nat (length l)))) lo) with (fadd lo (fmul (fofZ (Z.of_nat (length l))) lo)) by ring.
    replace (fmul (fadd f1 (fofZ (Z.of_nat (length l)))) hi) with (fadd hi (fmul (fofZ (Z.of_nat (length l))) hi)) by ring.
    split; apply fle_add; auto.
Qed.
Lemma tmean_range (x : T) al kd y lo hi : (forall a, In a al -> (a < ndim x)%nat) -> NoDup al -> (forall n, In n (shp x) -> 1 <= n) ->
  tmean x (map Z.of_nat al) kd = Ok y -> in_range lo hi x -> in_range lo hi y.
Proof.
  intros L N P E C j Vj. destruct (tmean_val x al kd y L N P E) as [S V]. destruct (V j Vj) as [B [n [Hn [Lb [Hb ->]]]]].
  destruct (lsum_range lo hi (map (at_ x) B)) as [Q1 Q2]. { intros e He. apply in_map_iff in He. destruct He as [i [<- Hi]]. apply C. auto. }
  rewrite map_length, Lb in Q1, Q2. assert (Np : flt f0 (@fofZ F n)) by now apply fofZ_pos. assert (Nn : @fofZ F n <> f0) by (apply fofZ_neq0; lia).
  split; [replace lo with (fdiv (fmul (fofZ n) lo) (fofZ n)) by (field; auto)|replace hi with (fdiv (fmul (fofZ n) hi) (fofZ n)) by (field; auto)]; apply fdiv_le; auto.
Qed.
Lemma tmean_teq (x x' : T) al kd : (forall a, In a al -> (a < ndim x)%nat) -> NoDup al -> (forall n, In n (shp x) -> 1 <= n) -> teq x x' ->
  exists y y', tmean x (map Z.of_nat al) kd = Ok y /\ tmean x' (map Z.of_nat al) kd = Ok y' /\ teq y y'.
Proof.
  intros L N P [S V].
  assert (P' : forall a, In a (reduced (ndim x) al) -> 0 < nth a (shp x) 0).
  { intros a Ha. assert (a < ndim x)%nat by (eapply reduced_in; eauto). assert (1 <= nth a (shp x) 0); [|lia]. apply P, nth_In. auto. }
  assert (Nd : ndim x' = ndim x) by (unfold ndim; congruence).
  destruct (tmean_ok F x al kd L N P') as [y [E1 [S1 V1]]].
  destruct (tmean_ok F x' al kd) as [y' [E2 [S2 V2]]]; rewrite ?Nd; auto. { intros a Ha. rewrite <- S. auto. }
  rewrite Nd in S2, V2. exists y, y'. split; auto. split; auto. split; [rewrite S1, S2, S; auto|]. intros j Vj.
  set (jo := if kd then outside (reduced (ndim x) al) j else j) in *.
  rewrite (V1 j _ (block_ok (shp x) _ jo)). rewrite (V2 j (block (shp x) (reduced (ndim x) al) jo)) by (rewrite <- S; apply block_ok).
  f_equal; [|unfold red_count; now rewrite S]. apply lsum_ext. intros i Hi. apply V. apply (proj1 (proj2 (block_ok _ _ _) i) Hi).
Qed.

(** *** the scale factor *)
Lemma zprod_nonneg l : (forall k, In k l -> 0 <= k) -> 0 <= zprod l.
Proof. induction l as [|a l IH]; intros H; cbn; [lia|]. unfold zprod in IH. specialize (IH ltac:(intros; apply H; now right)). specialize (H a (or_introl eq_refl)). nia. Qed.
Lemma nds_get_expand {A} n (s : nds A) l d r : expand n s = Some l -> (r < n)%nat -> nds_get s (Z.of_nat r) = Ok (nth r l d).
Proof.
  destruct s as [a|k]; cbn; intros E Hr.
  - inv E. now rewrite nth_indep with (d' := a) by (now rewrite repeat_length); rewrite nth_repeat.
  - destruct (Nat.eqb_spec (length k) n); inv E. now apply pyidx_nth.
Qed.
Lemma mapM_nth {A} (s : nds A) n l (d : A) : expand n s = Some l -> mapM (nds_get s) (zrange (Z.of_nat n)) = Ok l.
Proof.
  intros E. assert (Ln := expand_length _ _ _ E). rewrite mapM_ok with (g := fun i => nth (Z.to_nat i) l d).
  - f_equal. apply list_ext with (d := d); [rewrite map_length, zrange_length; lia|]. rewrite map_length, zrange_length. intros r Hr.
    rewrite (nth_indep _ d (nth (Z.to_nat 0) l d)) by (now rewrite map_length, zrange_length). rewrite (map_nth (fun i => nth (Z.to_nat i) l d)), nth_zrange by auto. now rewrite Nat2Z.id.
  - intros z Hz. apply In_zrange in Hz. rewrite <- (Z2Nat.id z) at 1 by lia. apply (nds_get_expand n); auto. lia.
Qed.
Lemma scale_ok (s : ssim F) n kers sts pd : built n kers sts pd (ss_blur s) -> (ss_sample s = true -> zprod (map klen kers) <> 1) ->
  exists c, (forall axes, length axes = n -> scale_factor s axes = Ok c) /\ fle f0 c /\
    c = if ss_sample s then fdiv (fofZ (zprod (map klen kers))) (fofZ (zprod (map klen kers) - 1)) else f1.
Proof.
  intros B H. destruct (built_par F _ _ _ _ _ B) as [_ [_ [E1 _]]].
  destruct (ss_sample s) eqn:Es.
  - exists (fdiv (fofZ (zprod (map klen kers))) (fofZ (zprod (map klen kers) - 1))). specialize (H eq_refl). split.
    + intros axes La. unfold scale_factor. rewrite Es, La, (mapM_nth _ n _ 0 E1). cbn [bind]. destruct (Z.eqb_spec (zprod (map klen kers) - 1) 0); [lia|reflexivity].
    + split; auto. assert (0 <= zprod (map klen kers)). { apply zprod_nonneg. intros k Hk. apply in_map_iff in Hk. destruct Hk as [k0 [<- _]]. apply klen_pos. }
      destruct (Z.eq_dec (zprod (map klen kers)) 0) as [E|E].
      * rewrite E. replace (fdiv (fofZ 0) (fofZ (0 - 1))) with (@f0 F); [apply fle_refl|]. change (@fofZ F 0) with (@f0 F). field. apply fofZ_neq0. lia.
      * apply fdiv_nonneg; [apply fofZ_nonneg; lia|apply fofZ_pos; lia].
  - exists f1. split; [intros; unfold scale_factor; now rewrite Es|]. split; auto. apply fle_01.
Qed.

(** *** the bound, per pixel *)
Lemma fle_pm (a d : F) : fle f0 (fsub d a) -> fle f0 (fadd d a) -> fle a d /\ fle (fopp d) a.
Proof. intros H1 H2. split; apply fle_sub2; auto. now replace (fsub a (fopp d)) with (fadd d a) by ring. Qed.
Lemma fadd_nonneg (a d : F) : fle f0 a -> fle f0 d -> fle f0 (fadd a d).
Proof. intros. replace (@f0 F) with (fadd (@f0 F) f0) by ring. now apply fle_add. Qed.
(** |n| <= d and |n'| <= d' give |n n'| <= d d'. *)
Lemma abs_mul (n d n' d' : F) : fle f0 (fsub d n) -> fle f0 (fadd d n) -> fle f0 (fsub d' n') -> fle f0 (fadd d' n') ->
  fle f0 (fsub (fmul d d') (fmul n n')) /\ fle f0 (fadd (fmul d d') (fmul n n')) /\ fle f0 (fmul d d').
Proof.
  intros A B C D. assert (H2 : @two F <> f0). { unfold two. replace (fadd (@f1 F) f1) with (@fofZ F 2) by (unfold fofZ; cbn; ring). apply fofZ_neq0. lia. }
  assert (P2 : flt f0 (@two F)). { unfold two. replace (fadd (@f1 F) f1) with (@fofZ F 2) by (unfold fofZ; cbn; ring). apply fofZ_pos. lia. }
  assert (half : forall t : F, fle f0 t -> fle f0 (fdiv t two)). { intros t Ht. apply fdiv_nonneg; assumption. }
  assert (dd : forall a : F, fle f0 (fsub a (fopp a)) -> fle f0 a).
  { intros a Ha. replace a with (fdiv (fsub a (fopp a)) two) by (unfold two in *; field; auto). now apply half. }
  assert (Dn : fle f0 d). { apply dd. replace (fsub d (fopp d)) with (fadd (fsub d n) (fadd d n)) by ring. now apply fadd_nonneg. }
  assert (Dn' : fle f0 d'). { apply dd. replace (fsub d' (fopp d')) with (fadd (fsub d' n') (fadd d' n')) by ring. now apply fadd_nonneg. }
  split; [|split; [|now apply fmul_nonneg]].
  - replace (fsub (fmul d d') (fmul n n')) with (fdiv (fadd (fmul (fsub d n) (fadd d' n')) (fmul (fadd d n) (fsub d' n'))) two) by (unfold two in *; field; auto).
    apply half. apply fadd_nonneg; now apply fmul_nonneg.
  - replace (fadd (fmul d d') (fmul n n')) with (fdiv (fadd (fmul (fsub d n) (fsub d' n')) (fmul (fadd d n) (fadd d' n'))) two) by (unfold two in *; field; auto).
    apply half. apply fadd_nonneg; now apply fmul_nonneg.
Qed.
Lemma ratio_range (n d : F) : fle f0 (fsub d n) -> fle f0 (fadd d n) -> fle f0 d -> d <> f0 -> fle (fopp f1) (fdiv n d) /\ fle (fdiv n d) f1.
Proof.
  intros A B C D. assert (P : flt f0 d) by (apply fle_ne_flt; auto).
  split; [replace (fopp (@f1 F)) with (fdiv (fopp d) d) by (field; auto)|replace (@f1 F) with (fdiv d d) by (field; auto)]; apply fdiv_le; auto; apply fle_sub2; auto.
  now replace (fsub n (fopp d)) with (fadd d n) by ring.
Qed.
Lemma lum_bounds (C1 m1 m2 : F) : fle f0 C1 -> let n := fadd (fmul two (fmul m1 m2)) C1 in fle f0 (fsub (lum_den F C1 m1 m2) n) /\ fle f0 (fadd (lum_den F C1 m1 m2) n) /\ fle C1 (lum_den F C1 m1 m2).
Proof.
  intros H n. unfold n, lum_den, two. split; [|split].
  - match goal with |- fle _ ?t => replace t with (fmul (fsub m1 m2) (fsub m1 m2)) by ring end. apply fsq_nonneg.
  - match goal with |- fle _ ?t => replace t with (fadd (fmul (fadd m1 m2) (fadd m1 m2)) (fadd C1 C1)) by ring end. apply fadd_nonneg; [apply fsq_nonneg|now apply fadd_nonneg].
  - apply fle_sub2. match goal with |- fle _ ?t => replace t with (fadd (fmul m1 m1) (fmul m2 m2)) by ring end. apply fadd_nonneg; apply fsq_nonneg.
Qed.
Lemma cs_bounds (c C2 m1 m2 e11 e22 e12 : F) : fle f0 c -> fle f0 C2 ->
  fle (fmul (fsub m1 m2) (fsub m1 m2)) (fsub (fadd e11 e22) (fmul two e12)) -> fle (fmul (fadd m1 m2) (fadd m1 m2)) (fadd (fadd e11 e22) (fmul two e12)) ->
  fle f0 (fsub (cs_den F c C2 m1 m2 e11 e22) (cs_num F c C2 m1 m2 e12)) /\ fle f0 (fadd (cs_den F c C2 m1 m2 e11 e22) (cs_num F c C2 m1 m2 e12)) /\
  fle C2 (cs_den F c C2 m1 m2 e11 e22).
Proof.
  intros Hc H2 A B. apply fle_sub1 in A, B. unfold two in *.
  assert (A' : fle f0 (fsub (fadd (fsub e11 (fmul m1 m1)) (fsub e22 (fmul m2 m2))) (fmul two (fsub e12 (fmul m1 m2))))).
  { match goal with H : fle f0 ?a |- fle _ ?t => replace t with a by (unfold two; ring); exact H end. }
  assert (B' : fle f0 (fadd (fadd (fsub e11 (fmul m1 m1)) (fsub e22 (fmul m2 m2))) (fmul two (fsub e12 (fmul m1 m2))))).
  { clear A A'. match goal with H : fle f0 ?a |- fle _ ?t => replace t with a by (unfold two; ring); exact H end. }
  clear A B. set (v := fadd (fsub e11 (fmul m1 m1)) (fsub e22 (fmul m2 m2))) in *. set (u := fmul two (fsub e12 (fmul m1 m2))) in *.
  assert (E1 : cs_den F c C2 m1 m2 e11 e22 = fadd (fmul c v) C2) by (unfold cs_den, v; ring).
  assert (E2 : cs_num F c C2 m1 m2 e12 = fadd (fmul c u) C2) by (unfold cs_num, u; ring).
  destruct (abs_mul u v f1 f1) as [_ [_ V]]; auto.
  { replace (fsub (@f1 F) f1) with (@f0 F) by ring. apply fle_refl. } { apply fadd_nonneg; apply fle_01. }
  replace (fmul v f1) with v in V by ring. rewrite E1, E2. split; [|split].
  - replace (fsub (fadd (fmul c v) C2) (fadd (fmul c u) C2)) with (fmul c (fsub v u)) by ring. now apply fmul_nonneg.
  - replace (fadd (fadd (fmul c v) C2) (fadd (fmul c u) C2)) with (fadd (fmul c (fadd v u)) (fadd C2 C2)) by ring. apply fadd_nonneg; [now apply fmul_nonneg|now apply fadd_nonneg].
  - apply fle_sub2. replace (fsub (fadd (fmul c v) C2) C2) with (fmul c v) by ring. now apply fmul_nonneg.
Qed.
Lemma sq_pos (k : F) : k <> f0 -> flt f0 (fmul k k).
Proof. intros H. apply fle_ne_flt; [apply fsq_nonneg|]. intros E. symmetry in E. apply H. destruct (fmul_eq0 F k k E); auto. Qed.

End SP.
