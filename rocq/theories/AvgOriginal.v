(** AvgPoolNd with count_include_pad=False (C40). *)
From Coq Require Import Sorted Permutation.
From Verif Require Export AvgProofs.
Open Scope Z_scope.

Section AO.
Variable F : ofield.
Add Field Fao : (f_field F).
Notation T := (tensor F).

Lemma const_at_zero (p : padder F) sh j : forall rest (v : F), NoDup rest ->
  (forall a, In a rest -> exists q, axis_par p rest a = Some q /\ ap_const q = (f0, f0)) ->
  const_at F p sh rest j v =
  if forallb (fun a => match axis_par p rest a with
                       | Some q => (0 <=? nth a j 0 - ap_before q) && (nth a j 0 - ap_before q <? nth a sh 0)
                       | None => true end) rest then v else f0.
Proof.
  induction rest as [|a rest IH]; intros v Hn H; cbn [const_at forallb]; auto. inv Hn.
  destruct (H a (or_introl eq_refl)) as [q [Q1 Q2]]. cbn [axis_par] in Q1. rewrite Nat.eqb_refl in Q1.
  rewrite IH; auto.
  - cbn [axis_par]. rewrite Nat.eqb_refl, Q1, Q2. cbn [fst snd].
    assert (E : forallb (fun a0 => match (if Nat.eqb a0 a then Some q else axis_par p rest a0) with
        | Some q0 => (0 <=? nth a0 j 0 - ap_before q0) && (nth a0 j 0 - ap_before q0 <? nth a0 sh 0) | None => true end) rest =
       forallb (fun a0 => match axis_par p rest a0 with
        | Some q0 => (0 <=? nth a0 j 0 - ap_before q0) && (nth a0 j 0 - ap_before q0 <? nth a0 sh 0) | None => true end) rest).
    { assert (G : forall l, (forall b, In b l -> b <> a) -> forallb (fun a0 => match (if Nat.eqb a0 a then Some q else axis_par p rest a0) with
        | Some q0 => (0 <=? nth a0 j 0 - ap_before q0) && (nth a0 j 0 - ap_before q0 <? nth a0 sh 0) | None => true end) l =
       forallb (fun a0 => match axis_par p rest a0 with
        | Some q0 => (0 <=? nth a0 j 0 - ap_before q0) && (nth a0 j 0 - ap_before q0 <? nth a0 sh 0) | None => true end) l).
      { induction l as [|b l IHl]; simpl; intros Hb; auto. rewrite IHl by auto. destruct (Nat.eqb_spec b a); auto.
        subst. exfalso. apply (Hb a); auto. }
      apply G. intros b Hb ->. contradiction. }
    rewrite E. destruct (forallb _ rest); rewrite ?andb_true_r, ?andb_false_r; auto.
    destruct (Z.leb_spec 0 (nth a j 0 - ap_before q)); destruct (Z.ltb_spec (nth a j 0 - ap_before q) 0); try lia; cbn [andb]; auto.
  - intros b Hb. destruct (H b (or_intror Hb)) as [q' [A B]]. cbn [axis_par] in A. destruct (Nat.eqb_spec b a); [subst; contradiction|eauto].
Qed.

Lemma inside_iff : forall al sts ws sh j o, length sts = length al -> length ws = length al -> length o = length al ->
  inside al sts ws sh j o = true <-> forall r, (r < length al)%nat ->
   0 <= nth (nth r al 0%nat) j 0 * nth r sts 1 + nth r o 0 - fst (nth r ws (0, 0)) < nth (nth r al 0%nat) sh 0.
Proof.
  induction al as [|a al IH]; intros [|s sts] [|w ws] sh j [|k o] L1 L2 L3; simpl in L1, L2, L3; try lia.
  - simpl. split; auto. intros _ r Hr. simpl in Hr. lia.
  - cbn [inside]. rewrite andb_true_iff, IH by lia. rewrite andb_true_iff, Z.leb_le, Z.ltb_lt. split.
    + intros [H1 H2] [|r] Hr; simpl in *; auto. apply H2. lia.
    + intros H. split; [apply (H 0%nat); simpl; lia|]. intros r Hr. apply (H (S r)). simpl. lia.
Qed.
Lemma source_length al : forall sts ws j o, length (source al sts ws j o) = length j.
Proof. induction al as [|a al IH]; intros [|s sts] [|w ws] j [|k o]; simpl; auto. now rewrite upd_length. Qed.
Lemma source_notin a al : forall sts ws j o, ~ In a al -> nth a (source al sts ws j o) 0 = nth a j 0.
Proof.
  induction al as [|b al IH]; intros [|s sts] [|w ws] j [|k o] H; simpl; auto.
  rewrite nth_upd_ne by (intros ->; apply H; now left). apply IH. intros E; apply H; now right.
Qed.
Lemma source_nth al : forall sts ws j o r, NoDup al -> (forall a, In a al -> (a < length j)%nat) ->
  length sts = length al -> length ws = length al -> length o = length al -> (r < length al)%nat ->
  nth (nth r al 0%nat) (source al sts ws j o) 0 = nth (nth r al 0%nat) j 0 * nth r sts 1 + nth r o 0 - fst (nth r ws (0, 0)).
Proof.
  induction al as [|a al IH]; intros [|s sts] [|w ws] j [|k o] r Hn Hl Hs Hw Ho Hr; simpl in *; try lia; try discriminate.
  inv Hn. destruct r as [|r].
  - apply nth_upd_eq. rewrite source_length. auto.
  - rewrite nth_upd_ne by (intros ->; apply H1; apply nth_In; lia). apply IH; auto; lia.
Qed.

(** A zero-padded image read at an offset of a window. *)
Lemma zero_padded fuel junk (p : padder F) ms ws (x xp : T) ax al : padder_for (length al) p ms -> length ws = length al ->
  every_axis (length al) p (fun m cv _ => m = MConstant /\ cv = (f0, f0)) ->
  pad_call fuel (with_width p ws) x ax al -> all_fine F (with_width p ws) x al ->
  padder_forward fuel junk (with_width p ws) x ax = Ok xp ->
  forall sts j o, length sts = length al -> length o = length al -> length j = ndim x -> valid (shp xp) (place al sts j o) ->
  at_ xp (place al sts j o) = if inside al sts ws (shp x) j o then at_ x (source al sts ws j o) else f0.
Proof.
  intros PF Lw EA PC AF Hx sts j o L1 L2 L3 V.
  pose proof (pc_nodup _ _ _ _ _ PC) as Hn. pose proof (pc_lt _ _ _ _ _ PC) as Hlt.
  destruct (with_width_par F (length al) p ms ws al PF Lw eq_refl Hn) as [Lx Q].
  pose proof (every_axis_par F (length al) p ms ws al _ PF EA Lw eq_refl Hn) as AP.
  assert (AX : all_axes (with_width p ws) x al (fun q _ => ap_mode q = MConstant)).
  { intros a Ha. destruct (AF a Ha) as [q [Q1 [Q2 [Q3 _]]]]. exists q. split; auto. split; auto. split; auto.
    rewrite Lx in Ha. apply (AP a q Ha Q1). }
  destruct (constant_nd F fuel junk (with_width p ws) x ax al PC AX) as [xp' [X1 [X2 X3]]].
  rewrite Hx in X1. inv X1. rewrite X3 by auto. rewrite Lx.
  assert (Ef : from (fun _ t => t) (with_width p ws) al (shp x) (place al sts j o) = source al sts ws j o).
  { unfold from. rewrite Lx. apply list_ext with (d := 0).
    - rewrite map_length, seq_length, source_length. auto.
    - rewrite map_length, seq_length. intros d Hd. rewrite nth_map_seq by auto.
      destruct (in_dec Nat.eq_dec d al) as [Hi|Hi].
      + destruct (In_pos d al 0%nat Hi) as [r [Hr <-]]. destruct (Q r Hr) as [q [Q1 [Q2 _]]]. rewrite Q1, Q2.
        rewrite place_nth, source_nth; auto; intros; rewrite L3; auto.
      + rewrite axis_par_notin, place_notin, source_notin by auto. reflexivity. }
  rewrite Ef. rewrite const_at_zero.
  - match goal with |- (if ?b then _ else _) = (if ?c then _ else _) => assert (E : b = c); [|now rewrite E] end.
    apply eq_true_iff_eq. rewrite forallb_forall, inside_iff by auto. split.
    + intros H r Hr. specialize (H (nth r al 0%nat) (nth_In al 0%nat Hr)). destruct (Q r Hr) as [q [Q1 [Q2 _]]].
      rewrite Q1, Q2 in H. rewrite place_nth in H; auto; [|intros; rewrite L3; auto].
      apply andb_true_iff in H. rewrite Z.leb_le, Z.ltb_lt in H. lia.
    + intros H a Ha. destruct (In_pos a al 0%nat Ha) as [r [Hr <-]]. destruct (Q r Hr) as [q [Q1 [Q2 _]]].
      rewrite Q1, Q2. rewrite place_nth; auto; [|intros; rewrite L3; auto].
      specialize (H r Hr). apply andb_true_iff. rewrite Z.leb_le, Z.ltb_lt. lia.
  - auto.
  - intros a Ha. destruct (In_pos a al 0%nat Ha) as [r [Hr <-]]. destruct (Q r Hr) as [q [Q1 _]]. exists q. split; auto.
    rewrite <- Lx in Q1 at 1. apply (AP _ q Ha Q1).
Qed.

Lemma distinctb_nat al : NoDup al -> distinctb (map Z.of_nat al) = true.
Proof.
  induction 1 as [|a al Ha Hn IH]; simpl; auto. rewrite IH, andb_true_r. apply negb_true_iff.
  destruct (existsb _ _) eqn:E; auto. apply existsb_exists in E. destruct E as [z [Hz1 Hz2]].
  apply in_map_iff in Hz1. destruct Hz1 as [b [<- Hb]]. apply Z.eqb_eq in Hz2. apply Nat2Z.inj in Hz2. subst. contradiction.
Qed.
Lemma nth_map_idx {A} (f : nat -> A) idx r d0 : (r < length idx)%nat -> nth r (map f idx) d0 = f (nth r idx 0%nat).
Proof. intros H. rewrite (nth_indep _ d0 (f 0%nat)) by (now rewrite map_length). apply map_nth. Qed.
Lemma fprod_perm (l l' : list F) : Permutation l l' -> fprod F l = fprod F l'.
Proof.
  unfold fprod. induction 1 as [| | |]; simpl; try congruence. ring.
Qed.
Lemma fprod_ge1 (l : list F) : (forall e, In e l -> fle f1 e) -> fle f1 (fprod F l).
Proof.
  unfold fprod. induction l as [|a l IH]; simpl; intros H; [apply fle_refl|].
  assert (H1 : fle f1 a) by auto. assert (H2 : fle f1 (fold_right fmul f1 l)) by auto.
  apply fle_trans with (b := fmul a f1).
  - replace (fmul a f1) with a by ring. auto.
  - apply fmul_le_l; auto. eapply fle_trans; [apply fle_01|auto].
Qed.

(** What forward computes up to the last two lines of the method: the divisor z and the shape
    ns it is viewed in. *)
Lemma avg_code fuel junk (ks : nds Z) stride (m : pool F) (x : T) ax al l sts p ms :
  al <> [] -> expand (length al) ks = Some l -> expand (length al) stride = Some sts ->
  avg_init ks stride (Some p) = Ok m ->
  same_call F fuel p x ax al ms (map (avg_ker F) l) (map2 stride_or_size l sts) ->
  every_axis (length al) p (fun m cv _ => m = MConstant /\ cv = (f0, f0)) ->
  (forall k, In k l -> 1 <= k) ->
  let S := map2 stride_or_size l sts in
  exists ws xp y idx z ns,
    (length ws = length al /\ length l = length al /\ length S = length al) /\
    (forall r, (r < length al)%nat ->
       is_same_width (nth r l 0) (nth r S 1) (nth (nth r al 0%nat) (shp x) 0) (nth r ws (0, 0))) /\
    (pad_call fuel (with_width p ws) x (AxSeq (map Z.of_nat al)) al /\ all_fine F (with_width p ws) x al /\
     padder_forward fuel junk (with_width p ws) x (AxSeq (map Z.of_nat al)) = Ok xp /\
     shp xp = full_shape (with_width p ws) al (shp x) /\
     teq y (correlate al (map (avg_ker F) l) S xp)) /\
    snd (avg_forward fuel junk false m x ax) =
      (u <- treshape z ns ;; tmap2 fdiv (tmap (fun e => fmul e (fofZ (zprod l))) y) u) /\
    (forall r, (r < length al)%nat -> let n := nth (nth r al 0%nat) (shp x) 0 in
     1 <= n /\ 0 <= fst (nth r ws (0, 0)) /\ 0 <= snd (nth r ws (0, 0)) /\ 1 <= nth r l 0 /\ 1 <= nth r S 1 /\
     nth r l 0 <= n + fst (nth r ws (0, 0)) + snd (nth r ws (0, 0)) /\
     exists c, is_ceil_div n (nth r S 1) c /\ (n + fst (nth r ws (0, 0)) + snd (nth r ws (0, 0)) - nth r l 0) / nth r S 1 + 1 = c /\
       nth (nth r al 0%nat) (shp y) 0 = c /\ forall k, 0 <= k < c -> 1 <= seen n (fst (nth r ws (0, 0))) (nth r l 0) (nth r S 1) k) /\
    ndim y = ndim x /\ (forall d, ~ In d al -> nth d (shp y) 0 = nth d (shp x) 0) /\
    (Permutation idx (seq 0 (length al)) /\ StronglySorted lt (map (fun i => nth i al 0%nat) idx)) /\
    (length (shp z) = length al /\
     (forall r, (r < length idx)%nat -> nth r (shp z) 0 = nth (nth (nth r idx 0%nat) al 0%nat) (shp y) 0) /\
     forall j, valid (shp z) j -> at_ z j =
       fprod F (map (fun r => fofZ (seen (nth r (map (fun i => nth (nth i al 0%nat) (shp x) 0) idx) 0)
         (fst (nth r (map (fun i => nth i ws (0, 0)) idx) (0, 0))) (nth r (map (fun i => nth i l 0) idx) 0)
         (nth r (map (fun i => nth i S 1) idx) 0) (nth r j 0))) (seq 0 (length idx)))) /\
    (length ns = ndim y /\ (forall i, In i idx -> nth (nth i al 0%nat) ns 0 = nth i (shp z) 0) /\
     (forall d, (d < ndim y)%nat -> (forall i, In i idx -> nth i al 0%nat <> d) -> nth d ns 0 = 1)).
Proof.
  intros Hne Hk Hs Hm SC EA K1 S. fold S in SC.
  destruct (avg_init_kernel F _ _ _ _ _ _ Hk Hm) as [kers [A1 [A2 A3]]].
  pose proof (expand_length _ _ _ Hk) as Ll. pose proof (expand_length _ _ _ Hs) as Ls.
  assert (LS : length S = length al) by (unfold S; rewrite map2_length; lia).
  destruct (sep_init_par F _ _ _ _ _ _ _ A1 Hs A2) as [PP [Pp [E1 [E2 _]]]].
  rewrite avg_strides in PP, E2 by auto. fold S in PP, E2.
  pose proof SC as [OA N0 P0 P1 SS PF FM FU]. pose proof OA as [O1 O2 O3].
  assert (SC' : same_call F fuel p x (AxSeq (map Z.of_nat al)) al ms (map (avg_ker F) l) S).
  { constructor; auto. constructor; auto. apply check_axes_seq_nat; auto. }
  destruct (sep_forward_same F fuel junk m x _ al _ S p ms PP E1 E2 Pp SC') as [ws [xp [y [W1 [W2 [W3 [W4 [W5 [W6 [W7 [W8 [W9 W10]]]]]]]]]]]].
  rewrite avg_eff, avg_eff_strides in W9 by (auto; lia).
  assert (Kl : forall r, (r < length al)%nat -> klen (nth r (map (avg_ker F) l) []) = nth r l 0 /\ 1 <= nth r l 0).
  { intros r Hr. rewrite (nth_indep (map (avg_ker F) l) [] (avg_ker F 0)) by (rewrite map_length; lia). rewrite map_nth.
    assert (1 <= nth r l 0) by (apply K1, nth_In; lia). rewrite avg_ker_klen; lia. }
  assert (W2' : forall r, (r < length al)%nat -> is_same_width (nth r l 0) (nth r S 1) (nth (nth r al 0%nat) (shp x) 0) (nth r ws (0, 0))).
  { intros r Hr. destruct (Kl r Hr) as [Q _]. rewrite <- Q. auto. }
  (* the parameters of every axis *)
  assert (Hpar : forall r, (r < length al)%nat -> let n := nth (nth r al 0%nat) (shp x) 0 in
     1 <= n /\ 0 <= fst (nth r ws (0, 0)) /\ 0 <= snd (nth r ws (0, 0)) /\ 1 <= nth r l 0 /\ 1 <= nth r S 1 /\
     nth r l 0 <= n + fst (nth r ws (0, 0)) + snd (nth r ws (0, 0)) /\
     exists c, is_ceil_div n (nth r S 1) c /\ (n + fst (nth r ws (0, 0)) + snd (nth r ws (0, 0)) - nth r l 0) / nth r S 1 + 1 = c /\
       nth (nth r al 0%nat) (shp y) 0 = c /\ forall k, 0 <= k < c -> 1 <= seen n (fst (nth r ws (0, 0))) (nth r l 0) (nth r S 1) k).
  { intros r Hr n. destruct (Kl r Hr) as [Kr1 Kr2]. assert (Hn1 : 1 <= n) by (apply P1, nth_In; auto).
    specialize (SS r Hr). specialize (W2' r Hr). fold n in W2'.
    assert (K0 : 0 <= nth r l 0) by lia.
    destruct (same_width_bounds _ _ _ _ SS K0 W2') as [B1 [B2 B3]].
    pose proof (zceil_div_spec n (nth r S 1) ltac:(lia)) as C.
    destruct (same_width_windows _ _ _ _ _ SS Kr2 Hn1 W2' C) as [B4 B5].
    split; auto. split; auto. split; auto. split; auto. split; auto. split; [lia|].
    exists (zceil_div n (nth r S 1)). split; auto. split; [rewrite <- B5; f_equal; f_equal; lia|]. split.
    - apply (W10 r); auto.
      + intros E. destruct (Kl r Hr) as [Q1 Q2]. rewrite E in Q1. change (klen (@nil F)) with 0 in Q1. lia.
      + destruct EA as [ms' [cs [es [Em [_ [_ Eq]]]]]]. rewrite (pf_mode _ _ _ PF) in Em. inv Em. destruct (Eq r Hr) as [-> _]. discriminate.
    - intros k Hk0. rewrite seen_formula by lia. destruct W2' as [c [C1 [C2 C3]]].
      assert (c = zceil_div n (nth r S 1)) by (eapply is_ceil_div_unique; eauto; lia). subst c.
      unfold is_ceil_div in C.
      assert (0 <= k * nth r S 1) by nia. assert (k * nth r S 1 <= (zceil_div n (nth r S 1) - 1) * nth r S 1) by nia. lia. }
  assert (Ny : ndim y = ndim x).
  { destruct W9 as [W9 _]. unfold ndim. rewrite W9. cbn [correlate shp]. rewrite pooled_length, W7. unfold full_shape. now rewrite map_length, seq_length. }
  assert (Yo : forall d, ~ In d al -> nth d (shp y) 0 = nth d (shp x) 0).
  { intros d Hd. destruct W9 as [W9 _]. rewrite W9. cbn [correlate shp]. rewrite pooled_notin by auto. rewrite W7.
    destruct (Nat.lt_ge_cases d (ndim x)) as [Hd2|Hd2].
    - unfold full_shape. rewrite nth_map_seq by auto.
      destruct (with_width_par F (length al) p ms ws al PF W1 eq_refl O3) as [Lx _]. rewrite Lx, axis_par_notin by auto. reflexivity.
    - rewrite !nth_overflow; auto. unfold full_shape. now rewrite map_length, seq_length. }
  (* the code *)
  unfold avg_forward. rewrite O1.
  assert (EM : mapM (nds_get (pl_size m)) (zrange (Z.of_nat (length (map Z.of_nat al)))) = Ok l).
  { rewrite map_length. rewrite mapM_ok with (g := fun i => nth (Z.to_nat i) l 0).
    - f_equal. apply list_ext with (d := 0); [rewrite map_length, zrange_length; lia|].
      rewrite map_length, zrange_length. intros r Hr.
      rewrite (nth_indep (map _ (zrange _)) 0 ((fun i => nth (Z.to_nat i) l 0) 0)) by (rewrite map_length, zrange_length; lia).
      rewrite (map_nth (fun i => nth (Z.to_nat i) l 0)), nth_zrange by lia. now rewrite Nat2Z.id.
    - intros i Hi. apply In_zrange in Hi. rewrite map_klen_avg in E1 by auto.
      replace i with (Z.of_nat (Z.to_nat i)) at 1 by lia. apply (expand_get (length al)); auto. lia. }
  rewrite EM. rewrite distinctb_nat by auto. rewrite W8. cbn [bind].
  set (idx := argsort (map Z.of_nat al)).
  destruct (argsort_axes al O3) as [Pm Srt]. fold idx in Pm, Srt.
  assert (Li : length idx = length al) by (apply Permutation_length in Pm; now rewrite seq_length in Pm).
  assert (Hin : forall i, In i idx -> (i < length al)%nat).
  { intros i Hi. apply (Permutation_in i Pm) in Hi. apply in_seq in Hi. lia. }
  assert (Nd : NoDup idx) by (eapply Permutation_NoDup; [apply Permutation_sym, Pm|apply seq_NoDup]).
  assert (M1 : mapM (fun i => a <- pyidx (map Z.of_nat al) (Z.of_nat i) ;; pyidx (shp x) a) idx = Ok (map (fun i => nth (nth i al 0%nat) (shp x) 0) idx)).
  { apply mapM_ok. intros i Hi. specialize (Hin i Hi). rewrite pyidx_nonneg with (d := 0) by (rewrite map_length; lia). cbn [bind].
    rewrite Nat2Z.id. change 0 with (Z.of_nat 0) at 1. rewrite map_nth.
    assert (nth i al 0%nat < ndim x)%nat by (apply O2, nth_In; auto). unfold ndim in *.
    rewrite pyidx_nonneg with (d := 0) by lia. now rewrite Nat2Z.id. }
  rewrite M1. cbn [bind]. cbn [pl_padder set_padder pl_size pl_stride with_width p_width].
  assert (M2 : mapM (fun i => nds_get (NList ws) (Z.of_nat i)) idx = Ok (map (fun i => nth i ws (0, 0)) idx)).
  { apply mapM_ok. intros i Hi. specialize (Hin i Hi). apply (expand_get (length al)); auto. simpl. now rewrite W1, Nat.eqb_refl. }
  rewrite M2. cbn [bind].
  assert (M3 : mapM (fun i => nds_get (pl_size m) (Z.of_nat i)) idx = Ok (map (fun i => nth i l 0) idx)).
  { apply mapM_ok. intros i Hi. specialize (Hin i Hi). apply (expand_get (length al)); auto. now rewrite map_klen_avg in E1 by auto. }
  rewrite M3. cbn [bind].
  assert (M4 : mapM (fun i => nds_get (pl_stride m) (Z.of_nat i)) idx = Ok (map (fun i => nth i S 1) idx)).
  { apply mapM_ok. intros i Hi. specialize (Hin i Hi). apply (expand_get (length al)); auto. }
  rewrite M4. cbn [bind].
  assert (Hir : forall r, (r < length idx)%nat -> (nth r idx 0 < length al)%nat) by (intros r Hr; apply Hin, nth_In; auto).
  destruct (n_original_nd_ok F (map (fun i => nth (nth i al 0%nat) (shp x) 0) idx) (map (fun i => nth i ws (0, 0)) idx)
     (map (fun i => nth i l 0) idx) (map (fun i => nth i S 1) idx)) as [z [Z1 [Z2 Z3]]].
  { intros E. apply (f_equal (@length Z)) in E. rewrite map_length, Li in E. destruct al; [congruence|discriminate]. }
  { now rewrite !map_length. } { now rewrite !map_length. } { now rewrite !map_length. }
  { rewrite map_length. intros r Hr. rewrite !nth_map_idx by auto.
    destruct (Hpar (nth r idx 0%nat) (Hir r Hr)) as [Q1 [Q2 [Q3 [Q4 [Q5 [Q6 _]]]]]]. repeat split; auto. lia. }
  rewrite Z1. cbn [bind]. rewrite map_length in Z2, Z3.
  (* the output lengths *)
  assert (Zl : length (shp z) = length al) by (now rewrite Z2, map_length, seq_length).
  assert (Zs : forall r, (r < length idx)%nat -> nth r (shp z) 0 = nth (nth (nth r idx 0%nat) al 0%nat) (shp y) 0).
  { intros r Hr. rewrite Z2. rewrite nth_map_idx by (now rewrite seq_length). rewrite seq_nth by auto. cbn [Nat.add].
    rewrite !nth_map_idx by auto. destruct (Hpar (nth r idx 0%nat) (Hir r Hr)) as [_ [_ [_ [_ [_ [_ [c [_ [C2 [C3 _]]]]]]]]]]. congruence. }
  destruct (z_shape_ok (ndim y) al (shp z) idx) as [ns [V1 [V2 [V3 V4]]]]; auto.
  { intros a Ha. rewrite Ny. auto. }
  rewrite V1. cbn [bind].
  exists ws, xp, y, idx, z, ns. repeat (split; [solve [auto 8]|]). auto.
Qed.

Lemma sorted_ext (A B : list nat) : StronglySorted lt A -> StronglySorted lt B -> (forall d, In d A <-> In d B) -> A = B.
Proof.
  intros SA. revert B. induction SA as [|a A SA IH Fa]; intros B SB H.
  - destruct B as [|b B]; auto. destruct (proj2 (H b) (or_introl eq_refl)).
  - destruct SB as [|b B SB Fb]. { destruct (proj1 (H a) (or_introl eq_refl)). }
    rewrite Forall_forall in Fa, Fb.
    assert (a = b).
    { destruct (proj1 (H a) (or_introl eq_refl)) as [E|E]; auto. destruct (proj2 (H b) (or_introl eq_refl)) as [E'|E']; auto.
      specialize (Fa b E'). specialize (Fb a E). lia. }
    subst b. f_equal. apply IH; auto. intros d. split; intros Hd.
    + destruct (proj1 (H d) (or_intror Hd)) as [E|E]; auto. subst d. specialize (Fa a Hd). lia.
    + destruct (proj2 (H d) (or_intror Hd)) as [E|E]; auto. subst d. specialize (Fb a Hd). lia.
Qed.

(** [lens d] is the output length of axis d and [B] lists the axes in ascending order. *)
Theorem avg_original fuel junk (ks : nds Z) stride (m : pool F) (x : T) ax al l sts p ms (lens : nat -> Z) B :
  al <> [] -> expand (length al) ks = Some l -> expand (length al) stride = Some sts ->
  avg_init ks stride (Some p) = Ok m ->
  same_call F fuel p x ax al ms (map (avg_ker F) l) (map2 stride_or_size l sts) ->
  every_axis (length al) p (fun m cv _ => m = MConstant /\ cv = (f0, f0)) ->
  (forall k, In k l -> 1 <= k) ->
  (forall r, (r < length al)%nat -> is_ceil_div (nth (nth r al 0%nat) (shp x) 0) (nth r (map2 stride_or_size l sts) 1) (lens (nth r al 0%nat))) ->
  StronglySorted lt B -> Permutation al B -> map lens B = map lens al ->
  exists ws y, length ws = length al /\
    (forall r, (r < length al)%nat ->
       is_same_width (nth r l 0) (nth r (map2 stride_or_size l sts) 1) (nth (nth r al 0%nat) (shp x) 0) (nth r ws (0, 0))) /\
    snd (avg_forward fuel junk false m x ax) = Ok y /\ ndim y = ndim x /\
    (forall r c, (r < length al)%nat -> is_ceil_div (nth (nth r al 0%nat) (shp x) 0) (nth r (map2 stride_or_size l sts) 1) c ->
       nth (nth r al 0%nat) (shp y) 0 = c) /\
    (forall d, ~ In d al -> nth d (shp y) 0 = nth d (shp x) 0) /\
    forall j, valid (shp y) j ->
      fle f1 (inside_count F al l (map2 stride_or_size l sts) ws (shp x) j) /\
      at_ y j = fdiv (inside_sum F al l (map2 stride_or_size l sts) ws x j)
                     (inside_count F al l (map2 stride_or_size l sts) ws (shp x) j).
Proof.
  intros Hne Hk Hs Hm SC EA K1 Hlens SB PB Hord. 
  destruct (avg_code fuel junk ks stride m x ax al l sts p ms Hne Hk Hs Hm SC EA K1) as
    (ws & xp & y & idx & z & ns & (W1 & Ll & LS) & W2' & (W3 & W4 & W6 & W7 & W9) & Hcode & Hpar & Ny & Yo & (Pm & Srt) & (Zl & Zs & Z3) & (V2 & V3 & V4)).
  set (S := map2 stride_or_size l sts) in *. rewrite Hcode.
  pose proof SC as [OA N0 P0 P1 SS PF FM FU]. pose proof OA as [O1 O2 O3].
  assert (Li : length idx = length al) by (apply Permutation_length in Pm; now rewrite seq_length in Pm).
  assert (Hin : forall i, In i idx -> (i < length al)%nat).
  { intros i Hi. apply (Permutation_in i Pm) in Hi. apply in_seq in Hi. lia. }
  assert (Hir : forall r, (r < length idx)%nat -> (nth r idx 0 < length al)%nat) by (intros r Hr; apply Hin, nth_In; auto).
  assert (Hy : forall r, (r < length al)%nat -> nth (nth r al 0%nat) (shp y) 0 = lens (nth r al 0%nat)).
  { intros r Hr. destruct (Hpar r Hr) as [_ [_ [_ [_ [S1 [_ [c [C1 [_ [C3 _]]]]]]]]]]. rewrite C3.
    eapply is_ceil_div_unique; [|exact C1|apply Hlens; auto]. lia. }
  assert (HcB : forall a, In a al -> exists i, In i idx /\ nth i al 0%nat = a).
  { intros a Ha. destruct (In_pos a al 0%nat Ha) as [r [Hr <-]]. exists r. split; auto.
    apply (Permutation_in r (Permutation_sym Pm)), in_seq. lia. }
  assert (EqB : map (fun i => nth i al 0%nat) idx = B).
  { apply sorted_ext; auto. intros d. rewrite in_map_iff. split.
    - intros [i [<- H1]]. apply (Permutation_in _ PB), nth_In. auto.
    - intros H1. apply (Permutation_in _ (Permutation_sym PB)) in H1. destruct (HcB d H1) as [i [H2 H3]]. eauto. }
  assert (Zy : forall i, (i < length al)%nat -> nth i (shp z) 0 = nth (nth i al 0%nat) (shp y) 0).
  { intros i Hi. rewrite Zs by lia. rewrite !Hy by (auto; apply Hir; lia).
    assert (E : nth i (map lens B) 0 = nth i (map lens al) 0) by congruence.
    rewrite (nth_indep (map lens B) 0 (lens 0%nat)), (nth_indep (map lens al) 0 (lens 0%nat)), !map_nth in E
      by (rewrite map_length; auto; rewrite <- (Permutation_length PB); auto).
    rewrite <- EqB in E. rewrite nth_map_idx in E by lia. exact E. }
  clear B SB PB Hord EqB HcB.
  assert (Hcov : forall a, In a al -> exists i, In i idx /\ nth i al 0%nat = a).
  { intros a Ha. destruct (In_pos a al 0%nat Ha) as [r [Hr <-]]. exists r. split; auto.
    apply (Permutation_in r (Permutation_sym Pm)), in_seq. lia. }
  assert (Vy : forall d, (d < ndim y)%nat -> nth d ns 0 = 1 \/ nth d ns 0 = nth d (shp y) 0).
  { intros d Hd. destruct (in_dec Nat.eq_dec d al) as [Hi|Hi].
    - right. destruct (Hcov d Hi) as [i [H1 <-]]. rewrite V3 by auto. apply Zy. auto.
    - left. apply V4; auto. intros i H1 <-. apply Hi, nth_In. auto. }
  set (B := map (fun i => nth i al 0%nat) idx) in *.
  assert (HB : forall d, In d B <-> In d al).
  { intros d. unfold B. rewrite in_map_iff. split.
    - intros [i [<- H1]]. apply nth_In. auto.
    - intros H1. destruct (Hcov d H1) as [i [H2 H3]]. eauto. }
  assert (EB : map (fun b => nth b ns 0) B = shp z).
  { unfold B. rewrite map_map. apply list_ext with (d := 0).
    - rewrite map_length. lia.
    - rewrite map_length. intros r Hr. rewrite nth_map_idx by auto. rewrite V3 by (apply nth_In; auto). rewrite Zy by auto. now rewrite Zs. }
  assert (Hy0 : forall d, (d < ndim y)%nat -> 0 <= nth d (shp y) 0).
  { intros d Hd. destruct (in_dec Nat.eq_dec d al) as [Hi|Hi].
    - destruct (In_pos d al 0%nat Hi) as [r [Hr <-]]. destruct (Hpar r Hr) as [Q1 [_ [_ [_ [S1 [_ [c [C1 [_ [C3 _]]]]]]]]]]. rewrite C3.
      unfold is_ceil_div in C1. nia.
    - rewrite Yo by auto. apply P0. lia. }
  assert (Hns0 : forall k, In k ns -> 0 <= k).
  { intros k Hk0. apply In_nth with (d := 0) in Hk0. destruct Hk0 as [d [Hd <-]]. destruct (Vy d ltac:(lia)) as [->| ->]; [lia|]. apply Hy0. lia. }
  assert (Ins : forall j, valid ns j -> inserted ns j (shp z) (map (fun b => nth b j 0) B)).
  { intros j Vj. rewrite <- EB. apply inserted_axes; auto.
    - intros b Hb. apply HB in Hb. rewrite V2, Ny. auto.
    - intros d Hd Hd2. apply V4; [lia|]. intros i H1 <-. apply Hd2. apply HB. apply nth_In. auto. }
  assert (Ep : zprod ns = zprod (shp z)).
  { destruct (forallb (fun k => negb (k =? 0)) ns) eqn:Ez.
    - assert (Vz : valid ns (repeat 0 (length ns))).
      { apply valid_iff. rewrite repeat_length. split; auto. intros d Hd. rewrite nth_repeat.
        rewrite forallb_forall in Ez. assert (In (nth d ns 0) ns) by (now apply nth_In).
        specialize (Ez _ H). apply negb_true_iff, Z.eqb_neq in Ez. specialize (Hns0 _ H). lia. }
      destruct (inserted_ravel _ _ _ _ (Ins _ Vz)) as [_ E]. exact E.
    - assert (G : forall s, (exists k, In k s /\ k = 0) -> zprod s = 0).
      { induction s as [|k s IHs]; intros [e [He Hz]]; [destruct He|]. subst e. change (k * zprod s = 0). destruct He as [He|He].
        - subst k. reflexivity.
        - rewrite IHs by eauto. lia. }
      assert (Hz : exists k, In k ns /\ k = 0).
      { clear - Ez. induction ns as [|k ns IH]; [discriminate|]. simpl in Ez. destruct (Z.eqb_spec k 0).
        - exists k. split; auto. now left.
        - cbn [negb andb] in Ez. destruct (IH Ez) as [e [H1 H2]]. exists e. split; auto. now right. }
      rewrite (G ns) by auto. symmetry. apply G. destruct Hz as [k [Hk0 ->]]. exists 0. split; auto.
      rewrite <- EB. apply In_nth with (d := 0) in Hk0. destruct Hk0 as [d [Hd E]].
      apply in_map_iff. exists d. split; [exact E|]. apply HB. destruct (in_dec Nat.eq_dec d al); auto.
      exfalso. rewrite V4 in E; [lia|lia|]. intros i H1 <-. apply n. apply nth_In. auto. }
  destruct (treshape_insert z ns Hns0 Ep) as [u [U1 [U2 U3]]]. rewrite U1. cbn [bind].
  set (y2 := tmap (fun e => fmul e (fofZ (zprod l))) y).
  (* the divisor, broadcast to the output *)
  assert (Hcnt : forall j, valid (shp y) j ->
     at_ u (bidx ns j) = inside_count F al l S ws (shp x) j /\ fle f1 (inside_count F al l S ws (shp x) j)).
  { intros j Vj. pose proof (valid_length _ _ Vj) as Lj. change (length (shp y)) with (ndim y) in Lj.
    set (j' := bidx ns j).
    assert (Lj' : length j' = ndim y) by (unfold j'; rewrite bidx_length; lia).
    assert (Nj : forall d, (d < ndim y)%nat -> nth d j' 0 = if nth d ns 0 =? 1 then 0 else nth d j 0).
    { intros d Hd. unfold j', bidx. replace (length j - length ns)%nat with 0%nat by lia. simpl skipn.
      rewrite nth_map2 with (da := 0) (db := 0) by lia. reflexivity. }
    assert (Nj2 : forall a, In a al -> nth a j' 0 = nth a j 0).
    { intros a Ha. assert (Ha2 : (a < ndim y)%nat) by (rewrite Ny; auto). rewrite Nj by auto. destruct (Z.eqb_spec (nth a ns 0) 1) as [E|E]; auto.
      pose proof (valid_nth _ _ a Vj Ha2) as Va. destruct (Hcov a Ha) as [i [H1 <-]]. rewrite V3 in E by auto. rewrite Zy in E by auto. lia. }
    assert (Vj' : valid ns j').
    { apply valid_iff. split; [lia|]. intros d Hd. rewrite Nj by lia. destruct (Z.eqb_spec (nth d ns 0) 1); [lia|].
      destruct (Vy d ltac:(lia)) as [E|E]; [lia|]. rewrite E. apply (valid_nth _ _ d Vj). unfold ndim in *; lia. }
    specialize (Ins j' Vj').
    assert (Vb : valid (shp z) (map (fun b => nth b j' 0) B)).
    { rewrite <- EB. apply valid_iff. rewrite !map_length. split; auto. intros r Hr. unfold B in Hr. rewrite map_length in Hr.
      unfold B. rewrite !map_map, !nth_map_idx by auto. apply (valid_nth _ _ _ Vj'). rewrite V2, Ny. apply O2, nth_In, Hir. auto. }
    rewrite (U3 _ _ Ins Vb). rewrite Z3 by auto.
    rewrite inside_count_prod; try lia.
    2:{ intros r Hr. destruct (Hpar r Hr) as [Q1 [_ [_ [Q4 _]]]]. lia. }
    assert (Es : forall r, (r < length al)%nat -> nth r S 0 = nth r S 1) by (intros r Hr; apply nth_indep; lia).
    split.
    - transitivity (fprod F (map (fun r => fofZ (seen (nth (nth r al 0%nat) (shp x) 0) (fst (nth r ws (0, 0))) (nth r l 0) (nth r S 0) (nth (nth r al 0%nat) j 0))) idx)).
      + f_equal. apply list_ext with (d := f0).
        * rewrite !map_length, seq_length. auto.
        * rewrite map_length, seq_length. intros r Hr. rewrite !nth_map_idx by (try rewrite seq_length; auto). rewrite seq_nth by auto. cbn [Nat.add].
          unfold B. rewrite map_map. repeat rewrite nth_map_idx by auto. f_equal. f_equal.
          -- symmetry. apply Es. auto.
          -- apply Nj2, nth_In. auto.
      + apply fprod_perm. apply Permutation_map. exact Pm.
    - apply fprod_ge1. intros e He. apply in_map_iff in He. destruct He as [r [<- Hr]]. apply in_seq in Hr.
      rewrite Es by lia. destruct (Hpar r ltac:(lia)) as [_ [_ [_ [_ [_ [_ [c [_ [_ [C3 C4]]]]]]]]]].
      rewrite <- fofZ_1. apply fofZ_le. apply C4.
      rewrite <- C3. apply (valid_nth _ _ _ Vj). change (length (shp y)) with (ndim y). rewrite Ny. apply O2, nth_In. lia. }
  assert (Bu : brep u (shp y2) (fun j => inside_count F al l S ws (shp x) j)).
  { split.
    - rewrite U2. unfold expandable. cbn [y2 tmap shp]. rewrite V2. change (length (shp y)) with (ndim y). rewrite Nat.leb_refl, Nat.sub_diag. cbn [andb skipn].
      apply (all2_iff _ _ _ 0 0). unfold ndim in *. split; [auto|]. intros d Hd. apply orb_true_iff. rewrite !Z.eqb_eq. destruct (Vy d ltac:(lia)); auto.
    - intros j Vj. rewrite U2. apply Hcnt. exact Vj. }
  destruct (tmap2_absorb fdiv y2 u _ Bu) as [w [X1 [X2 X3]]].
  exists ws, w. split; auto. split; auto. split; [exact X1|].
  assert (Sw : shp w = shp y) by exact X2.
  split; [unfold ndim in *; rewrite Sw; auto|]. split; [|split].
  - intros r c Hr Hc. rewrite Sw. destruct (Hpar r Hr) as [_ [_ [_ [_ [S1 [_ [c2 [C4 [_ [C6 _]]]]]]]]]]. rewrite C6.
    eapply is_ceil_div_unique; [|exact C4|exact Hc]. lia.
  - intros d Hd. rewrite Sw. auto.
  - intros j Vj. rewrite Sw in Vj. destruct (Hcnt j Vj) as [_ H1]. split; auto. rewrite X3 by exact Vj.
    unfold y2. cbn [tmap at_]. f_equal. destruct W9 as [Wy Wa]. rewrite Wa by auto. rewrite correlate_avg by auto.
    unfold window_mean, inside_sum. pose proof (zprod_pos1 l K1) as Zp.
    replace (fmul (fdiv (bsum l (fun o => at_ xp (place al S j o))) (fofZ (zprod l))) (fofZ (zprod l))) with (bsum l (fun o => at_ xp (place al S j o)))
      by (field; apply fofZ_neq0; lia).
    apply bsum_ext. intros o Vo. pose proof (valid_length _ _ Vo) as Lo.
    apply (zero_padded fuel junk p ms ws x xp (AxSeq (map Z.of_nat al)) al); auto; try lia.
    + apply valid_length in Vj. unfold ndim in *. lia.
    + rewrite Wy in Vj. cbn [correlate shp] in Vj. apply (place_valid F al (map (avg_ker F) l)); auto.
      * intros a Ha. rewrite W7. unfold full_shape. rewrite map_length, seq_length. apply O2. auto.
      * rewrite map_length. lia.
      * rewrite map_klen_avg; auto. intros k Hk0. specialize (K1 k Hk0). lia.
Qed.
(** *** Any order of the axes *)
Lemma zprod_perm l l' : Permutation l l' -> zprod l = zprod l'.
Proof. induction 1 as [|k l l' H IH|k k' l|l l' l'' H1 IH1 H2 IH2]; auto; try congruence.
  - change (k * zprod l = k * zprod l'). congruence.
  - change (k' * (k * zprod l) = k * (k' * zprod l)). ring.
Qed.
Lemma bshape_rev_iff : forall s t, length s = length t ->
  match bshape_rev s t with
  | Some u => length u = length s /\ forall d, (d < length s)%nat -> bdim (nth d s 0) (nth d t 0) = Some (nth d u 0)
  | None => exists d, (d < length s)%nat /\ bdim (nth d s 0) (nth d t 0) = None
  end.
Proof.
  induction s as [|a s IH]; intros [|b t] L; simpl in L; try discriminate; cbn [bshape_rev].
  - split; auto. intros d Hd. simpl in Hd. lia.
  - specialize (IH t ltac:(lia)). destruct (bdim a b) as [c|] eqn:E.
    + destruct (bshape_rev s t) as [u|].
      * destruct IH as [I1 I2]. split; [simpl; lia|]. intros [|d] Hd; simpl in *; auto. apply I2. lia.
      * destruct IH as [d [D1 D2]]. exists (Datatypes.S d). simpl. split; auto. lia.
    + exists 0%nat. simpl. split; auto. lia.
Qed.
Lemma bshape_iff s t : length s = length t ->
  match bshape s t with
  | Some u => length u = length s /\ forall d, (d < length s)%nat -> bdim (nth d s 0) (nth d t 0) = Some (nth d u 0)
  | None => exists d, (d < length s)%nat /\ bdim (nth d s 0) (nth d t 0) = None
  end.
Proof.
  intros L. unfold bshape. pose proof (bshape_rev_iff (rev s) (rev t)) as H. rewrite !rev_length in H. specialize (H L).
  destruct (bshape_rev _ _) as [u|].
  - destruct H as [H1 H2]. rewrite rev_length. split; auto. intros d Hd.
    specialize (H2 (length s - Datatypes.S d)%nat ltac:(lia)). rewrite !rev_nth in H2 by lia.
    replace (length s - Datatypes.S (length s - Datatypes.S d))%nat with d in H2 by lia.
    rewrite <- L in H2. replace (length s - Datatypes.S (length s - Datatypes.S d))%nat with d in H2 by lia.
    rewrite rev_nth by lia. now rewrite H1.
  - destruct H as [d [D1 D2]]. exists (length s - Datatypes.S d)%nat. split; [lia|]. rewrite !rev_nth in D2 by lia. now rewrite L at 2.
Qed.

(** The outcome for every order of the axes: entry r of [map lens B] is broadcast against
    axis [nth r al] of the pooled image. *)
Theorem avg_original_outcome fuel junk (ks : nds Z) stride (m : pool F) (x : T) ax al l sts p ms (lens : nat -> Z) B :
  al <> [] -> expand (length al) ks = Some l -> expand (length al) stride = Some sts ->
  avg_init ks stride (Some p) = Ok m ->
  same_call F fuel p x ax al ms (map (avg_ker F) l) (map2 stride_or_size l sts) ->
  every_axis (length al) p (fun m cv _ => m = MConstant /\ cv = (f0, f0)) ->
  (forall k, In k l -> 1 <= k) ->
  (forall r, (r < length al)%nat -> is_ceil_div (nth (nth r al 0%nat) (shp x) 0) (nth r (map2 stride_or_size l sts) 1) (lens (nth r al 0%nat))) ->
  StronglySorted lt B -> Permutation al B ->
  match snd (avg_forward fuel junk false m x ax) with
  | Ok y => ndim y = ndim x /\ (forall d, ~ In d al -> nth d (shp y) 0 = nth d (shp x) 0) /\
      forall r, (r < length al)%nat ->
        (lens (nth r B 0%nat) = lens (nth r al 0%nat) \/ lens (nth r B 0%nat) = 1 \/ lens (nth r al 0%nat) = 1) /\
        nth (nth r al 0%nat) (shp y) 0 = Z.max (lens (nth r B 0%nat)) (lens (nth r al 0%nat))
  | Err e => e = RuntimeError /\ exists r, (r < length al)%nat /\
      lens (nth r B 0%nat) <> lens (nth r al 0%nat) /\ lens (nth r B 0%nat) <> 1 /\ lens (nth r al 0%nat) <> 1
  end.
Proof.
  intros Hne Hk Hs Hm SC EA K1 Hlens SB PB.
  destruct (avg_code fuel junk ks stride m x ax al l sts p ms Hne Hk Hs Hm SC EA K1) as
    (ws & xp & y & idx & z & ns & (W1 & Ll & LS) & W2' & (W3 & W4 & W6 & W7 & W9) & Hcode & Hpar & Ny & Yo & (Pm & Srt) & (Zl & Zs & Z3) & (V2 & V3 & V4)).
  set (S := map2 stride_or_size l sts) in *. rewrite Hcode.
  pose proof SC as [OA N0 P0 P1 SS PF FM FU]. pose proof OA as [O1 O2 O3].
  assert (Li : length idx = length al) by (apply Permutation_length in Pm; now rewrite seq_length in Pm).
  assert (LB : length B = length al) by (symmetry; now apply Permutation_length).
  assert (Hin : forall i, In i idx -> (i < length al)%nat).
  { intros i Hi. apply (Permutation_in i Pm) in Hi. apply in_seq in Hi. lia. }
  assert (Hin2 : forall r, (r < length al)%nat -> In r idx).
  { intros r Hr. apply (Permutation_in r (Permutation_sym Pm)), in_seq. lia. }
  assert (Hir : forall r, (r < length idx)%nat -> (nth r idx 0 < length al)%nat) by (intros r Hr; apply Hin, nth_In; auto).
  assert (Hy : forall r, (r < length al)%nat -> nth (nth r al 0%nat) (shp y) 0 = lens (nth r al 0%nat)).
  { intros r Hr. destruct (Hpar r Hr) as [_ [_ [_ [_ [S1 [_ [c [C1 [_ [C3 _]]]]]]]]]]. rewrite C3.
    eapply is_ceil_div_unique; [|exact C1|apply Hlens; auto]. lia. }
  assert (Hl1 : forall r, (r < length al)%nat -> 1 <= lens (nth r al 0%nat)).
  { intros r Hr. specialize (Hlens r Hr). assert (1 <= nth (nth r al 0%nat) (shp x) 0) by (apply P1, nth_In; auto).
    specialize (SS r Hr). unfold is_ceil_div in Hlens. nia. }
  assert (EqB : map (fun i => nth i al 0%nat) idx = B).
  { apply sorted_ext; auto. intros d. rewrite in_map_iff. split.
    - intros [i [<- H1]]. apply (Permutation_in _ PB), nth_In. auto.
    - intros H1. apply (Permutation_in _ (Permutation_sym PB)) in H1. destruct (In_pos d al 0%nat H1) as [r [Hr <-]]. eauto. }
  assert (Zy : forall i, (i < length al)%nat -> nth i (shp z) 0 = lens (nth i B 0%nat)).
  { intros i Hi. rewrite Zs by lia. rewrite Hy by (apply Hir; lia). rewrite <- EqB, nth_map_idx by lia. reflexivity. }
  assert (HlB : forall r, (r < length al)%nat -> 1 <= lens (nth r B 0%nat)).
  { intros r Hr. assert (Hb : In (nth r B 0%nat) al) by (apply (Permutation_in _ (Permutation_sym PB)), nth_In; lia).
    destruct (In_pos _ al 0%nat Hb) as [q [Hq <-]]. auto. }
  assert (Vn : forall r, (r < length al)%nat -> nth (nth r al 0%nat) ns 0 = lens (nth r B 0%nat)).
  { intros r Hr. rewrite V3 by auto. auto. }
  assert (Vo : forall d, (d < ndim y)%nat -> ~ In d al -> nth d ns 0 = 1).
  { intros d Hd Hd2. apply V4; auto. intros i H1 <-. apply Hd2, nth_In. auto. }
  assert (Hns1 : forall d, (d < ndim y)%nat -> 1 <= nth d ns 0).
  { intros d Hd. destruct (in_dec Nat.eq_dec d al) as [Hi|Hi]; [|rewrite Vo; auto; lia].
    destruct (In_pos d al 0%nat Hi) as [r [Hr <-]]. rewrite Vn by auto. auto. }
  assert (Hns0 : forall k, In k ns -> 0 <= k).
  { intros k Hk0. apply In_nth with (d := 0) in Hk0. destruct Hk0 as [d [Hd <-]]. specialize (Hns1 d ltac:(lia)). lia. }
  assert (Ep : zprod ns = zprod (shp z)).
  { assert (Vz : valid ns (repeat 0 (length ns))).
    { apply valid_iff. rewrite repeat_length. split; auto. intros d Hd. rewrite nth_repeat. specialize (Hns1 d ltac:(lia)). lia. }
    assert (Ins : inserted ns (repeat 0 (length ns)) (map (fun b => nth b ns 0) B) (map (fun b => nth b (repeat 0 (length ns)) 0) B)).
    { apply inserted_axes; auto.
      - intros b Hb. rewrite V2, Ny. apply O2. apply (Permutation_in _ (Permutation_sym PB)). auto.
      - intros d Hd Hd2. apply Vo; [lia|]. intros Hi. apply Hd2. apply (Permutation_in _ PB). auto. }
    destruct (inserted_ravel _ _ _ _ Ins) as [_ ->].
    transitivity (zprod (map (fun b => nth b ns 0) al)).
    - apply zprod_perm, Permutation_map, Permutation_sym. auto.
    - f_equal. apply list_ext with (d := 0); [rewrite map_length; lia|]. rewrite map_length. intros r Hr.
      rewrite nth_map_idx by auto. rewrite Vn, Zy; auto. }
  destruct (treshape_insert z ns Hns0 Ep) as [u [U1 [U2 U3]]]. rewrite U1. cbn [bind].
  unfold tmap2. cbn [tmap shp]. rewrite U2.
  pose proof (bshape_iff (shp y) ns ltac:(unfold ndim in *; lia)) as HB. unfold ndim in *.
  destruct (bshape (shp y) ns) as [t|].
  - destruct HB as [H1 H2]. cbn [shp]. split; [lia|]. split.
    + intros d Hd. destruct (Nat.lt_ge_cases d (length (shp x))) as [Hd2|Hd2].
      * specialize (H2 d ltac:(lia)). rewrite Vo in H2 by (auto; lia). rewrite Yo in H2 by auto. unfold bdim in H2.
        destruct (Z.eqb_spec (nth d (shp x) 0) 1) as [E|E].
        -- congruence.
        -- change (1 =? 1) with true in H2. cbn iota in H2. congruence.
      * rewrite !nth_overflow; auto; lia.
    + intros r Hr. assert (Ha : (nth r al 0 < length (shp x))%nat) by (apply O2, nth_In; auto).
      specialize (H2 _ ltac:(rewrite Ny; exact Ha)). rewrite Vn, Hy in H2 by auto. specialize (Hl1 r Hr). specialize (HlB r Hr).
      unfold bdim in H2. destruct (Z.eqb_spec (lens (nth r al 0%nat)) (lens (nth r B 0%nat))) as [E|E].
      * inv H2. split; [auto|]. lia.
      * destruct (Z.eqb_spec (lens (nth r al 0%nat)) 1) as [E1|E1].
        -- inv H2. split; [auto|]. lia.
        -- destruct (Z.eqb_spec (lens (nth r B 0%nat)) 1) as [E2|E2]; [|discriminate]. inv H2. split; [auto|]. lia.
  - split; auto. destruct HB as [d [D1 D2]]. destruct (in_dec Nat.eq_dec d al) as [Hi|Hi].
    + destruct (In_pos d al 0%nat Hi) as [r [Hr <-]]. exists r. split; auto. rewrite Vn, Hy in D2 by auto. unfold bdim in D2.
      destruct (Z.eqb_spec (lens (nth r al 0%nat)) (lens (nth r B 0%nat))); [discriminate|].
      destruct (Z.eqb_spec (lens (nth r al 0%nat)) 1); [discriminate|].
      destruct (Z.eqb_spec (lens (nth r B 0%nat)) 1); [discriminate|]. auto.
    + rewrite Vo in D2 by (auto; lia). unfold bdim in D2. destruct (nth d (shp y) 0 =? 1); try discriminate;
        change (1 =? 1) with true in D2; destruct (nth d (shp y) 0 =? 1); discriminate.
Qed.

Lemma perm_le_eq : forall l l', Permutation l l' -> (forall r, (r < length l)%nat -> nth r l 0 <= nth r l' 0) -> l = l'.
Proof.
  intros l l' P H.
  assert (Es : fold_right Z.add 0 l = fold_right Z.add 0 l').
  { clear H. induction P; simpl; lia. }
  pose proof (Permutation_length P) as L. clear P. revert l' L Es H.
  assert (G : forall l l', length l = length l' -> (forall r, (r < length l)%nat -> nth r l 0 <= nth r l' 0) -> fold_right Z.add 0 l <= fold_right Z.add 0 l').
  { clear l. induction l as [|a l IH]; intros [|b l'] L H; simpl in *; try lia.
    pose proof (H 0%nat ltac:(lia)) as H0. simpl in H0. assert (fold_right Z.add 0 l <= fold_right Z.add 0 l'); [|lia].
    apply IH; [lia|]. intros r Hr. apply (H (Datatypes.S r)). lia. }
  induction l as [|a l IH]; intros [|b l'] L Es H; simpl in *; try discriminate; auto.
  pose proof (H 0%nat ltac:(lia)) as H0. simpl in H0.
  assert (H1 : fold_right Z.add 0 l <= fold_right Z.add 0 l').
  { apply G; [lia|]. intros r Hr. apply (H (Datatypes.S r)). lia. }
  assert (a = b) by lia. subst b. f_equal. apply IH; try lia. intros r Hr. apply (H (Datatypes.S r)). lia.
Qed.

(** The output has the right lengths exactly when the lengths in the order given are those
    in ascending order of the axes. *)
Theorem avg_original_iff fuel junk (ks : nds Z) stride (m : pool F) (x : T) ax al l sts p ms (lens : nat -> Z) B :
  al <> [] -> expand (length al) ks = Some l -> expand (length al) stride = Some sts ->
  avg_init ks stride (Some p) = Ok m ->
  same_call F fuel p x ax al ms (map (avg_ker F) l) (map2 stride_or_size l sts) ->
  every_axis (length al) p (fun m cv _ => m = MConstant /\ cv = (f0, f0)) ->
  (forall k, In k l -> 1 <= k) ->
  (forall r, (r < length al)%nat -> is_ceil_div (nth (nth r al 0%nat) (shp x) 0) (nth r (map2 stride_or_size l sts) 1) (lens (nth r al 0%nat))) ->
  StronglySorted lt B -> Permutation al B ->
  (exists y, snd (avg_forward fuel junk false m x ax) = Ok y /\
     forall r, (r < length al)%nat -> nth (nth r al 0%nat) (shp y) 0 = lens (nth r al 0%nat)) <->
  map lens B = map lens al.
Proof.
  intros Hne Hk Hs Hm SC EA K1 Hlens SB PB. split.
  - intros [y [E Hy]].
    pose proof (avg_original_outcome fuel junk ks stride m x ax al l sts p ms lens B Hne Hk Hs Hm SC EA K1 Hlens SB PB) as O.
    rewrite E in O. destruct O as [_ [_ O]]. apply perm_le_eq.
    + apply Permutation_map, Permutation_sym. auto.
    + rewrite map_length, <- (Permutation_length PB). intros r Hr. rewrite !nth_map_idx by (auto; rewrite <- (Permutation_length PB); auto).
      destruct (O r Hr) as [_ O2]. rewrite Hy in O2 by auto. lia.
  - intros E. destruct (avg_original fuel junk ks stride m x ax al l sts p ms lens B Hne Hk Hs Hm SC EA K1 Hlens SB PB E) as (ws & y & _ & _ & Y1 & _ & Y2 & _).
    exists y. split; auto.
Qed.
(** Leaving the padding out needs a padder and at least one axis, each named once. *)
Theorem avg_original_needs fuel junk (m : pool F) (x : T) ax y :
  snd (avg_forward fuel junk false m x ax) = Ok y ->
  exists p axes, pl_padder m = Some p /\ check_axes (Z.of_nat (ndim x)) ax = Ok axes /\ axes <> [] /\ NoDup axes.
Proof.
  intros H. unfold avg_forward in H. destruct (check_axes _ ax) as [axes|e] eqn:Ec; [|discriminate].
  destruct (mapM (nds_get (pl_size m)) _) as [sizes|e]; [|discriminate]. destruct (distinctb axes) eqn:Ed; [|discriminate].
  destruct (sep_forward fuel junk m x (AxSeq axes)) as [m' r] eqn:Es. cbn [snd] in H. destruct r as [z|e]; cbn [bind] in H; [|discriminate].
  destruct (mapM _ (argsort axes)) as [sz|e]; cbn [bind] in H; [|discriminate].
  assert (Hne : axes <> []). { intros ->. cbn in H. discriminate. }
  assert (Hi : argsort axes <> []). { pose proof (Permutation_length (argsort_perm axes)) as P. rewrite seq_length in P. destruct axes; [congruence|]. intros E. rewrite E in P. discriminate. }
  destruct (pl_padder m) as [p|] eqn:Ep.
  - exists p, axes. split; auto. split; auto. split; auto. clear - Ed. induction axes as [|a l IH]; [constructor|]. cbn in Ed. apply andb_true_iff in Ed. destruct Ed as [E1 E2].
    constructor; auto. intros Hin. apply negb_true_iff in E1. rewrite <- not_true_iff_false in E1. apply E1. apply existsb_exists. exists a. split; auto. apply Z.eqb_refl.
  - exfalso. assert (Em : pl_padder m' = None).
    { clear - Es Ep. revert Es. unfold sep_forward, pool_pad. rewrite Ep.
      repeat match goal with |- context [match check_axes ?a ?b with _ => _ end] => destruct (check_axes a b) end;
      repeat match goal with |- context [if ?c then _ else _] => destruct c end; intros E; inv E; auto. }
    rewrite Em in H. destruct (argsort axes) as [|i idx]; [congruence|]. cbn [mapM bind] in H. discriminate.
Qed.
End AO.
