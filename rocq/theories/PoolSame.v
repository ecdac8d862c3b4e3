(** SeparablePoolNd.forward with a same padder (C36, C37). *)
From Verif Require Export PoolForward.
Open Scope Z_scope.

(** Same padding of an axis of length n for windows of size k and stride s: just enough to have
    ceil(n/s) windows, the odd one before. *)
Definition is_same_width (k s n : Z) (w : Z * Z) : Prop :=
  exists m, is_ceil_div n s m /\ fst w + snd w = Z.max 0 ((m - 1) * s + k - n) /\ 0 <= fst w - snd w <= 1.

(** The padder with its widths replaced. *)
Definition with_width {F : ofield} (p : padder F) (ws : list (Z * Z)) : padder F :=
  mkPadder (NList ws) (p_mode p) (p_const p) (p_end p) (p_stat p) (Z.of_nat (length ws)).

(** The padder's other arguments are single items or have n items; ms are the modes. *)
Record padder_for {F : ofield} (n : nat) (p : padder F) (ms : list (mode F)) : Prop := {
  pf_mode : expand n (p_mode p) = Some ms;
  pf_const : expand n (p_const p) <> None;
  pf_end : expand n (p_end p) <> None;
  pf_stat : expand n (p_stat p) <> None }.
(** The documented modes that fill the padding (all but zeros, empty, callables and unknown names). *)
Definition fills {F : ofield} (m : mode F) : Prop :=
  match m with MZeros | MEmpty | MFun _ | MUnknown => False | _ => True end.

Lemma same_width_ok k s n : 1 <= s -> 0 <= n -> 0 <= k ->
  exists w, same_padding_width k (Some s) (Some n) = Ok w /\ is_same_width k s n w.
Proof.
  intros Hs Hn Hk.
  assert (E : same_padding_width k (Some s) (Some n) = Ok (same_pad_split ((zceil_div n s - 1) * s + k - n))).
  { unfold same_padding_width. destruct (Z.eqb_spec s 0); [lia|]. destruct s as [|[| |]|]; try lia; auto.
    f_equal. f_equal. pose proof (zceil_div_spec n 1 ltac:(lia)) as C. unfold is_ceil_div in *. lia. }
  rewrite E. eexists. split; [reflexivity|]. exists (zceil_div n s). split; [apply zceil_div_spec; lia|].
  destruct (same_pad_split _) as [b a] eqn:E2. apply same_pad_split_spec in E2. simpl. lia.
Qed.
Lemma same_width_unique k s n w w' : 1 <= s -> is_same_width k s n w -> is_same_width k s n w' -> w = w'.
Proof.
  intros Hs [m [H1 [H2 H3]]] [m' [H1' [H2' H3']]]. assert (m = m') by (eapply is_ceil_div_unique; eauto; lia). subst.
  destruct w, w'; simpl in *. f_equal; lia.
Qed.
Lemma same_width_bounds k s n w : 1 <= s -> 0 <= k -> is_same_width k s n w ->
  0 <= fst w /\ 0 <= snd w /\ fst w + snd w <= Z.max 0 (k - 1).
Proof. intros Hs Hk [m [H1 [H2 H3]]]. unfold is_ceil_div in H1. lia. Qed.
Lemma same_width_windows k s n w m : 1 <= s -> 1 <= k -> 1 <= n -> is_same_width k s n w -> is_ceil_div n s m ->
  k <= fst w + n + snd w /\ (fst w + n + snd w - k) / s + 1 = m.
Proof.
  intros Hs Hk Hn [m' [H1 [H2 H3]]] H4. assert (m' = m) by (eapply is_ceil_div_unique; eauto; lia). subst m'.
  unfold is_ceil_div in H1. assert (1 <= m) by nia. assert (0 <= (m - 1) * s) by nia.
  split; [lia|]. replace (fst w + n + snd w - k) with (Z.max ((m - 1) * s) (n - k)) by lia.
  enough (Z.max ((m - 1) * s) (n - k) / s = m - 1) by lia.
  symmetry. apply Z.div_unique with (r := Z.max ((m - 1) * s) (n - k) - s * (m - 1)). 2: ring. left. nia.
Qed.

Section PS.
Variable F : ofield.
Notation T := (tensor F).

Lemma some_spec_expand {A} n (s : nds A) l : expand n s = Some l -> expand n (some_spec s) = Some (map Some l).
Proof. intros H. pose proof (expand_map (@Some A) n s) as E. rewrite H in E. exact E. Qed.

Lemma to_same_ok n (p : padder F) ms size stride ks sts ns : padder_for n p ms ->
  expand n size = Some ks -> expand n stride = Some sts -> length ns = n ->
  (forall r, (r < n)%nat -> 1 <= nth r sts 1 /\ 0 <= nth r ks 0 /\ 0 <= nth r ns 0) ->
  exists ws, to_same p size (some_spec stride) (NList (map Some ns)) = (with_width p ws, Ok tt) /\
    length ws = n /\ forall r, (r < n)%nat -> is_same_width (nth r ks 0) (nth r sts 1) (nth r ns 0) (nth r ws (0, 0)).
Proof.
  intros HP Hk Hs Hn Hpos. unfold to_same, nds_apply3.
  apply some_spec_expand in Hs.
  assert (Hi : expand n (NList (map Some ns)) = Some (map Some ns)).
  { simpl. rewrite map_length, Hn, Nat.eqb_refl. reflexivity. }
  unfold agg_index_shape.
  destruct (agg_all_same (Z.of_nat n) [nds_ishape size; nds_ishape (some_spec stride); nds_ishape (NList (map Some ns))]) as [[E1 E2]|[E1 E2]].
  { intros o [<-|[<-|[<-|[]]]]; eapply expand_ishape; eauto. }
  { specialize (E2 _ (or_intror (or_intror (or_introl eq_refl)))). discriminate. }
  rewrite E1. cbn [bind].
  set (g := fun i => same_pad_split ((zceil_div (nth (Z.to_nat i) ns 0) (nth (Z.to_nat i) sts 1) - 1) * nth (Z.to_nat i) sts 1 +
                       nth (Z.to_nat i) ks 0 - nth (Z.to_nat i) ns 0)).
  assert (EM : mapM (fun i => x <- nds_get size i ;; y <- nds_get (some_spec stride) i ;;
       z <- nds_get (NList (map Some ns)) i ;; same_padding_width x y z) (zrange (Z.of_nat n)) = Ok (map g (zrange (Z.of_nat n))) /\
     forall r, (r < n)%nat -> is_same_width (nth r ks 0) (nth r sts 1) (nth r ns 0) (g (Z.of_nat r))).
  { assert (Q : forall r, (r < n)%nat -> same_padding_width (nth r ks 0) (Some (nth r sts 1)) (Some (nth r ns 0)) = Ok (g (Z.of_nat r))
       /\ is_same_width (nth r ks 0) (nth r sts 1) (nth r ns 0) (g (Z.of_nat r))).
    { intros r Hr. destruct (Hpos r Hr) as [P1 [P2 P3]]. destruct (same_width_ok (nth r ks 0) (nth r sts 1) (nth r ns 0)) as [w [W1 W2]]; auto.
      enough (g (Z.of_nat r) = w) by (subst w; auto).
      unfold g. rewrite Nat2Z.id. unfold same_padding_width in W1.
      destruct (Z.eqb_spec (nth r sts 1) 0); [lia|]. destruct W2 as [m [M1 [M2 M3]]].
      apply (same_width_unique (nth r ks 0) (nth r sts 1) (nth r ns 0)); auto; [|exists m; auto].
      exists (zceil_div (nth r ns 0) (nth r sts 1)). split; [apply zceil_div_spec; lia|].
      destruct (same_pad_split _) as [b a] eqn:E2'. apply same_pad_split_spec in E2'. simpl. lia. }
    split; [|intros r Hr; apply Q; auto]. apply mapM_ok. intros i Hi'. apply In_zrange in Hi'. rewrite <- (Z2Nat.id i) by lia.
    rewrite (expand_get n size ks _ 0 Hk) by lia. cbn [bind].
    rewrite (expand_get n _ _ _ (Some 1) Hs) by lia. rewrite map_nth. cbn [bind].
    rewrite (expand_get n _ _ _ (Some 0) Hi) by lia. rewrite map_nth. cbn [bind]. apply Q. lia. }
  destruct EM as [EM Q]. rewrite EM. cbn [bind]. set (ws := map g (zrange (Z.of_nat n))) in *.
  assert (Lw : length ws = n) by (unfold ws; rewrite map_length, zrange_length; lia).
  unfold align_ndim, agg_index_len, agg_index_shape. destruct HP as [H1 H2 H3 H4].
  destruct (expand n (p_const p)) as [cs|] eqn:X1; [|congruence]. destruct (expand n (p_end p)) as [es|] eqn:X2; [|congruence].
  destruct (expand n (p_stat p)) as [ss|] eqn:X3; [|congruence].
  match goal with |- context [agg_shapes ?l] => destruct (agg_all_same (Z.of_nat n) l) as [[A1 A2]|[A1 A2]] end.
  { intros o [<-|[<-|[<-|[<-|[<-|[]]]]]]; try (eapply expand_ishape; eauto; fail). right. simpl. now rewrite Lw. }
  { specialize (A2 _ (or_introl eq_refl)). discriminate. }
  rewrite A1. cbn [bind]. exists ws. split; [unfold with_width; now rewrite Lw|]. split; auto.
  intros r Hr. replace (nth r ws (0, 0)) with (g (Z.of_nat r)); auto.
  unfold ws. rewrite nth_indep with (d' := g 0) by (rewrite map_length, zrange_length; lia).
  rewrite map_nth, nth_zrange by lia. reflexivity.
Qed.

Lemma padder_forward_axes fuel junk (p : padder F) (x : T) ax ax' :
  check_axes (Z.of_nat (ndim x)) ax = check_axes (Z.of_nat (ndim x)) ax' ->
  padder_forward fuel junk p x ax = padder_forward fuel junk p x ax'.
Proof. intros H. unfold padder_forward. now rewrite H. Qed.

(** *** the padder's parameters *)
Lemma item_expand {A} n (s : nds A) l r d : expand n s = Some l -> (r < n)%nat -> item s (n - 1 - r) = Some (nth r l d).
Proof.
  destruct s as [a|l']; simpl; intros H Hr.
  - inv H. rewrite nth_indep with (d' := a) by (now rewrite repeat_length). now rewrite nth_repeat.
  - destruct (Nat.eqb_spec (length l') n); inv H. rewrite (nth_error_nth' (rev l) d) by (rewrite rev_length; lia).
    rewrite rev_nth by lia. f_equal. f_equal. lia.
Qed.
Lemma with_width_par n (p : padder F) ms ws al : padder_for n p ms -> length ws = n -> length al = n -> NoDup al ->
  last_axes (with_width p ws) al = al /\
  forall r, (r < n)%nat -> exists q, axis_par (with_width p ws) al (nth r al 0%nat) = Some q /\
     ap_before q = fst (nth r ws (0, 0)) /\ ap_after q = snd (nth r ws (0, 0)) /\ ap_mode q = nth r ms MUnknown.
Proof.
  intros [H1 H2 H3 H4] Lw La Hn. split.
  - unfold last_axes. simpl p_ndim. destruct (Z.ltb_spec 0 (Z.of_nat (length ws))); auto.
    rewrite Nat2Z.id. replace (length al - length ws)%nat with 0%nat by lia. reflexivity.
  - intros r Hr. destruct (nth_split al 0%nat (n := r) ltac:(lia)) as [l1 [l2 [E El]]].
    set (a := nth r al 0%nat) in *.
    assert (Hna : ~ In a l1). { rewrite E in Hn. apply NoDup_remove_2 in Hn. rewrite in_app_iff in Hn. tauto. }
    rewrite E. rewrite axis_par_in by auto. assert (L2 : length l2 = (n - 1 - r)%nat).
    { rewrite E in La. rewrite app_length in La. simpl in La. lia. }
    rewrite L2. unfold params.
    assert (Hw : expand n (NList ws) = Some ws) by (simpl; now rewrite Lw, Nat.eqb_refl).
    change (p_width (with_width p ws)) with (NList ws). change (p_mode (with_width p ws)) with (p_mode p).
    change (p_const (with_width p ws)) with (p_const p). change (p_end (with_width p ws)) with (p_end p).
    change (p_stat (with_width p ws)) with (p_stat p).
    rewrite (item_expand n _ _ r (0, 0) Hw Hr).
    rewrite (item_expand n _ _ r MUnknown H1 Hr).
    destruct (expand n (p_const p)) as [cs|] eqn:X1; [|congruence]. destruct (expand n (p_end p)) as [es|] eqn:X2; [|congruence].
    destruct (expand n (p_stat p)) as [ss|] eqn:X3; [|congruence].
    rewrite (item_expand n _ _ r (f0, f0) X1 Hr), (item_expand n _ _ r (f0, f0) X2 Hr), (item_expand n _ _ r (None, None) X3 Hr).
    destruct (nth r ws (0, 0)) as [b c]. eexists. split; [reflexivity|]. simpl. auto.
Qed.
Lemma fills_ext (m : mode F) pb pa cv ev sl : fills m -> exists e, mode_ext m pb pa cv ev sl = Some e.
Proof. destruct m; simpl; intros H; try contradiction; eauto. Qed.
Lemma fills_not_empty (m : mode F) : fills m -> is_empty_mode F m = false.
Proof. destruct m; simpl; auto; contradiction. Qed.

(** *** the call *)
Record same_call (fuel : nat) (p : padder F) (x : T) (ax : axes_arg) (al : list nat) (ms : list (mode F)) (kers : list (list F)) (sts : list Z) : Prop := {
  sc_axes : on_axes x ax al;
  sc_nd : (0 < ndim x)%nat;
  sc_pos : forall d, (d < ndim x)%nat -> 0 <= nth d (shp x) 0;
  sc_pos1 : forall a, In a al -> 1 <= nth a (shp x) 0;
  sc_strides : forall r, (r < length al)%nat -> 1 <= nth r sts 1;
  sc_padder : padder_for (length al) p ms;
  sc_modes : forall m, In m ms -> fills m;
  sc_fuel : forall d k, (d < ndim x)%nat -> (k = 0 \/ exists ker, In ker kers /\ k = klen ker) -> nth d (shp x) 0 + k <= Z.of_nat fuel }.

Lemma same_pad_call fuel p (x : T) ax al ms kers sts ws : same_call fuel p x ax al ms kers sts ->
  length ws = length al -> length kers = length al ->
  (forall r, (r < length al)%nat -> is_same_width (klen (nth r kers [])) (nth r sts 1) (nth (nth r al 0%nat) (shp x) 0) (nth r ws (0, 0))) ->
  pad_call fuel (with_width p ws) x ax al /\ all_fine F (with_width p ws) x al /\ no_empty_mode F (with_width p ws) al /\
  length (full_shape (with_width p ws) al (shp x)) = ndim x /\
  (forall d, ~ In d al -> (d < ndim x)%nat -> nth d (full_shape (with_width p ws) al (shp x)) 0 = nth d (shp x) 0) /\
  forall r, (r < length al)%nat -> nth (nth r al 0%nat) (full_shape (with_width p ws) al (shp x)) 0 =
     let n := nth (nth r al 0%nat) (shp x) 0 in let w := nth r ws (0, 0) in
     if (fst w =? 0) && (snd w =? 0) then n else
     fst w + n + snd w + (if is_periodize (nth r ms MUnknown) then n mod 2 else 0).
Proof.
  intros [A N0 P0 P1 S1 PF M1 FU] Lw Lk Hw. destruct A as [A1 A2 A3].
  destruct (with_width_par (length al) p ms ws al PF Lw eq_refl A3) as [L Q].
  assert (Lm : length ms = length al) by (apply (expand_length _ _ _ (pf_mode _ _ _ PF))).
  assert (Wb : forall r, (r < length al)%nat -> 0 <= fst (nth r ws (0,0)) /\ 0 <= snd (nth r ws (0,0)) /\
     fst (nth r ws (0,0)) + snd (nth r ws (0,0)) <= Z.max 0 (klen (nth r kers []) - 1)).
  { intros r Hr. eapply same_width_bounds; eauto. unfold klen. lia. }
  assert (FS : forall r, (r < length al)%nat -> nth (nth r al 0%nat) (full_shape (with_width p ws) al (shp x)) 0 =
     let n := nth (nth r al 0%nat) (shp x) 0 in let w := nth r ws (0, 0) in
     if (fst w =? 0) && (snd w =? 0) then n else
     fst w + n + snd w + (if is_periodize (nth r ms MUnknown) then n mod 2 else 0)).
  { intros r Hr. unfold full_shape. rewrite nth_map_seq by (apply A2, nth_In; auto). rewrite L.
    destruct (Q r Hr) as [q [Q1 [Q2 [Q3 Q4]]]]. rewrite Q1, Q2, Q3, Q4. reflexivity. }
  assert (FN : forall d, ~ In d al -> (d < ndim x)%nat -> nth d (full_shape (with_width p ws) al (shp x)) 0 = nth d (shp x) 0).
  { intros d Hd Hd2. unfold full_shape. rewrite nth_map_seq by auto. rewrite L, axis_par_notin by auto. reflexivity. }
  assert (AF : all_fine F (with_width p ws) x al).
  { unfold all_fine. rewrite L. intros a Ha. destruct (In_pos a al 0%nat Ha) as [r [Hr <-]].
    destruct (Q r Hr) as [q [Q1 [Q2 [Q3 Q4]]]]. exists q. split; auto. destruct (Wb r Hr) as [B1 [B2 B3]].
    split; [lia|]. split; [lia|]. right. right. split; [left; auto|]. apply fills_ext. rewrite Q4. apply M1. apply nth_In. lia. }
  split; [|split; [|split; [|split; [|split]]]]; auto.
  - constructor; auto. intros d Hd. rewrite out_shape_full by auto.
    destruct (in_dec Nat.eq_dec d al) as [Hi|Hi].
    + destruct (In_pos d al 0%nat Hi) as [r [Hr <-]]. rewrite FS by auto. cbv zeta.
      destruct (Wb r Hr) as [B1 [B2 B3]].
      pose proof (FU (nth r al 0%nat) 0 Hd (or_introl eq_refl)).
      pose proof (FU (nth r al 0%nat) (klen (nth r kers [])) Hd) as FU2.
      assert (klen (nth r kers []) = 0 \/ exists ker, In ker kers /\ klen (nth r kers []) = klen ker).
      { right. exists (nth r kers []). split; auto. apply nth_In. lia. }
      specialize (FU2 H0). unfold klen in *.
      destruct (_ && _) eqn:E; [lia|]. apply andb_false_iff in E. rewrite !Z.eqb_neq in E.
      pose proof (Z.mod_pos_bound (nth (nth r al 0%nat) (shp x) 0) 2).
      destruct (is_periodize _); lia.
    + rewrite FN by auto. pose proof (FU d 0 Hd (or_introl eq_refl)). lia.
  - unfold no_empty_mode. rewrite L. apply no_empty_by_par; auto. intros a q Ha Hq.
    destruct (In_pos a al 0%nat Ha) as [r [Hr <-]]. destruct (Q r Hr) as [q' [Q1 [Q2 [Q3 Q4]]]].
    rewrite Q1 in Hq. inv Hq. rewrite Q4. apply fills_not_empty. apply M1. apply nth_In. lia.
  - unfold full_shape. now rewrite map_length, seq_length.
Qed.

Theorem sep_forward_same fuel junk (m : pool F) (x : T) ax al kers sts p ms :
  pool_par F m (length al) kers sts -> expand (length al) (pl_size m) = Some (map klen kers) ->
  expand (length al) (pl_stride m) = Some sts -> pl_padder m = Some p ->
  same_call fuel p x ax al ms kers sts ->
  exists ws xp y, length ws = length al /\
    (forall r, (r < length al)%nat -> is_same_width (klen (nth r kers [])) (nth r sts 1) (nth (nth r al 0%nat) (shp x) 0) (nth r ws (0, 0))) /\
    pad_call fuel (with_width p ws) x ax al /\ all_fine F (with_width p ws) x al /\ no_empty_mode F (with_width p ws) al /\
    padder_forward fuel junk (with_width p ws) x ax = Ok xp /\ shp xp = full_shape (with_width p ws) al (shp x) /\
    sep_forward fuel junk m x ax = (set_padder m (with_width p ws), Ok y) /\
    teq y (correlate al (map eff_kernel kers) (map2 eff_stride kers sts) xp) /\
    (forall r c, (r < length al)%nat -> nth r kers [] <> [] -> nth r ms MUnknown <> MPeriodize ->
       is_ceil_div (nth (nth r al 0%nat) (shp x) 0) (nth r sts 1) c -> nth (nth r al 0%nat) (shp y) 0 = c).
Proof.
  intros PP He1 He2 Hp SC. pose proof PP as [P1 [P2 [P3 P4]]]. pose proof SC as [A N0 P0 P1' S1 PFo M1 FU]. destruct A as [A1 A2 A3].
  set (ns := map (fun a => nth a (shp x) 0) al).
  destruct (to_same_ok (length al) p ms (pl_size m) (pl_stride m) (map klen kers) sts ns) as [ws [T1 [T2 T3]]]; auto.
  { unfold ns. apply map_length. }
  { intros r Hr. split; [auto|]. split.
    - rewrite (nth_indep (map klen kers) 0 (klen (@nil F))) by (rewrite map_length; lia). rewrite map_nth. unfold klen. lia.
    - unfold ns. rewrite nth_indep with (d' := (fun a => nth a (shp x) 0) 0%nat) by (now rewrite map_length).
      rewrite (map_nth (fun a => nth a (shp x) 0)). assert (1 <= nth (nth r al 0%nat) (shp x) 0) by (apply P1', nth_In; auto). lia. }
  assert (T4 : forall r, (r < length al)%nat -> is_same_width (klen (nth r kers [])) (nth r sts 1) (nth (nth r al 0%nat) (shp x) 0) (nth r ws (0, 0))).
  { intros r Hr. specialize (T3 r Hr). rewrite (nth_indep (map klen kers) 0 (klen (@nil F))) in T3 by (rewrite map_length; lia).
    rewrite map_nth in T3. unfold ns in T3. rewrite (nth_indep (map _ al) 0 ((fun a => nth a (shp x) 0) 0%nat)) in T3 by (now rewrite map_length).
    rewrite (map_nth (fun a => nth a (shp x) 0)) in T3. exact T3. }
  destruct (same_pad_call fuel p x ax al ms kers sts ws SC T2 P1 T4) as [PC [AF [NE [FL [FN FS]]]]].
  destruct (forward_keeps F fuel junk (with_width p ws) x ax al PC AF) as [xp [X1 [X2 X3]]].
  assert (Nx : ndim xp = ndim x) by (unfold ndim; rewrite X2; exact FL).
  assert (Hfit : forall r, (r < length al)%nat -> klen (nth r kers []) <= nth (nth r al 0%nat) (shp xp) 0).
  { intros r Hr. rewrite X2, FS by auto. cbv zeta. specialize (T4 r Hr).
    assert (H1 : 1 <= nth (nth r al 0%nat) (shp x) 0) by (apply P1', nth_In; auto).
    destruct (Z.eq_dec (klen (nth r kers [])) 0) as [E|E].
    - assert (K0 : 0 <= klen (nth r kers [])) by lia. rewrite E. pose proof (same_width_bounds _ _ _ _ (S1 r Hr) K0 T4) as B.
      pose proof (Z.mod_pos_bound (nth (nth r al 0%nat) (shp x) 0) 2).
      destruct (_ && _); [lia|]. destruct (is_periodize _); lia.
    - assert (Hk1 : 1 <= klen (nth r kers [])) by (unfold klen in *; lia).
      pose proof (zceil_div_spec (nth (nth r al 0%nat) (shp x) 0) (nth r sts 1) ltac:(specialize (S1 r Hr); lia)) as C.
      destruct (same_width_windows _ _ _ _ _ (S1 r Hr) Hk1 H1 T4 C) as [B _].
      pose proof (Z.mod_pos_bound (nth (nth r al 0%nat) (shp x) 0) 2).
      destruct (_ && _) eqn:Ez; [bdestr; lia|]. destruct (is_periodize _); lia. }
  destruct (pool_loop_ok F (set_padder m (with_width p ws)) al 0 xp kers sts) as [y [Y1 Y2]]; auto.
  { intros a Ha. rewrite Nx. auto. }
  { intros r Hr. split; auto. destruct (P4 r Hr) as [Q1 [Q2 [Q3 Q4]]]. split; auto. }
  exists ws, xp, y. split; auto. split; auto. split; auto. split; auto. split; auto. split; auto. split; auto. split; [|split; auto].
  - unfold sep_forward. rewrite A1. rewrite map_length.
    assert (E : (pl_ndim m =? 0) || (pl_ndim m =? Z.of_nat (length al)) = true).
    { apply orb_true_iff. destruct P3 as [->| ->]; [left|right]; apply Z.eqb_refl. }
    rewrite E. unfold pool_pad. rewrite check_axes_seq_nat by auto. rewrite Hp.
    assert (EM : mapM (fun a => pyidx (shp x) a) (map Z.of_nat al) = Ok ns).
    { rewrite mapM_ok with (g := fun a => nth (Z.to_nat a) (shp x) 0).
      - f_equal. unfold ns. rewrite map_map. apply map_ext. intros a. now rewrite Nat2Z.id.
      - intros z Hz. apply in_map_iff in Hz. destruct Hz as [a [<- Ha]]. specialize (A2 a Ha). unfold ndim in A2.
        rewrite pyidx_nonneg with (d := 0) by lia. reflexivity. }
    rewrite EM. rewrite T1. cbn [bind].
    rewrite (padder_forward_axes fuel junk _ x _ ax) by (rewrite A1; apply check_axes_seq_nat; auto).
    rewrite X1. cbn [bind]. rewrite Y1. reflexivity.
  - intros r c Hr Hk Hm Hc. destruct Y2 as [Y2 _]. rewrite Y2. cbn [correlate shp].
    rewrite pooled_nth.
    + rewrite (nth_indep (map eff_kernel kers) [] (eff_kernel [])) by (rewrite map_length; lia). rewrite map_nth.
      rewrite nth_map2 with (da := []) (db := 1) by lia.
      destruct (nth r kers []) as [|c0 k0] eqn:Ek; [congruence|]. cbn [eff_kernel eff_stride].
      rewrite X2, FS by auto. cbv zeta. specialize (T4 r Hr). rewrite Ek in T4.
      assert (H1 : 1 <= nth (nth r al 0%nat) (shp x) 0) by (apply P1', nth_In; auto).
      assert (K1 : 1 <= klen (c0 :: k0)) by (unfold klen; simpl length; lia).
      destruct (same_width_windows _ _ _ _ _ (S1 r Hr) K1 H1 T4 Hc) as [B1 B2].
      assert (E : is_periodize (nth r ms MUnknown) = false) by (destruct (nth r ms MUnknown); simpl; auto; congruence).
      rewrite E. destruct (_ && _) eqn:Ez; bdestr; rewrite <- B2; f_equal; f_equal; lia.
    + auto.
    + intros a Ha. change (length (shp xp)) with (ndim xp). rewrite Nx. auto.
    + now rewrite map_length.
    + rewrite map2_length. lia.
    + auto.
Qed.
End PS.
