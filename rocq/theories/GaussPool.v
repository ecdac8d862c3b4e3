(** GaussianPoolNd (pooling/gaussian.py:91-128): its kernels, and what they imply for whole images. *)
From Coq Require Import Reals Lra.
From Verif Require Export GaussDeriv PoolPropLemmas GaussEdge.
Open Scope Z_scope.

Lemma nds_apply3_expand {A B C D} (f : A -> B -> C -> res D) n a b c la lb lc (da : A) (db : B) (dc : C) (g : nat -> D) : (1 <= n)%nat ->
  expand n a = Some la -> expand n b = Some lb -> expand n c = Some lc ->
  (forall r, (r < n)%nat -> f (nth r la da) (nth r lb db) (nth r lc dc) = Ok (g r)) ->
  exists d, nds_apply3 f a b c = Ok d /\ exists l, expand n d = Some l /\ length l = n /\ forall r dd, (r < n)%nat -> nth r l dd = g r.
Proof.
  intros Hn Ha Hb Hc Hf. unfold nds_apply3, agg_index_shape.
  destruct (agg_all_same (Z.of_nat n) [nds_ishape a; nds_ishape b; nds_ishape c]) as [[E1 E2]|[E1 E2]].
  { intros o [<-|[<-|[<-|[]]]]; eapply expand_ishape; eauto. }
  - rewrite E1. cbn [bind]. destruct a as [xa|]; [|exfalso; specialize (E2 _ (or_introl eq_refl)); discriminate].
    destruct b as [xb|]; [|exfalso; specialize (E2 _ (or_intror (or_introl eq_refl))); discriminate].
    destruct c as [xc|]; [|exfalso; specialize (E2 _ (or_intror (or_intror (or_introl eq_refl)))); discriminate].
    cbn [nds_get bind]. simpl in Ha, Hb, Hc. inv Ha. inv Hb. inv Hc.
    assert (G : forall r, (r < n)%nat -> f xa xb xc = Ok (g r)).
    { intros r Hr. specialize (Hf r Hr). rewrite !nth_indep with (d' := xa) in Hf by (now rewrite repeat_length).
      rewrite (nth_indep (repeat xb n) db xb) in Hf by (now rewrite repeat_length). rewrite (nth_indep (repeat xc n) dc xc) in Hf by (now rewrite repeat_length).
      now rewrite !nth_repeat in Hf. }
    rewrite (G 0%nat) by lia. cbn [bind]. eexists. split; [reflexivity|]. eexists. split; [reflexivity|]. split; [apply repeat_length|].
    intros r dd Hr. rewrite (nth_indep _ dd (g 0%nat)) by (now rewrite repeat_length). rewrite nth_repeat.
    pose proof (G 0%nat ltac:(lia)) as G0. rewrite (G r Hr) in G0. congruence.
  - rewrite E1. cbn [bind].
    rewrite mapM_ok with (g := fun i => g (Z.to_nat i)).
    + cbn [bind]. eexists. split; [reflexivity|]. cbn [expand]. rewrite map_length, zrange_length, Nat2Z.id, Nat.eqb_refl.
      eexists. split; [reflexivity|]. split; [rewrite map_length, zrange_length; lia|].
      intros r dd Hr. rewrite (nth_indep _ dd (g (Z.to_nat 0))) by (rewrite map_length, zrange_length; lia).
      rewrite (map_nth (fun i => g (Z.to_nat i))), nth_zrange, Nat2Z.id by lia. reflexivity.
    + intros i Hi. apply In_zrange in Hi. rewrite <- (Z2Nat.id i) by lia.
      rewrite (expand_get n a la _ da Ha) by lia. cbn [bind]. rewrite (expand_get n b lb _ db Hb) by lia. cbn [bind].
      rewrite (expand_get n c lc _ dc Hc) by lia. cbn [bind]. rewrite Nat2Z.id. apply Hf. lia.
Qed.

(** The settings of a GaussianPoolNd for n axes: kernel sizes, sigmas, derivative orders, strides. *)
Record gauss_spec (n : nat) (ks : nds Z) (sigma : nds R) (order : nds Z) (stride : nds (option Z))
    (lk : list Z) (lsig : list R) (lo : list Z) (ss : list (option Z)) : Prop := {
  gs_n : (1 <= n)%nat;
  gs_k : expand n ks = Some lk; gs_s : expand n sigma = Some lsig; gs_o : expand n order = Some lo; gs_t : expand n stride = Some ss;
  gs_k1 : forall k, In k lk -> 1 <= k; gs_s0 : forall s, In s lsig -> s <> 0%R; gs_o0 : forall o, In o lo -> 0 <= o;
  gs_t1 : forall s, In (Some s) ss -> 1 <= s }.

Lemma gauss_any_order k s o : 1 <= k -> s <> 0%R -> 0 <= o -> exists ker, gaussian_kernel_1d k s o = Ok ker /\ Z.of_nat (length ker) = k.
Proof.
  intros Hk Hs Ho. destruct (gg_ok k s o Hk Hs Ho) as [k0 [kn [A [B [C [D _]]]]]]. eauto.
Qed.

Theorem gauss_pool n ks sigma order stride lk lsig lo ss pd : gauss_spec n ks sigma order stride lk lsig lo ss ->
  exists m (kers : list (list R)), gauss_init ks sigma order stride pd = Ok m /\ length kers = n /\
    built (F := RF) n kers (map2 (real_stride (F := RF)) kers ss) pd m /\
    forall r, (r < n)%nat -> gaussian_kernel_1d (nth r lk 0) (nth r lsig 0%R) (nth r lo 0) = Ok (nth r kers []).
Proof.
  intros [Hn Hk Hs Ho Ht K1 S0 O0 T1].
  pose (g := fun r => match gaussian_kernel_1d (nth r lk 0) (nth r lsig 0%R) (nth r lo 0) with Ok k => k | Err _ => [] end).
  assert (G : forall r, (r < n)%nat -> gaussian_kernel_1d (nth r lk 0) (nth r lsig 0%R) (nth r lo 0) = Ok (g r)).
  { intros r Hr. destruct (gauss_any_order (nth r lk 0) (nth r lsig 0%R) (nth r lo 0)) as [k [E _]].
    - apply K1, nth_In. now rewrite (expand_length _ _ _ Hk).
    - apply S0, nth_In. now rewrite (expand_length _ _ _ Hs).
    - apply O0, nth_In. now rewrite (expand_length _ _ _ Ho).
    - unfold g. now rewrite E. }
  destruct (nds_apply3_expand gaussian_kernel_1d n ks sigma order lk lsig lo 0 0%R 0 g Hn Hk Hs Ho G) as [d [D1 [l [D2 [D3 D4]]]]].
  destruct (sep_init_ok RF n d stride pd l ss D2 Ht T1) as [m [M1 _]].
  { intros s ->. apply T1. cbn in Ht. inversion Ht. destruct n; [lia|]. now left. }
  exists m, l. split; [unfold gauss_init; rewrite D1; exact M1|]. split; auto. split; [exact (built_init n l d stride ss pd m D2 Ht M1)|].
  intros r Hr. rewrite D4 by auto. now apply G.
Qed.

(** Kernels of order 0 are averages. *)
Lemma gauss_pool_avg n ks sigma order stride lk lsig lo ss pd : gauss_spec n ks sigma order stride lk lsig lo ss ->
  (forall o, In o lo -> o = 0) ->
  exists m (kers : list (list R)), gauss_init ks sigma order stride pd = Ok m /\
    built (F := RF) n kers (map2 (real_stride (F := RF)) kers ss) pd m /\ map klen kers = lk /\
    (forall k, In k kers -> k = [] \/ @wsum RF k = 1%R) /\ (forall k e, In k kers -> In e k -> (0 <= e)%R).
Proof.
  intros S O. destruct (gauss_pool n ks sigma order stride lk lsig lo ss pd S) as [m [kers [M1 [M2 [M3 M4]]]]].
  destruct S as [Hn Hk Hs Ho Ht K1 S0 O0 T1].
  assert (X : forall r, (r < n)%nat -> klen (nth r kers []) = nth r lk 0 /\ @wsum RF (nth r kers []) = 1%R /\ forall e, In e (nth r kers []) -> (0 <= e)%R).
  { intros r Hr. destruct (gauss_kernel (nth r lk 0) (nth r lsig 0%R)) as [k [G1 [G2 [G3 [G4 _]]]]].
    - apply K1, nth_In. now rewrite (expand_length _ _ _ Hk).
    - apply S0, nth_In. now rewrite (expand_length _ _ _ Hs).
    - specialize (M4 r Hr). rewrite (O (nth r lo 0)) in M4 by (apply nth_In; now rewrite (expand_length _ _ _ Ho)).
      rewrite G1 in M4. inversion M4 as [E]. rewrite <- E. split; [exact G2|]. split; [exact G4|]. intros e He. apply Rlt_le, G3, He. }
  exists m, kers. split; auto. split; auto. split; [|split].
  - assert (M2' : @length (list RF) kers = n) by exact M2.
    apply list_ext with (d := 0); [rewrite map_length, M2'; symmetry; apply (expand_length _ _ _ Hk)|].
    rewrite map_length, M2'. intros r Hr. rewrite (nth_indep _ 0 (klen (F := RF) [])) by (now rewrite map_length, M2'). rewrite (map_nth (klen (F := RF))). now apply X.
  - intros k H. apply In_nth with (d := []) in H as [r [Hr <-]]. right. apply X. lia.
  - intros k e H He. apply In_nth with (d := []) in H as [r [Hr <-]]. apply (X r); auto. lia.
Qed.

(** A call of the pool on the axes al with the same padder p. *)
Record gauss_call (fuel : nat) (p : padder RF) (x : tensor RF) (ax : axes_arg) (al : list nat) (ms : list (mode RF)) (lk : list Z) : Prop := {
  gc_axes : on_axes x ax al;
  gc_nd : (0 < ndim x)%nat;
  gc_pos : forall d, (d < ndim x)%nat -> 0 <= nth d (shp x) 0;
  gc_pos1 : forall a, In a al -> 1 <= nth a (shp x) 0;
  gc_padder : padder_for (length al) p ms;
  gc_modes : forall m, In m ms -> fills m;
  gc_fuel : forall d k, (d < ndim x)%nat -> k = 0 \/ In k lk -> nth d (shp x) 0 + k <= Z.of_nat fuel }.
Lemma gauss_same_call fuel p x ax al ms ks sigma order stride lk lsig lo ss (kers : list (list R)) :
  gauss_spec (length al) ks sigma order stride lk lsig lo ss -> gauss_call fuel p x ax al ms lk -> map (klen (F := RF)) kers = lk ->
  same_call RF fuel p x ax al ms kers (map2 (real_stride (F := RF)) kers ss).
Proof.
  intros [Hn Hk Hs Ho Ht K1 S0 O0 T1] [A1 A2 A3 A4 A5 A6 A7] E. split; auto.
  - intros r Hr. assert (Lk : @length (list RF) kers = length al) by (rewrite <- (expand_length _ _ _ Hk), <- E; now rewrite map_length).
    pose proof (expand_length _ _ _ Ht) as Ls.
    rewrite nth_map2 with (da := []) (db := None) by lia. destruct (nth r ss None) as [s|] eqn:Es; cbn [real_stride].
    + apply T1. rewrite <- Es. apply nth_In. lia.
    + apply K1. rewrite <- E. apply in_map. apply nth_In. lia.
  - intros d k Hd [->|[ker [H1 ->]]]; apply A7; auto. right. rewrite <- E. now apply in_map.
Qed.

Section Blur.
Variables (fuel : nat) (junk : list Z -> R).
Variables (ks : nds Z) (sigma : nds R) (order : nds Z) (stride : nds (option Z)).
Variables (lk : list Z) (lsig : list R) (lo : list Z) (ss : list (option Z)) (x : tensor RF) (ax : axes_arg) (al : list nat).
Hypothesis S : gauss_spec (length al) ks sigma order stride lk lsig lo ss.
Hypothesis O : forall o, In o lo -> o = 0.

(** Blurring keeps constant images constant and every image within its range. *)
Lemma gauss_valid_kernels (kers : list (list R)) : map (klen (F := RF)) kers = lk ->
  (forall r, (r < length al)%nat -> nth r lk 0 <= nth (nth r al 0%nat) (shp x) 0) ->
  forall r, (r < length al)%nat -> klen (F := RF) (nth r kers []) <= nth (nth r al 0%nat) (shp x) 0.
Proof.
  intros E H r Hr. specialize (H r Hr). rewrite <- E in H.
  rewrite (nth_indep _ 0 (klen (F := RF) [])) in H by (rewrite E, (expand_length _ _ _ (gs_k _ _ _ _ _ _ _ _ _ S)); auto).
  now rewrite (map_nth (klen (F := RF))) in H.
Qed.
Theorem gauss_constant_valid c : on_axes x ax al ->
  (forall r, (r < length al)%nat -> nth r lk 0 <= nth (nth r al 0%nat) (shp x) 0) -> constant_image (F := RF) c x ->
  exists m x', gauss_init ks sigma order stride None = Ok m /\ snd (sep_forward (F := RF) fuel junk m x ax) = Ok x' /\ constant_image (F := RF) c x'.
Proof.
  intros A L C. destruct (gauss_pool_avg (length al) ks sigma order stride lk lsig lo ss None S O) as [m [kers [M1 [M2 [M3 [M4 M5]]]]]].
  destruct (const_valid RF fuel junk m c x ax al kers _ A M2 (gauss_valid_kernels kers M3 L) M4 C) as [x' X]. exists m, x'. split; auto.
Qed.
Theorem gauss_range_valid lo' hi' : on_axes x ax al ->
  (forall r, (r < length al)%nat -> nth r lk 0 <= nth (nth r al 0%nat) (shp x) 0) -> in_range (F := RF) lo' hi' x ->
  exists m x', gauss_init ks sigma order stride None = Ok m /\ snd (sep_forward (F := RF) fuel junk m x ax) = Ok x' /\ in_range (F := RF) lo' hi' x'.
Proof.
  intros A L C. destruct (gauss_pool_avg (length al) ks sigma order stride lk lsig lo ss None S O) as [m [kers [M1 [M2 [M3 [M4 M5]]]]]].
  destruct (range_valid RF fuel junk m lo' hi' x ax al kers _ A M2 (gauss_valid_kernels kers M3 L) M4) as [x' X]; auto.
  - intros k e H1 H2. apply RF_le. eauto.
  - exists m, x'. split; auto.
Qed.
Theorem gauss_constant_same p ms c : gauss_call fuel p x ax al ms lk -> every_axis (F := RF) (length al) p const_mode -> constant_image (F := RF) c x ->
  exists m x', gauss_init ks sigma order stride (Some p) = Ok m /\ snd (sep_forward (F := RF) fuel junk m x ax) = Ok x' /\ constant_image (F := RF) c x'.
Proof.
  intros A L C. destruct (gauss_pool_avg (length al) ks sigma order stride lk lsig lo ss (Some p) S O) as [m [kers [M1 [M2 [M3 [M4 M5]]]]]].
  pose proof (gauss_same_call fuel p x ax al ms ks sigma order stride lk lsig lo ss kers S A M3) as SC.
  destruct (const_same RF fuel junk m c x ax al kers _ p ms M2 SC L M4 C) as [x' X]. exists m, x'. split; auto.
Qed.
Theorem gauss_range_same p ms lo' hi' : gauss_call fuel p x ax al ms lk -> every_axis (F := RF) (length al) p (range_mode (F := RF) lo' hi') -> in_range (F := RF) lo' hi' x ->
  exists m x', gauss_init ks sigma order stride (Some p) = Ok m /\ snd (sep_forward (F := RF) fuel junk m x ax) = Ok x' /\ in_range (F := RF) lo' hi' x'.
Proof.
  intros A L C. destruct (gauss_pool_avg (length al) ks sigma order stride lk lsig lo ss (Some p) S O) as [m [kers [M1 [M2 [M3 [M4 M5]]]]]].
  pose proof (gauss_same_call fuel p x ax al ms ks sigma order stride lk lsig lo ss kers S A M3) as SC.
  destruct (range_same RF fuel junk m lo' hi' x ax al kers _ p ms M2 SC L M4) as [x' X]; auto.
  - intros k e H1 H2. apply RF_le. eauto.
  - exists m, x'. split; auto.
Qed.
End Blur.

Lemma gauss_errors ks sigma order : order < 0 \/ sigma = 0%R ->
  exists e, gaussian_kernel_1d ks sigma order = Err e /\ (e = ValueError \/ e = ZeroDivisionError).
Proof.
  intros H. unfold gaussian_kernel_1d, gaussian_kernel1d. destruct (Z.ltb_spec order 0); [eexists; split; [reflexivity|]; auto|].
  destruct H as [H| ->]; [lia|]. destruct (Req_EM_T (0 * 0) 0) as [_|E]; [eexists; split; [reflexivity|]; auto|]. exfalso. apply E. ring.
Qed.
Lemma kernel2_ex : 1 <= 2 /\ (1 / 2)%R <> 0%R /\
  gaussian_kernel_1d 2 (1 / 2) 0 = Ok [exp (-2) / (1 + exp (-2)); 1 / (1 + exp (-2))]%R.
Proof.
  split; [lia|]. split; [lra|]. rewrite gauss_formula by (try lia; lra). change (zrange 2) with [0; 1]. change (2 / 2) with 1. cbn [map].
  assert (E : bell_sum 2 (1 / 2) = (1 + exp (-2))%R).
  { unfold bell_sum. rewrite rsum_2. change (2 / 2) with 1. unfold bell. change (IZR (0 - 1)) with (-1)%R. change (IZR (1 - 1)) with 0%R.
    replace (- (-1 * -1) / (2 * (1 / 2 * (1 / 2))))%R with (-2)%R by field. replace (- (0 * 0) / (2 * (1 / 2 * (1 / 2))))%R with 0%R by field. rewrite exp_0. ring. }
  rewrite E. unfold bell. change (IZR (0 - 1)) with (-1)%R. change (IZR (1 - 1)) with 0%R.
  replace (- (-1 * -1) / (2 * (1 / 2 * (1 / 2))))%R with (-2)%R by field. replace (- (0 * 0) / (2 * (1 / 2 * (1 / 2))))%R with 0%R by field. now rewrite exp_0.
Qed.
Lemma kernel3_ex : taps 3 = 3 /\ taps 4 = 5 /\
  gaussian_kernel_1d 3 1 1 = Ok [- (exp (- (1 / 2)) / (1 + 2 * exp (- (1 / 2)))); 0; exp (- (1 / 2)) / (1 + 2 * exp (- (1 / 2)))]%R /\
  gaussian_kernel_1d 3 1 2 = Ok [0; - 1 / (1 + 2 * exp (- (1 / 2))); 0]%R.
Proof.
  split; [reflexivity|]. split; [reflexivity|]. rewrite kernel3_1, kernel3_2 by lra.
  assert (E : half_width 1 = exp (- (1 / 2))) by (unfold half_width; f_equal; field). rewrite E. set (h := exp (- (1 / 2))). assert (0 < h)%R by apply exp_pos.
  assert (L : forall a b c a' b' c' : R, a = a' -> b = b' -> c = c' -> Ok [a; b; c] = Ok [a'; b'; c']) by (intros; subst; reflexivity).
  split; apply L; try reflexivity; field; lra.
Qed.
