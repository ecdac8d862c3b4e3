(** Gaussian blurs keep the mean and bring images closer together. *)
From Coq Require Import Reals Lra.
From Verif Require Export GaussFlip BlurContract.
Open Scope Z_scope.

Theorem gauss_blur fuel junk junk' (ks : nds Z) (sigma : nds R) (order : nds Z) (stride : nds (option Z)) lk lsig lo ss p ms (x y : tensor RF) ax al :
  gauss_spec (length al) ks sigma order stride lk lsig lo ss ->
  (forall o, In o lo -> o = 0) -> (forall k, In k lk -> Z.odd k = true) -> (forall s, In s ss -> s = Some 1) ->
  gauss_call fuel p x ax al ms lk -> shp y = shp x -> (forall n, In n (shp x) -> 1 <= n) ->
  (forall m, In m ms -> m = MCircular \/ m = MSymmetric) ->
  exists f u v s t, gauss_init ks sigma order stride (Some p) = Ok f /\
    snd (sep_forward (F := RF) fuel junk f x ax) = Ok u /\ snd (sep_forward (F := RF) fuel junk' f y ax) = Ok v /\ shp u = shp x /\ shp v = shp x /\
    @bsum RF (shp x) (at_ u) = @bsum RF (shp x) (at_ x) /\
    mse_forward (F := RF) RMean u v AxNone = Ok s /\ mse_forward (F := RF) RMean x y AxNone = Ok t /\ (at_ s [] <= at_ t [])%R.
Proof.
  intros S O Od St GC Sy P Ms. destruct (gauss_pool (length al) ks sigma order stride lk lsig lo ss (Some p) S) as [f [kers [M1 [M2 [M3 M4]]]]].
  pose proof S as [Hn Hk Hs Ho Ht K1 S0 O0 T1].
  assert (X : forall r, (r < length al)%nat -> klen (F := RF) (nth r kers []) = nth r lk 0 /\ @wsum RF (nth r kers []) = 1%R /\
    (forall e, In e (nth r kers []) -> (0 <= e)%R) /\ rev (nth r kers []) = nth r kers []).
  { intros r Hr. assert (Ik : In (nth r lk 0) lk) by (apply nth_In; now rewrite (expand_length _ _ _ Hk)).
    assert (Is : nth r lsig 0%R <> 0%R) by (apply S0, nth_In; now rewrite (expand_length _ _ _ Hs)).
    destruct (gauss_kernel (nth r lk 0) (nth r lsig 0%R)) as [k [G1 [G2 [G3 [G4 _]]]]]; auto.
    specialize (M4 r Hr). rewrite (O (nth r lo 0)) in M4 by (apply nth_In; now rewrite (expand_length _ _ _ Ho)).
    rewrite G1 in M4. inversion M4 as [E]. rewrite <- E. split; [exact G2|]. split; [exact G4|]. split; [intros e He; apply Rlt_le, G3, He|].
    apply (gauss_palindrome (nth r lk 0) (nth r lsig 0%R)); auto. }
  assert (M2' : @length (list RF) kers = length al) by exact M2.
  assert (Ek : map (klen (F := RF)) kers = lk).
  { apply list_ext with (d := 0); [rewrite map_length, M2'; symmetry; apply (expand_length _ _ _ Hk)|].
    rewrite map_length, M2'. intros r Hr. rewrite (nth_indep _ 0 (klen (F := RF) [])) by (now rewrite map_length, M2'). rewrite (map_nth (klen (F := RF))). now apply X. }
  assert (Es : map2 (real_stride (F := RF)) kers ss = repeat 1 (length al)).
  { pose proof (expand_length _ _ _ Ht) as Ls. apply list_ext with (d := 1); [rewrite map2_length, repeat_length; lia|]. intros r Hr. rewrite map2_length in Hr.
    rewrite nth_map2 with (da := []) (db := None) by lia. rewrite nth_repeat. rewrite (St (nth r ss None)) by (apply nth_In; lia). reflexivity. }
  pose proof (gauss_same_call fuel p x ax al ms ks sigma order stride lk lsig lo ss kers S GC Ek) as SC. rewrite Es in *.
  assert (Lm : length ms = length al) by (apply (expand_length _ _ _ (pf_mode _ _ _ (gc_padder _ _ _ _ _ _ _ GC)))).
  assert (W : window RF kers).
  { intros k Hk'. apply In_nth with (d := []) in Hk' as [r [Hr <-]]. destruct (X r ltac:(lia)) as [_ [X2 [X3 _]]]. split; [now right|].
    intros e He. apply RF_le. now apply X3. }
  assert (A : adjoint_axes RF al ms kers).
  { intros r Hr. destruct (X r Hr) as [X1 [X2 [X3 X4]]]. split.
    - assert (N : nth r kers [] <> []). { intros E. rewrite E in X1. assert (1 <= nth r lk 0) by (apply K1, nth_In; now rewrite (expand_length _ _ _ Hk)). unfold klen in X1. cbn in X1. lia. }
      etransitivity; [apply (f_equal (fun k => Z.odd (klen (F := RF) k)) (eff_id RF _ N))|]. etransitivity; [apply (f_equal Z.odd X1)|]. apply Od, nth_In. now rewrite (expand_length _ _ _ Hk).
    - destruct (Ms (nth r ms MUnknown)) as [-> | ->]; [apply nth_In; lia|now left|right; auto]. }
  destruct (mse_blur RF fuel junk fuel junk' f x y ax al kers p ms M3 SC (same_call_shape RF fuel p x y ax al ms kers _ Sy SC) Sy P (or_introl A) W)
    as [u [v [s [t [U1 [V1 [E1 [E2 [_ [_ L]]]]]]]]]].
  destruct (filter_total RF fuel junk f x ax al kers p ms M3 SC (or_introl A)) as [u' [U1' [U2 U3]]]. rewrite U1 in U1'. injection U1' as <-.
  destruct (blur_contract RF fuel junk fuel junk' f x y ax al kers p ms M3 SC (same_call_shape RF fuel p x y ax al ms kers _ Sy SC) Sy (or_introl A) W)
    as [u' [v' [U1' [V1' [_ [V2 _]]]]]]. rewrite V1 in V1'. injection V1' as <-.
  exists f, u, v, s, t. do 5 (split; auto). split.
  - rewrite U3, (window_gain RF kers W). change (1 * @bsum RF (shp x) (at_ x) = @bsum RF (shp x) (at_ x))%R. apply Rmult_1_l.
  - do 2 (split; auto). now apply RF_le.
Qed.
