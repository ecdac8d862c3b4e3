(** SSIM with periodize padding (C131; closes the case left open by C52). *)
From Verif Require Export FilterPeriodize SsimFlip SsimCrop SsimValue.
Open Scope Z_scope.

(** The filtered axes that periodize may lengthen. *)
Definition grown_axes {F : ofield} (al : list nat) (kers : list (list F)) (A : list nat) : Prop :=
  (forall a, In a A -> In a al) /\ forall r, (r < length al)%nat -> (In (nth r al 0%nat) A <-> 2 <= klen (nth r kers [])).

Section SP.
Variable F : ofield.
Add Field Fsp : (f_field F).
Notation T := (tensor F).

Lemma evened_prodt A (u v u' v' : T) : shp v = shp u -> shp v' = shp u' -> evened A u u' -> evened A v v' -> evened A (prodt u v) (prodt u' v').
Proof.
  intros Hs Hs' [U1 [U2 U3]] [V1 [V2 V3]]. split; [exact U1|]. split; [exact U2|]. intros i Vi. cbn [prodt shp at_] in *. rewrite U3 by auto. rewrite V3 by congruence. now rewrite Hs.
Qed.
Lemma blur_periodize fuel junk fuel' junk' (b b' : pool F) (x x' z z' : T) cax cax' al kers p p' psh osh ws psh' osh' ws' A :
  on_axes x cax al -> built (length al) kers (repeat 1 (length al)) (Some p) b -> blur_call fuel x al kers (Some p) -> blur_facts fuel junk b al kers (Some p) (shp x) psh osh ws ->
  on_axes x' cax' al -> built (length al) kers (repeat 1 (length al)) (Some p') b' -> blur_call fuel' x' al kers (Some p') -> blur_facts fuel' junk' b' al kers (Some p') (shp x') psh' osh' ws' ->
  expand (length al) (p_mode p) = Some (repeat MPeriodize (length al)) -> expand (length al) (p_mode p') = Some (repeat MCircular (length al)) ->
  grown_axes al kers A -> shp z = shp x -> shp z' = shp x' -> evened A z z' ->
  osh' = osh /\ forall j, valid osh j -> blur_at fuel junk al kers (Some p) ws z j = blur_at fuel' junk' al kers (Some p') ws' z' j.
Proof.
  intros OA B BC BF OA' B' BC' BF' Em Em' [A1 A2] Hz Hz' Ev.
  pose proof (bf_blurs _ _ _ _ _ _ _ _ _ _ BF) as BL. pose proof (bf_blurs _ _ _ _ _ _ _ _ _ _ BF') as BL'.
  destruct BC as [ms SC]. destruct BC' as [ms' SC'].
  assert (SZ : same_call F fuel p z (AxSeq (map Z.of_nat al)) al ms kers (repeat 1 (length al))).
  { destruct SC. constructor; auto; unfold ndim in *; rewrite ?Hz; auto. destruct sc_axes; split; unfold ndim in *; rewrite ?Hz; auto. }
  assert (SZ' : same_call F fuel' p' z' (AxSeq (map Z.of_nat al)) al ms' kers (repeat 1 (length al))).
  { destruct SC'. constructor; auto; unfold ndim in *; rewrite ?Hz'; auto. destruct sc_axes; split; unfold ndim in *; rewrite ?Hz'; auto. }
  assert (ms = repeat MPeriodize (length al)) by (pose proof (pf_mode _ _ _ (sc_padder F _ _ _ _ _ _ _ _ SC)); congruence).
  assert (ms' = repeat MCircular (length al)) by (pose proof (pf_mode _ _ _ (sc_padder F _ _ _ _ _ _ _ _ SC')); congruence). subst ms ms'.
  destruct (filter_as_circular F fuel junk fuel' junk' b b' z z' _ _ al kers p p' A B B' SZ SZ' A1 A2 Ev) as [y [y' [Y [Y' [[Sy Vy] Sy']]]]].
  destruct (bl_run _ _ _ _ _ _ _ BL b z (mlike_refl F _) Hz) as [b1 [t [R1 [_ [_ [St Vt]]]]]]. rewrite R1 in Y. cbn in Y. injection Y as <-.
  destruct (bl_run _ _ _ _ _ _ _ BL' b' z' (mlike_refl F _) Hz') as [b2 [t' [R2 [_ [_ [St' Vt']]]]]]. rewrite R2 in Y'. cbn in Y'. injection Y' as <-.
  split; [congruence|]. intros j Vj. rewrite <- Vt by auto. rewrite Vy by congruence. apply Vt'. congruence.
Qed.

Theorem ssim_periodize fuel junk fuel' junk' (g g' : ssim F) (x y x' y' : T) cax cax' rax rax' al rl kers p p' A :
  ssim_call fuel g x y cax rax al rl kers (Some p) -> ssim_call fuel' g' x' y' cax' rax' al rl kers (Some p') ->
  expand (length al) (p_mode p) = Some (repeat MPeriodize (length al)) -> expand (length al) (p_mode p') = Some (repeat MCircular (length al)) ->
  same_settings F g g' -> ss_crop g' = ss_crop g -> grown_axes al kers A -> evened A x x' -> evened A y y' ->
  same_scores (snd (ssim_forward (sep_forward fuel junk) x y cax rax g)) (snd (ssim_forward (sep_forward fuel' junk') x' y' cax' rax' g')).
Proof.
  intros C C' Em Em' SS Cr GA Ex Ey. pose proof (sl_shape _ _ _ _ _ _ _ _ _ _ C) as Hs. pose proof (sl_shape _ _ _ _ _ _ _ _ _ _ C') as Hs'.
  destruct (ssim_main F fuel junk g x y cax rax al rl kers (Some p) C) as [psh [osh [ws [c [BF [Sc [_ M]]]]]]].
  destruct (ssim_main F fuel' junk' g' x' y' cax' rax' al rl kers (Some p') C') as [psh' [osh' [ws' [c' [BF' [Sc' [_ M']]]]]]].
  cbv zeta in M, M'.
  pose proof (fun z z' => blur_periodize fuel junk fuel' junk' (ss_blur g) (ss_blur g') x x' z z' cax cax' al kers p p' psh osh ws psh' osh' ws' A
    (sl_content _ _ _ _ _ _ _ _ _ _ C) (sl_blur _ _ _ _ _ _ _ _ _ _ C) (sl_call _ _ _ _ _ _ _ _ _ _ C) BF
    (sl_content _ _ _ _ _ _ _ _ _ _ C') (sl_blur _ _ _ _ _ _ _ _ _ _ C') (sl_call _ _ _ _ _ _ _ _ _ _ C') BF' Em Em' GA) as BP.
  destruct (BP x x' eq_refl eq_refl Ex) as [Eo E1]. destruct (BP y y' Hs Hs' Ey) as [_ E2].
  destruct (BP (prodt x x) (prodt x' x') eq_refl eq_refl (evened_prodt A x x x' x' eq_refl eq_refl Ex Ex)) as [_ E11].
  destruct (BP (prodt y y) (prodt y' y') Hs Hs' (evened_prodt A y y y' y' eq_refl eq_refl Ey Ey)) as [_ E22].
  destruct (BP (prodt x y) (prodt x' y') eq_refl eq_refl (evened_prodt A x y x' y' Hs Hs' Ex Ey)) as [_ E12]. clear BP. subst osh'.
  destruct SS as [K1 [K2 Sa]].
  assert (Ec : c' = c).
  { destruct (scale_ok F g (length al) kers _ _ (sl_blur _ _ _ _ _ _ _ _ _ _ C) (sl_scale _ _ _ _ _ _ _ _ _ _ C)) as [c1 [P1 [_ Q1]]].
    destruct (scale_ok F g' (length al) kers _ _ (sl_blur _ _ _ _ _ _ _ _ _ _ C') (sl_scale _ _ _ _ _ _ _ _ _ _ C')) as [c2 [P2 [_ Q2]]].
    rewrite P1 in Sc by apply map_length. rewrite P2 in Sc' by apply map_length. injection Sc as <-. injection Sc' as <-. rewrite Q1, Q2. rewrite Sa. reflexivity. }
  subst c'.
  assert (Ew : ws' = ws).
  { destruct (bf_len _ _ _ _ _ _ _ _ _ _ BF) as [_ [Lw Lk]]. destruct (bf_len _ _ _ _ _ _ _ _ _ _ BF') as [_ [Lw' _]].
    pose proof (bf_before _ _ _ _ _ _ _ _ _ _ BF p eq_refl) as F1. pose proof (bf_before _ _ _ _ _ _ _ _ _ _ BF' p' eq_refl) as F2.
    apply nth_ext with (d := (0, 0)) (d' := (0, 0)); [congruence|]. intros r Hr.
    destruct (bf_ws _ _ _ _ _ _ _ _ _ _ BF r ltac:(lia)) as [_ [_ G1]]. destruct (bf_ws _ _ _ _ _ _ _ _ _ _ BF' r ltac:(lia)) as [_ [_ G2]].
    assert (G3 : fst (nth r ws' (0, 0)) = fst (nth r ws (0, 0))) by (rewrite <- !(map_nth fst); congruence).
    unfold pair_sum in *. rewrite (surjective_pairing (nth r ws' (0, 0))), (surjective_pairing (nth r ws (0, 0))). f_equal; lia. }
  subst ws'. rewrite K1, K2 in M'. rewrite Cr in M'.
  destruct M as [[s1 [f1' [c1 [-> [S1 [V1 [Co1 [P1 T1]]]]]]]]|[-> [j1 [Vj1 Z1]]]]; destruct M' as [[s2 [f2 [c2 [-> [S2 [V2 [Co2 [P2 T2]]]]]]]]|[-> [j2 [Vj2 Z2]]]].
  - cbn [same_scores].
    assert (TQ : teq f1' f2).
    { split; [congruence|]. intros j Vj. rewrite S1 in Vj. destruct (V1 j Vj) as [_ ->]. destruct (V2 j Vj) as [_ ->]. rewrite E1, E2, E11, E22, E12 by auto. reflexivity. }
    split; [|exact TQ].
    assert (Nc : ndim c1 = ndim x). { rewrite (co_nd _ _ _ _ _ Co1). unfold ndim. rewrite S1. eapply osh_len; eauto. }
    assert (Lf : forall a, In a al -> (a < ndim f1')%nat) by (intros a Ha; unfold ndim; rewrite S1, (osh_len F _ _ _ _ _ _ _ _ _ _ BF); eapply al_lt; eauto).
    assert (TC : teq c1 c2) by (eapply (crop_teq F al); eauto).
    pose proof (sl_reduce _ _ _ _ _ _ _ _ _ _ C) as OR.
    destruct (tmean_teq F c1 c2 rl false) as [t1 [t2 [Q1 [Q2 TT]]]]; auto; [rewrite Nc; apply (oa_in _ _ _ OR)|apply (oa_distinct _ _ _ OR)|]. congruence.
  - exfalso. destruct (V1 j2 Vj2) as [Q _]. apply Q. rewrite <- E1, <- E2, <- E11, <- E22 in Z2 by auto. exact Z2.
  - exfalso. destruct (V2 j1 Vj1) as [Q _]. apply Q. rewrite E1, E2, E11, E22 in Z1 by auto. exact Z1.
  - reflexivity.
Qed.

(** With crop_border the score is the unpadded score of the evened images. *)
Theorem ssim_periodize_crop fuel junk fuel0 junk0 (g g0 : ssim F) (x y x' y' : T) cax rax al rl kers p A score full :
  ssim_call fuel g x y cax rax al rl kers (Some p) -> ss_crop g = true ->
  expand (length al) (p_mode p) = Some (repeat MPeriodize (length al)) ->
  built (length al) kers (repeat 1 (length al)) None (ss_blur g0) -> same_settings F g g0 -> grown_axes al kers A -> evened A x x' -> evened A y y' ->
  snd (ssim_forward (sep_forward fuel junk) x y cax rax g) = Ok (score, full) ->
  exists score0 full0, snd (ssim_forward (sep_forward fuel0 junk0) x' y' cax rax g0) = Ok (score0, full0) /\ teq score score0 /\
    (forall r, (r < length al)%nat -> nth (nth r al 0%nat) (shp full0) 0 =
       nth (nth r al 0%nat) (shp x') 0 - Z.max 1 (klen (nth r kers [])) + 1) /\
    forall j, valid (shp full0) j -> valid (shp full) (inner al kers j) /\ at_ full (inner al kers j) = at_ full0 j.
Proof.
  intros C Hc Em B0 SS GA Ex Ey R.
  destruct (ssim_constructor F (ss_blur g) (Some (mkPadder (p_width p) (NItem MCircular) (p_const p) (p_end p) (p_stat p) (p_ndim p))) (Some p)
    (ss_K1 g) (ss_K2 g) (ss_sample g) (ss_crop g) (length al) kers (repeat 1 (length al)) (sl_blur _ _ _ _ _ _ _ _ _ _ C)) as [g' [_ [B' [_ [_ [K1' [K2' [Ks' Kc']]]]]]]].
  set (p' := mkPadder _ _ _ _ _ _) in B'.
  destruct Ex as [N1 [N2 N3]]. destruct Ey as [M1 [M2 M3]].
  assert (Gr : forall d, (d < ndim x)%nat -> nth d (shp x) 0 <= nth d (shp x') 0 <= nth d (shp x) 0 + 1).
  { intros d Hd. rewrite N2 by auto. pose proof (Z.mod_pos_bound (nth d (shp x) 0) 2 ltac:(lia)). destruct (memb d A); lia. }
  assert (C' : ssim_call (S fuel) g' x' y' cax rax al rl kers (Some p')).
  { destruct C as [Hs OA OR B BC CC CP CS]. cbn [blur_call] in BC. destruct BC as [ms [Q1 Q2 Q3 Q4 Q5 [P1 P2 P3 P4] Q7 Q8]].
    assert (Hs' : shp y' = shp x').
    { assert (L : ndim y' = ndim x') by (unfold ndim in *; congruence). apply list_ext with (d := 0); [exact L|]. intros d Hd. change (d < ndim y')%nat in Hd.
      rewrite M2, N2, Hs by lia. reflexivity. }
    assert (Gr2 : forall a, In a al -> 1 <= nth a (shp x) 0 /\ nth a (shp x) 0 <= nth a (shp x') 0).
    { intros a Ha. split; [auto|]. apply Gr. apply (oa_in _ _ _ OA _ Ha). }
    constructor; auto.
    - destruct OA; split; rewrite ?N1; auto.
    - destruct OR; split; rewrite ?N1; auto.
    - exists (repeat MCircular (length al)). constructor; rewrite ?N1; auto.
      + destruct Q1; split; rewrite ?N1; auto.
      + intros d Hd. specialize (Q3 d Hd). specialize (Gr d Hd). lia.
      + intros a Ha. destruct (Gr2 a Ha). lia.
      + constructor; cbn; auto.
      + intros m Hm. apply repeat_spec in Hm. subst m. exact I.
      + intros d k Hd Hk. specialize (Q8 d k Hd Hk). specialize (Gr d Hd). lia.
    - intros E r Hr. specialize (CC ltac:(congruence) r Hr). destruct (Gr2 (nth r al 0%nat) ltac:(apply nth_In; auto)). lia.
    - intros n Hn. destruct (In_nth _ _ 0 Hn) as [d [Hd <-]]. change (d < ndim x')%nat in Hd. rewrite N1 in Hd.
      specialize (Gr d Hd). specialize (CP (nth d (shp x) 0) ltac:(apply nth_In; auto)). lia.
    - rewrite Ks'. exact CS. }
  pose proof (ssim_periodize fuel junk (S fuel) junk g g' x y x' y' cax cax rax rax al rl kers p p' A C C' Em eq_refl
    ltac:(split; [auto|split; auto]) ltac:(congruence) GA ltac:(split; auto) ltac:(split; auto)) as Eq.
  rewrite R in Eq. destruct (snd (ssim_forward (sep_forward (S fuel) junk) x' y' cax rax g')) as [[s1 f1']|e] eqn:R'; [|destruct Eq].
  cbn [same_scores] in Eq. destruct Eq as [T1 T2].
  destruct SS as [S1 [S2 S3]].
  destruct (ssim_crop F (S fuel) junk fuel0 junk0 g' g0 x' y' cax rax al rl kers p' s1 f1' C') as [s0 [f00 [E0 [T0 [Sh0 [V0 _]]]]]]; auto.
  - congruence.
  - intros q ms r [= <-] E Hr. cbn [p_mode p' expand] in E. left. injection E as <-. rewrite nth_indep with (d' := MCircular) by (rewrite repeat_length; auto). rewrite nth_repeat. discriminate.
  - split; [congruence|split; congruence].
  - exists s0, f00. split; [exact E0|]. split; [eapply teq_trans; eauto|]. split; [exact Sh0|]. intros j Vj. destruct (V0 j Vj) as [W E]. destruct T2 as [T2 T3]. split; [congruence|].
    rewrite T3 by congruence. exact E.
Qed.
End SP.
