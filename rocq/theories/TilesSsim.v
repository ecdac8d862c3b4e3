(** The SSIM map of a tile is a tile of the SSIM map. *)
From Verif Require Export Tiles PickSsim.
Open Scope Z_scope.

Section TilesSsim.
Variable F : ofield.
Notation T := (tensor F).
Variable off : nat -> Z.

Lemma blur_tile fuel junk (b : pool F) (x x' z z' : T) cax al kers psh osh ws psh' osh' ws' : on_axes x cax al -> built (length al) kers (repeat 1 (length al)) None b ->
  blur_call fuel x' al kers None ->
  blur_facts fuel junk b al kers None (shp x) psh osh ws -> blur_facts fuel junk b al kers None (shp x') psh' osh' ws' ->
  shp z = shp x -> shp z' = shp x' -> tile off z z' ->
  length osh' = length osh /\ (forall d, (d < length osh)%nat -> 0 <= off d /\ nth d osh' 0 + off d <= nth d osh 0) /\
  forall j, valid osh' j -> valid osh (moved off j) /\ blur_at fuel junk al kers None ws' z' j = blur_at fuel junk al kers None ws z (moved off j).
Proof.
  intros OA B BC' BF BF' Hz Hz' P. pose proof (bf_blurs _ _ _ _ _ _ _ _ _ _ BF) as BL. pose proof (bf_blurs _ _ _ _ _ _ _ _ _ _ BF') as BL'.
  assert (OZ : on_axes z (AxSeq (map Z.of_nat al)) al). { apply on_axes_seq with (ax := cax). destruct OA as [O1 O2 O3]. unfold ndim in *. split; unfold ndim; rewrite ?Hz; auto. }
  assert (Q : exists y y', snd (sep_forward fuel junk b z (AxSeq (map Z.of_nat al))) = Ok y /\ snd (sep_forward fuel junk b z' (AxSeq (map Z.of_nat al))) = Ok y' /\ tile off y y').
  { apply (pool_valid_tile F fuel junk fuel junk b off off z z' (AxSeq (map Z.of_nat al)) al kers (repeat 1 (length al))); auto.
    - rewrite Hz'. exact BC'.
    - destruct (built_par F _ _ _ _ _ B) as [[L1 _] _]. split; auto. intros r Hr. rewrite unit_stride by auto. lia. }
  destruct Q as [y [y' [Y [Y' TY]]]]. pose proof TY as (Ny & By & Vy).
  destruct (bl_run _ _ _ _ _ _ _ BL b z (mlike_refl F _) Hz) as [b1 [t [R1 [_ [_ [St Vt]]]]]]. rewrite R1 in Y. cbn in Y. injection Y as <-.
  destruct (bl_run _ _ _ _ _ _ _ BL' b z' (mlike_refl F _) Hz') as [b2 [t' [R2 [_ [_ [St' Vt']]]]]]. rewrite R2 in Y'. cbn in Y'. injection Y' as <-.
  unfold ndim in *. rewrite St, St' in *. split; auto. split; auto. intros j Vj.
  assert (Vm : valid osh (moved off j)). { rewrite <- St. apply (moved_valid F off t t'); auto. now rewrite St'. }
  split; auto. rewrite <- Vt' by auto. rewrite Vy by auto. apply Vt. auto.
Qed.

Theorem ssim_tile fuel junk (s : ssim F) (x y x' y' : T) cax rax al rl kers score full :
  ssim_call fuel s x y cax rax al rl kers None -> ssim_call fuel s x' y' cax rax al rl kers None ->
  tile off x x' -> tile off y y' ->
  snd (ssim_forward (sep_forward fuel junk) x y cax rax s) = Ok (score, full) ->
  exists score' full', snd (ssim_forward (sep_forward fuel junk) x' y' cax rax s) = Ok (score', full') /\ tile off full full'.
Proof.
  intros SC SC' Px Py. pose proof SC as [Hs OA OR B BC Cr Po Sc]. pose proof SC' as [Hs' OA' OR' B' BC' Cr' Po' _]. pose proof Px as (Nx & _ & Vx). pose proof Py as (Ny & _ & Vy).
  destruct (blur_ok F fuel junk (ss_blur s) x cax al kers None OA B BC) as [psh [osh [ws BF]]].
  destruct (blur_ok F fuel junk (ss_blur s) x' cax al kers None OA' B BC') as [psh' [osh' [ws' BF']]].
  destruct (scale_ok F s (length al) kers _ None B Sc) as [c [Sc1 [Sc2 _]]]. specialize (Sc1 (List.map Z.of_nat al) (map_length _ _)).
  pose proof (bf_blurs _ _ _ _ _ _ _ _ _ _ BF) as BL. pose proof (bf_blurs _ _ _ _ _ _ _ _ _ _ BF') as BL'.
  destruct (ssim_full_run F _ _ _ _ _ _ _ BL s x y c (mlike_refl F _) eq_refl Hs Sc1) as [s1 [G1 R1]].
  destruct (ssim_full_run F _ _ _ _ _ _ _ BL' s x' y' c (mlike_refl F _) eq_refl Hs' Sc1) as [s2 [G2 R2]].
  unfold ssim_forward, sbind, ret. rewrite Hs', Hs, !seqb_refl. cbn [assertb]. rewrite Nx.
  rewrite (oa_args _ _ _ OA), (oa_args _ _ _ OR).
  assert (FP : forall u v u' v' : T, shp u = shp x -> shp v = shp x -> shp u' = shp x' -> shp v' = shp x' ->
    tile off u u' -> tile off v v' -> tile off (prodt u v) (prodt u' v')).
  { intros u v u' v' Hu Hv Hu' Hv' (U1 & U2 & U3) (V1 & V2 & V3). split; [exact U1|]. split; [exact U2|].
    intros i Vi. cbn [prodt shp at_] in *. rewrite U3 by auto. rewrite V3 by congruence. reflexivity. }
  pose proof (fun z z' => blur_tile fuel junk (ss_blur s) x x' z z' cax al kers psh osh ws psh' osh' ws' OA B BC' BF BF') as BFl.
  destruct (BFl x x' eq_refl eq_refl Px) as [So [Go E1]]. assert (E2 := proj2 (proj2 (BFl y y' Hs Hs' Py))).
  assert (E11 := proj2 (proj2 (BFl (prodt x x) (prodt x' x') eq_refl eq_refl (FP x x x' x' eq_refl eq_refl eq_refl eq_refl Px Px)))).
  assert (E22 := proj2 (proj2 (BFl (prodt y y) (prodt y' y') Hs Hs' (FP y y y' y' Hs Hs Hs' Hs' Py Py)))).
  assert (E12 := proj2 (proj2 (BFl (prodt x y) (prodt x' y') eq_refl eq_refl (FP x y x' y' eq_refl Hs eq_refl Hs' Px Py)))). clear BFl.
  destruct R1 as [[f1' [-> [S1 V1]]]|[-> _]]; [|intros; discriminate].
  destruct R2 as [[f2 [-> [S2 V2]]]|[_ [j2 [Vj2 Z2]]]].
  2:{ exfalso. destruct (E1 _ Vj2) as [VP X1]. destruct (V1 _ VP) as [Q _]. apply Q.
      rewrite X1, (proj2 (E2 _ Vj2)), (proj2 (E11 _ Vj2)), (proj2 (E22 _ Vj2)) in Z2. exact Z2. }
  destruct (crop_run F fuel junk (ss_blur s) al kers None (shp x) psh osh ws BF Po s s1 f1' G1 S1) as [c1 [-> [Co1 Pc1]]]; auto.
  destruct (crop_run F fuel junk (ss_blur s) al kers None (shp x') psh' osh' ws' BF' Po' s s2 f2 G2 S2) as [c2 [-> [Co2 Pc2]]]; auto.
  assert (Lo : length osh = ndim x) by (eapply (osh_len F); eauto).
  assert (Nc : ndim c1 = ndim x) by (rewrite (co_nd _ _ _ _ _ Co1); unfold ndim; rewrite S1; exact Lo).
  assert (Nc2 : ndim c2 = ndim x) by (rewrite (co_nd _ _ _ _ _ Co2); unfold ndim; rewrite S2; unfold ndim in *; lia).
  assert (Pc : forall a, In a (reduced (ndim x) rl) -> 0 < nth a (shp c1) 0).
  { intros a Ha. assert (a < ndim c1)%nat by (rewrite Nc; eapply reduced_in; eauto; apply (oa_in _ _ _ OR)).
    assert (1 <= nth a (shp c1) 0); [|lia]. apply Pc1, nth_In. auto. }
  assert (Pcc : forall a, In a (reduced (ndim x) rl) -> 0 < nth a (shp c2) 0).
  { intros a Ha. assert (a < ndim c2)%nat by (rewrite Nc2; eapply reduced_in; eauto; apply (oa_in _ _ _ OR)).
    assert (1 <= nth a (shp c2) 0); [|lia]. apply Pc2, nth_In. auto. }
  destruct (tmean_ok F c1 rl false) as [t1 [T1 _]]; [rewrite Nc; apply (oa_in _ _ _ OR)|apply (oa_distinct _ _ _ OR)|now rewrite Nc|].
  destruct (tmean_ok F c2 rl false) as [t2 [T2 _]]; [rewrite Nc2; apply (oa_in _ _ _ OR)|apply (oa_distinct _ _ _ OR)|now rewrite Nc2|].
  rewrite T1, T2. cbn [snd]. intros R. injection R as <- <-. exists t2, f2. split; auto.
  split; [unfold ndim in *; congruence|]. split; [unfold ndim; rewrite S1, S2; auto|].
  intros j Vj. rewrite S2 in Vj. destruct (E1 j Vj) as [VP X1]. destruct (V2 j Vj) as [_ ->]. destruct (V1 _ VP) as [_ ->].
  rewrite X1, (proj2 (E2 _ Vj)), (proj2 (E11 _ Vj)), (proj2 (E22 _ Vj)), (proj2 (E12 _ Vj)). reflexivity.
Qed.
End TilesSsim.
