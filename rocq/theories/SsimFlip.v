(** SSIM of mirror images. *)
From Verif Require Export SsimLaws ReduceFlip.
Open Scope Z_scope.

(** The blur treats both directions along axis a alike: palindromic kernels; with a same padder also of
    odd length and with padding values that are the same on both sides. *)
Definition mirror_blur {F : ofield} (a : nat) (al : list nat) (kers : list (list F)) (pd : option (padder F)) (sh : list Z) : Prop :=
  (forall r, (r < length al)%nat -> nth r al 0%nat = a -> rev (nth r kers []) = nth r kers []) /\
  forall p, pd = Some p -> mirror_values a al p p /\
    forall r, (r < length al)%nat -> nth r al 0%nat = a -> (nth r kers [] = [] \/ klen (nth r kers []) mod 2 = 1) /\
      forall ms, expand (length al) (p_mode p) = Some ms -> nth r ms MUnknown = MPeriodize -> nth a sh 0 mod 2 = 0.
(** Both fail alike, or the second result is the mirror image of the first. *)
Definition mirrored_scores {F : ofield} (rl : list nat) (a : nat) (r1 r2 : res (tensor F * tensor F)) : Prop :=
  match r1, r2 with
  | Ok (s1, m1), Ok (s2, m2) => flipped_out rl a s1 s2 /\ flipped a m1 m2
  | Err e1, Err e2 => e1 = e2
  | _, _ => False
  end.

Section SFlip.
Variable F : ofield.
Add Field Fsflip : (f_field F).
Notation T := (tensor F).

Lemma blur_flip fuel junk (b : pool F) (x z z' : T) cax al kers pd psh osh ws a : on_axes x cax al -> built (length al) kers (repeat 1 (length al)) pd b ->
  blur_call fuel x al kers pd -> blur_facts fuel junk b al kers pd (shp x) psh osh ws -> mirror_blur a al kers pd (shp x) -> (a < ndim x)%nat ->
  shp z = shp x -> flipped a z z' ->
  forall j, valid osh j -> blur_at fuel junk al kers pd ws z' j = blur_at fuel junk al kers pd ws z (flip osh a j).
Proof.
  intros OA B BC BF [Hrev Hp] Ha Hz Fl j Vj. pose proof (bf_blurs _ _ _ _ _ _ _ _ _ _ BF) as BL. pose proof Fl as [Sz _].
  assert (OZ : on_axes z (AxSeq (map Z.of_nat al)) al). { apply on_axes_seq with (ax := cax). destruct OA as [O1 O2 O3]. unfold ndim in *. split; unfold ndim; rewrite ?Hz; auto. }
  assert (Nz : ndim z = ndim x) by (unfold ndim; congruence).
  assert (Q : exists y y', snd (sep_forward fuel junk b z (AxSeq (map Z.of_nat al))) = Ok y /\ snd (sep_forward fuel junk b z' (AxSeq (map Z.of_nat al))) = Ok y' /\ flipped a y y').
  { destruct pd as [p|].
    - destruct (Hp p eq_refl) as [MV Hk]. destruct BC as [ms SC].
      apply (filter_mirror F fuel junk junk b a z z' (AxSeq (map Z.of_nat al)) al kers p ms); auto; [| |lia].
      + destruct SC. constructor; auto; unfold ndim in *; rewrite ?Hz; auto.
      + intros r Hr Er. destruct (Hk r Hr Er) as [K1 K2]. split; auto. split; auto. rewrite Hz. apply K2. now destruct (sc_padder F _ _ _ _ _ _ _ _ SC).
    - apply (pool_valid_mirror F fuel junk junk b b a z z' (AxSeq (map Z.of_nat al)) al kers kers (repeat 1 (length al))); auto; [|intros r Hr _ _; rewrite nth_repeat; apply Z.mod_1_r|lia|].
      + rewrite Hz. exact BC.
      + intros r Hr. destruct (Nat.eqb_spec (nth r al 0%nat) a) as [E|E]; auto. symmetry. now apply Hrev. }
  destruct Q as [y [y' [Y [Y' [Sy Vy]]]]].
  destruct (bl_run _ _ _ _ _ _ _ BL b z (mlike_refl F _) Hz) as [b1 [t [R1 [_ [_ [St Vt]]]]]]. rewrite R1 in Y. cbn in Y. injection Y as <-.
  destruct (bl_run _ _ _ _ _ _ _ BL b z' (mlike_refl F _) ltac:(congruence)) as [b2 [t' [R2 [_ [_ [St' Vt']]]]]]. rewrite R2 in Y'. cbn in Y'. injection Y' as <-.
  rewrite <- Vt' by auto. rewrite Vy by congruence. rewrite St. apply Vt. now apply valid_flip.
Qed.

Lemma crop_flip al cw (full full' c c' : T) a : NoDup al -> (forall d, In d al -> (d < ndim full)%nat) -> length cw = length al -> (a < ndim full)%nat ->
  (forall r, (r < length al)%nat -> nth r al 0%nat = a -> fst (nth r cw (0, 0)) = snd (nth r cw (0, 0))) ->
  flipped a full full' -> crop_of F al cw full c -> crop_of F al cw full' c' -> flipped a c c'.
Proof.
  intros N L Lw Ha Hw [S V] A B.
  assert (Sc : shp c = shp c') by (eapply (crop_shape_eq F al cw full full'); eauto). split; auto. intros j Vj.
  destruct (co_val _ _ _ _ _ B j ltac:(congruence)) as [W ->]. rewrite S in W. destruct (co_val _ _ _ _ _ A _ (valid_flip _ _ a Vj)) as [_ ->]. rewrite V by auto. f_equal.
  pose proof (co_nd _ _ _ _ _ A) as Nc. pose proof (valid_length _ _ Vj) as Lj. unfold ndim in *.
  assert (Lf : length (map fst cw) = length al) by now rewrite map_length.
  apply list_ext with (d := 0); [now rewrite upd_length, !place_length, upd_length|]. intros d _.
  assert (Ext : forall r, (r < length al)%nat -> nth r (map fst cw) 0 = fst (nth r cw (0, 0))) by (intros r Hr; now rewrite (map_nth fst cw (0, 0))).
  destruct (Nat.eq_dec d a) as [->|Hd].
  - rewrite nth_upd_eq by (rewrite place_length; lia). destruct (in_dec Nat.eq_dec a al) as [Hi|Hi].
    + destruct (In_pos a al 0%nat Hi) as [r [Hr Er]]. pose proof (co_shape _ _ _ _ _ A r Hr) as Es. specialize (Hw r Hr Er). rewrite Er in Es.
      assert (P : forall j', length j' = length j -> nth a (place al (repeat 1 (length al)) j' (map fst cw)) 0 = nth a j' 0 + fst (nth r cw (0, 0))).
      { intros j' Hj'. rewrite <- Er. rewrite place_nth; auto; rewrite ?repeat_length; auto; [|intros d Hd; rewrite Hj', Lj, Nc; auto]. rewrite nth_repeat, Ext by auto. lia. }
      rewrite !P by (auto; apply upd_length). rewrite nth_upd_eq by lia. rewrite Es. unfold pair_sum. lia.
    + rewrite !place_notin by auto. rewrite nth_upd_eq by lia. now rewrite (co_other _ _ _ _ _ A).
  - rewrite nth_upd_ne by auto. destruct (in_dec Nat.eq_dec d al) as [Hi|Hi].
    + destruct (In_pos d al 0%nat Hi) as [r [Hr <-]]. rewrite !place_nth; auto; rewrite ?repeat_length, ?upd_length, ?Lj; auto; try (rewrite Nc; auto). now rewrite nth_upd_ne by auto.
    + rewrite !place_notin by auto. now rewrite nth_upd_ne by auto.
Qed.

Theorem ssim_flip fuel junk (s : ssim F) (x y x' y' : T) cax rax al rl kers pd a : ssim_call fuel s x y cax rax al rl kers pd ->
  mirror_blur a al kers pd (shp x) -> (a < ndim x)%nat -> flipped a x x' -> flipped a y y' ->
  mirrored_scores (reduced (ndim x) rl) a (snd (ssim_forward (sep_forward fuel junk) x y cax rax s)) (snd (ssim_forward (sep_forward fuel junk) x' y' cax rax s)).
Proof.
  intros [Hs OA OR B BC Cr Po Sc] MB Ha Fx Fy. pose proof Fx as [Sx Vx]. pose proof Fy as [Sy Vy].
  destruct (blur_ok F fuel junk (ss_blur s) x cax al kers pd OA B BC) as [psh [osh [ws BF]]].
  destruct (scale_ok F s (length al) kers _ pd B Sc) as [c [Sc1 [Sc2 _]]]. specialize (Sc1 (map Z.of_nat al) (map_length _ _)).
  pose proof (bf_blurs _ _ _ _ _ _ _ _ _ _ BF) as BL.
  destruct (ssim_full_run F _ _ _ _ _ _ _ BL s x y c (mlike_refl F _) eq_refl Hs Sc1) as [s1 [G1 R1]].
  destruct (ssim_full_run F _ _ _ _ _ _ _ BL s x' y' c (mlike_refl F _) Sx ltac:(congruence) Sc1) as [s2 [G2 R2]].
  unfold ssim_forward, sbind, ret. rewrite Sy, Sx, Hs, !seqb_refl. cbn [assertb].
  assert (Nx : ndim x' = ndim x) by (unfold ndim; congruence). rewrite Nx.
  rewrite (oa_args _ _ _ OA), (oa_args _ _ _ OR).
  assert (FP : forall u v u' v' : T, shp u = shp x -> shp v = shp x -> flipped a u u' -> flipped a v v' -> flipped a (prodt u v) (prodt u' v')).
  { intros u v u' v' Hu Hv [U1 U2] [V1 V2]. split; [exact U1|]. intros i Vi. cbn [prodt shp at_] in *. rewrite U2 by auto. rewrite V2 by congruence. rewrite Hu, Hv. reflexivity. }
  pose proof (fun z z' => blur_flip fuel junk (ss_blur s) x z z' cax al kers pd psh osh ws a OA B BC BF MB Ha) as BFl.
  assert (E1 := BFl x x' eq_refl Fx). assert (E2 := BFl y y' Hs Fy).
  assert (E11 := BFl (prodt x x) _ eq_refl (FP x x x' x' eq_refl eq_refl Fx Fx)).
  assert (E22 := BFl (prodt y y) _ Hs (FP y y y' y' Hs Hs Fy Fy)).
  assert (E12 := BFl (prodt x y) _ eq_refl (FP x y x' y' eq_refl Hs Fx Fy)). clear BFl.
  assert (Lo : length osh = ndim x) by (eapply (osh_len F); eauto).
  destruct R1 as [[f1' [-> [S1 V1]]]|[-> [j1 [Vj1 Z1]]]]; destruct R2 as [[f2 [-> [S2 V2]]]|[-> [j2 [Vj2 Z2]]]].
  - destruct (crop_run F fuel junk (ss_blur s) al kers pd (shp x) psh osh ws BF Po s s1 f1' G1 S1) as [c1 [-> [Co1 Pc1]]]; auto. { intros ->. exact BC. }
    destruct (crop_run F fuel junk (ss_blur s) al kers pd (shp x) psh osh ws BF Po s s2 f2 G2 S2) as [c2 [-> [Co2 Pc2]]]; auto. { intros ->. exact BC. }
    assert (TQ : flipped a f1' f2).
    { split; [congruence|]. intros j Vj. rewrite S1 in *. destruct (V2 j Vj) as [_ ->]. destruct (V1 _ (valid_flip _ _ a Vj)) as [_ ->]. fold (flip osh a j).
      rewrite E1, E2, E11, E22, E12 by auto. reflexivity. }
    assert (Nf : ndim f1' = ndim x) by (unfold ndim; rewrite S1; exact Lo).
    assert (Nc : ndim c1 = ndim x) by (rewrite (co_nd _ _ _ _ _ Co1); exact Nf).
    destruct (bf_len _ _ _ _ _ _ _ _ _ _ BF) as [_ [Lw Lk]].
    assert (FC : flipped a c1 c2).
    { eapply (crop_flip al (crop_widths F (ss_crop s) pd al ws) f1' f2); eauto.
      - apply (oa_distinct _ _ _ OA).
      - rewrite Nf. apply (oa_in _ _ _ OA).
      - unfold crop_widths. destruct pd; [destruct (ss_crop s)|]; auto; apply repeat_length.
      - lia.
      - intros r Hr Er. unfold crop_widths. destruct pd as [p|]; [destruct (ss_crop s)|]; try (now rewrite nth_repeat).
        destruct (bf_ws _ _ _ _ _ _ _ _ _ _ BF r Hr) as [W1 [W2 W3]]. unfold pair_sum in W3.
        pose proof (bf_before _ _ _ _ _ _ _ _ _ _ BF p eq_refl) as WB.
        assert (W4 : fst (nth r ws (0, 0)) = klen (nth r kers []) / 2).
        { rewrite <- (map_nth fst ws (0, 0)), WB. change (fst (0, 0)) with 0. change 0 with (klen (@nil F) / 2) at 1. apply (map_nth (fun k => klen k / 2)). }
        destruct MB as [_ MB]. destruct (MB p eq_refl) as [_ Hk]. destruct (Hk r Hr Er) as [[K|K] _].
        + rewrite K in *. unfold klen in *. cbn in W3, W4. lia.
        + pose proof (Z.div_mod (klen (nth r kers [])) 2 ltac:(lia)). pose proof (klen_pos F (nth r kers [])). lia. }
    destruct (tmean_flip F c1 c2 rl a) as [t1 [t2 [-> [-> TT]]]]; auto; [rewrite Nc; apply (oa_in _ _ _ OR)|apply (oa_distinct _ _ _ OR)| |lia|].
    { intros d Hd. rewrite Nc in Hd. assert (d < ndim c1)%nat by (rewrite Nc; eapply reduced_in; eauto; apply (oa_in _ _ _ OR)).
      assert (1 <= nth d (shp c1) 0); [|lia]. apply Pc1, nth_In. auto. }
    cbn [snd mirrored_scores]. rewrite <- Nc. auto.
  - exfalso. destruct (V1 _ (valid_flip _ _ a Vj2)) as [Q _]. apply Q. fold (flip osh a j2). rewrite E1, E2, E11, E22 in Z2 by auto. exact Z2.
  - exfalso. pose proof (valid_flip _ _ a Vj1) as Vf. fold (flip osh a j1) in Vf. destruct (V2 _ Vf) as [Q _]. apply Q. rewrite E1, E2, E11, E22 by auto. rewrite flip_flip. exact Z1.
  - reflexivity.
Qed.
End SFlip.
