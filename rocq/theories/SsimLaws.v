(** SSIM of two pairs of images related pixel by pixel; change of contrast. *)
From Verif Require Export SsimCrop.
Open Scope Z_scope.

Section Laws.
Variable F : ofield.
Add Field Fslaws : (f_field F).
Notation T := (tensor F).

Lemma fmul_integral (u v : F) : fmul u v = f0 -> u = f0 \/ v = f0.
Proof.
  intros H. destruct (feq_dec F u f0) as [|N]; auto. right. transitivity (fdiv (fmul u v) u); [field; auto|]. rewrite H. field. auto.
Qed.
(** Numerators and denominators in a fixed nonzero ratio give the same result. *)
Theorem ssim_compare fuel junk (s s' : ssim F) (x y x' y' : T) cax rax al rl kers pd : ssim_call fuel s x y cax rax al rl kers pd ->
  ss_blur s' = ss_blur s -> ss_sample s' = ss_sample s -> ss_crop s' = ss_crop s -> shp x' = shp x -> shp y' = shp x ->
  (forall psh osh ws, blur_facts fuel junk (ss_blur s) al kers pd (shp x) psh osh ws -> forall c j, valid osh j ->
     let E := blur_at fuel junk al kers pd ws in exists q, q <> f0 /\
     ssim_num F c (fmul (ss_K1 s') (ss_K1 s')) (fmul (ss_K2 s') (ss_K2 s')) (E x' j) (E y' j) (E (prodt x' y') j) =
       fmul q (ssim_num F c (fmul (ss_K1 s) (ss_K1 s)) (fmul (ss_K2 s) (ss_K2 s)) (E x j) (E y j) (E (prodt x y) j)) /\
     ssim_den F c (fmul (ss_K1 s') (ss_K1 s')) (fmul (ss_K2 s') (ss_K2 s')) (E x' j) (E y' j) (E (prodt x' x') j) (E (prodt y' y') j) =
       fmul q (ssim_den F c (fmul (ss_K1 s) (ss_K1 s)) (fmul (ss_K2 s) (ss_K2 s)) (E x j) (E y j) (E (prodt x x) j) (E (prodt y y) j))) ->
  same_scores (snd (ssim_forward (sep_forward fuel junk) x y cax rax s)) (snd (ssim_forward (sep_forward fuel junk) x' y' cax rax s')).
Proof.
  intros [Hs OA OR B BC Cr Po Sc] Eb Es Ec Hx' Hy' H.
  destruct (blur_ok F fuel junk (ss_blur s) x cax al kers pd OA B BC) as [psh [osh [ws BF]]].
  destruct (scale_ok F s (length al) kers _ pd B Sc) as [c [Sc1 [Sc2 _]]]. specialize (Sc1 (map Z.of_nat al) (map_length _ _)).
  assert (Sc' : scale_factor s' (map Z.of_nat al) = Ok c). { rewrite <- Sc1. unfold scale_factor. now rewrite Eb, Es. }
  specialize (H psh osh ws BF c). cbv zeta in H.
  pose proof (bf_blurs _ _ _ _ _ _ _ _ _ _ BF) as BL. assert (M' : mlike F (ss_blur s) (ss_blur s')) by (rewrite Eb; apply mlike_refl).
  destruct (ssim_full_run F _ _ _ _ _ _ _ BL s x y c (mlike_refl F _) eq_refl Hs Sc1) as [s1 [G1 R1]].
  destruct (ssim_full_run F _ _ _ _ _ _ _ BL s' x' y' c M' Hx' Hy' Sc') as [s2 [G2 R2]].
  unfold ssim_forward, sbind, ret. rewrite Hs, Hx', Hy', !seqb_refl. cbn [assertb].
  assert (Nx : ndim x' = ndim x) by (unfold ndim; congruence). rewrite Nx.
  rewrite (oa_args _ _ _ OA), (oa_args _ _ _ OR).
  destruct R1 as [[f1' [-> [S1 V1]]]|[-> [j1 [Vj1 Z1]]]]; destruct R2 as [[f2 [-> [S2 V2]]]|[-> [j2 [Vj2 Z2]]]].
  - destruct (crop_run F fuel junk (ss_blur s) al kers pd (shp x) psh osh ws BF Po s s1 f1' G1 S1) as [c1 [-> [Co1 Pc1]]]; auto. { intros ->. exact BC. }
    destruct (crop_run F fuel junk (ss_blur s) al kers pd (shp x) psh osh ws BF Po s' s2 f2 G2 S2) as [c2 [-> [Co2 Pc2]]]; auto. { intros ->. exact BC. } { rewrite Ec. exact Cr. }
    rewrite Ec in Co2.
    assert (TQ : teq f1' f2).
    { split; [congruence|]. intros j Vj. rewrite S1 in Vj. destruct (V1 j Vj) as [D1 ->]. destruct (V2 j Vj) as [D2 ->].
      destruct (H j Vj) as [q [Hq [-> ->]]]. field. auto. }
    assert (Nc : ndim c1 = ndim x). { rewrite (co_nd _ _ _ _ _ Co1). unfold ndim. rewrite S1. eapply osh_len; eauto. }
    assert (Lf : forall a, In a al -> (a < ndim f1')%nat) by (intros a Ha; unfold ndim; rewrite S1, (osh_len _ _ _ _ _ _ _ _ _ _ _ BF); eapply al_lt; eauto).
    destruct (tmean_teq F c1 c2 rl false) as [t1 [t2 [-> [-> TT]]]]; auto; [rewrite Nc; apply (oa_in _ _ _ OR)|apply (oa_distinct _ _ _ OR)|eapply crop_teq; eauto|].
    cbn [snd same_scores]. auto.
  - exfalso. destruct (V1 j2 Vj2) as [Q _]. apply Q. destruct (H j2 Vj2) as [q [Hq [_ Hd]]]. rewrite Hd in Z2.
    apply fmul_integral in Z2. destruct Z2 as [Z2|Z2]; [contradiction|exact Z2].
  - exfalso. destruct (V2 j1 Vj1) as [Q _]. apply Q. destruct (H j1 Vj1) as [q [Hq [_ ->]]]. rewrite Z1. ring.
  - reflexivity.
Qed.

Lemma blur_comb fuel junk b al kers pd sh psh osh ws : blur_facts (F := F) fuel junk b al kers pd sh psh osh ws ->
  match pd with None => True | Some p => every_axis (length al) p linear_mode end ->
  forall j c d u v w, valid osh j -> shp u = sh -> combination c d u v w ->
    blur_at fuel junk al kers pd ws w j = fadd (fmul c (blur_at fuel junk al kers pd ws u j)) (fmul d (blur_at fuel junk al kers pd ws v j)).
Proof.
  intros BF LM j c d u v w Vj Hu C. destruct (bf_lin _ _ _ _ _ _ _ _ _ _ BF LM c d u v w Hu C) as [S1 [S2 V]]. unfold blur_at, correlation.
  rewrite <- !bsum_mul, <- bsum_add. apply bsum_ext. intros o Vo. rewrite V by (rewrite (bf_psh _ _ _ _ _ _ _ _ _ _ BF) by auto; eapply place_in; eauto). ring.
Qed.
(** Both images times a, with K1 and K2 times a (or minus a). *)
Theorem ssim_scale fuel junk (s s' : ssim F) (x y x' y' : T) a cax rax al rl kers pd : ssim_call fuel s x y cax rax al rl kers pd ->
  match pd with None => True | Some p => every_axis (length al) p linear_mode end -> a <> f0 ->
  ss_blur s' = ss_blur s -> ss_sample s' = ss_sample s -> ss_crop s' = ss_crop s ->
  fmul (ss_K1 s') (ss_K1 s') = fmul (fmul a a) (fmul (ss_K1 s) (ss_K1 s)) -> fmul (ss_K2 s') (ss_K2 s') = fmul (fmul a a) (fmul (ss_K2 s) (ss_K2 s)) ->
  shp x' = shp x -> (forall i, valid (shp x) i -> at_ x' i = fmul a (at_ x i)) ->
  shp y' = shp y -> (forall i, valid (shp y) i -> at_ y' i = fmul a (at_ y i)) ->
  same_scores (snd (ssim_forward (sep_forward fuel junk) x y cax rax s)) (snd (ssim_forward (sep_forward fuel junk) x' y' cax rax s')).
Proof.
  intros SC LM Ha Eb Es Ec K1 K2 Sx Vx Sy Vy. pose proof (sl_shape _ _ _ _ _ _ _ _ _ _ SC) as Hs. eapply ssim_compare; eauto; [congruence|].
  intros psh osh ws BF c j Vj E. exists (fmul (fmul a a) (fmul a a)).
  assert (Haa : fmul a a <> f0) by (intros Z; apply fmul_integral in Z; destruct Z; auto).
  split; [intros Z; apply fmul_integral in Z; destruct Z; auto|].
  assert (Q : forall k u w, shp u = shp x -> shp w = shp x -> (forall i, valid (shp x) i -> at_ w i = fmul k (at_ u i)) -> E w j = fmul k (E u j)).
  { intros k u w Hu Hw H. unfold E. rewrite (blur_comb _ _ _ _ _ _ _ _ _ _ BF LM j k f0 u u w Vj Hu); [ring|]. split; [auto|]. split; [congruence|]. intros i Vi. rewrite H by congruence. ring. }
  rewrite Hs in Vy. rewrite K1, K2, (Q a x x'), (Q a y y'), (Q (fmul a a) (prodt x y) (prodt x' y')), (Q (fmul a a) (prodt x x) (prodt x' x')), (Q (fmul a a) (prodt y y) (prodt y' y')); auto; try (cbn; congruence);
    try (intros i Vi; cbn; rewrite ?Vx, ?Vy by auto; ring).
  unfold ssim_num, ssim_den, cs_num, cs_den, lum_den. split; ring.
Qed.
End Laws.
