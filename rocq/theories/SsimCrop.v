(** SSIM with crop_border: the border removed is exactly what the padding has touched (C52). *)
From Verif Require Export SsimMain.
Open Scope Z_scope.

(** The index of the same pixel in the uncropped map. *)
Definition inner {F : ofield} (al : list nat) (kers : list (list F)) (j : list Z) : list Z :=
  place al (repeat 1 (length al)) j (map (fun k => klen k / 2) kers).

Section SC.
Variable F : ofield.
Add Field Fsc : (f_field F).
Notation T := (tensor F).

Lemma place_comm al j u o : NoDup al -> (forall a, In a al -> (a < length j)%nat) -> length u = length al -> length o = length al ->
  place al (repeat 1 (length al)) (place al (repeat 1 (length al)) j u) o = place al (repeat 1 (length al)) (place al (repeat 1 (length al)) j o) u.
Proof.
  intros N L Lu Lo. apply list_ext with (d := 0); [now rewrite !place_length|]. intros d _. destruct (in_dec Nat.eq_dec d al) as [Hi|Hi].
  - destruct (In_pos d al 0%nat Hi) as [r [Hr <-]]. rewrite !place_nth; rewrite ?place_length, ?repeat_length; auto. rewrite nth_repeat. lia.
  - now rewrite !place_notin by auto.
Qed.
Lemma eff_ones n (kers : list (list F)) : length kers = n -> map2 eff_stride kers (repeat 1 n) = repeat 1 n.
Proof.
  intros H. apply list_ext with (d := 1); [rewrite map2_length, repeat_length; lia|]. rewrite map2_length, repeat_length. intros i Hi.
  rewrite nth_map2 with (da := []) (db := 1) by (rewrite ?repeat_length; lia). rewrite nth_repeat. now destruct (nth i kers []).
Qed.

(** The padded blur, away from the border, is the blur without padding. *)
Lemma blur_inner fuel junk fuel0 junk0 b b0 al (kers : list (list F)) p sh psh osh ws psh0 osh0 ws0 (z : T) j :
  blur_facts fuel junk b al kers (Some p) sh psh osh ws -> blur_facts fuel0 junk0 b0 al kers None sh psh0 osh0 ws0 -> shp z = sh ->
  valid osh0 j -> blur_at fuel junk al kers (Some p) ws z (inner al kers j) = blur_at fuel0 junk0 al kers None ws0 z j.
Proof.
  intros A B Hz Vj. unfold blur_at, correlation. apply bsum_ext. intros o Vo. f_equal.
  destruct (bf_len _ _ _ _ _ _ _ _ _ _ A) as [E1 [E2 E3]]. rewrite !eff_ones by auto.
  pose proof (place_in F _ _ _ _ _ _ _ _ _ _ B j o Vj Vo) as P. rewrite eff_ones in P by auto.
  assert (Ps : psh0 = sh) by (rewrite <- Hz; rewrite <- (bf_psh _ _ _ _ _ _ _ _ _ _ B z Hz); reflexivity). rewrite Ps in P.
  cbn [pdimg]. rewrite <- (bf_keep _ _ _ _ _ _ _ _ _ _ A z _ Hz P).
  unfold inner. rewrite <- (bf_before _ _ _ _ _ _ _ _ _ _ A p eq_refl). f_equal. apply place_comm.
  - eapply al_nodup; eauto.
  - intros a Ha. rewrite (valid_length _ _ Vj). rewrite (osh_len F _ _ _ _ _ _ _ _ _ _ B). eapply (al_lt F); eauto.
  - now rewrite map_length.
  - rewrite (valid_length _ _ Vo), !map_length. auto.
Qed.

(** The same settings. *)
Definition same_settings (s s0 : ssim F) : Prop := ss_K1 s0 = ss_K1 s /\ ss_K2 s0 = ss_K2 s /\ ss_sample s0 = ss_sample s.

Lemma scale_same n (kers : list (list F)) sts pd pd0 (s s0 : ssim F) axes : built n kers sts pd (ss_blur s) -> built n kers sts pd0 (ss_blur s0) -> length axes = n -> ss_sample s0 = ss_sample s -> 
  (ss_sample s = true -> zprod (map klen kers) <> 1) -> scale_factor s0 axes = scale_factor s axes.
Proof.
  intros A B L E Z. destruct (scale_ok F s n kers sts pd A Z) as [c [C1 [_ C3]]]. destruct (scale_ok F s0 n kers sts pd0 B ltac:(now rewrite E)) as [c0 [D1 [_ D3]]].
  rewrite C1, D1 by auto. rewrite E in D3. congruence.
Qed.

(** What is left after the crop has the shape of the map without padding. *)
Lemma crop_shape fuel junk fuel0 junk0 b b0 al (kers : list (list F)) p sh psh osh ws psh0 osh0 ws0 (full cr : T) :
  blur_facts fuel junk b al kers (Some p) sh psh osh ws -> blur_facts fuel0 junk0 b0 al kers None sh psh0 osh0 ws0 -> (forall z : T, shp z = sh -> psh0 = sh) ->
  exact_widths (Some p) al sh -> shp full = osh -> crop_of F al ws full cr -> (forall r, (r < length al)%nat -> klen (nth r kers []) <= nth (nth r al 0%nat) sh 0) -> shp cr = osh0.
Proof.
  intros A B Q EW Sf Co Fit. apply list_ext with (d := 0).
  - pose proof (co_nd _ _ _ _ _ Co) as N. unfold ndim in N. rewrite N, Sf, (osh_len F _ _ _ _ _ _ _ _ _ _ A), (osh_len F _ _ _ _ _ _ _ _ _ _ B). reflexivity.
  - intros d _. destruct (in_dec Nat.eq_dec d al) as [Hi|Hi].
    + destruct (In_pos d al 0%nat Hi) as [r [Hr <-]]. rewrite (co_shape _ _ _ _ _ Co) by auto. rewrite Sf, (osh_al F _ _ _ _ _ _ _ _ _ _ A), (osh_al F _ _ _ _ _ _ _ _ _ _ B) by auto.
      destruct (bf_size _ _ _ _ _ _ _ _ _ _ A r Hr) as [e [-> [_ E0]]]. rewrite E0 by auto. rewrite (Q (mkT sh (fun _ => f0))) by reflexivity. lia.
    + rewrite (co_other _ _ _ _ _ Co), Sf, (osh_other F _ _ _ _ _ _ _ _ _ _ A), (osh_other F _ _ _ _ _ _ _ _ _ _ B) by auto. reflexivity.
Qed.

Theorem ssim_crop fuel junk fuel0 junk0 (s s0 : ssim F) (x y : T) cax rax al rl kers p score full :
  ssim_call fuel s x y cax rax al rl kers (Some p) -> ss_crop s = true -> exact_widths (Some p) al (shp x) ->
  built (length al) kers (repeat 1 (length al)) None (ss_blur s0) -> same_settings s s0 ->
  snd (ssim_forward (sep_forward fuel junk) x y cax rax s) = Ok (score, full) ->
  exists score0 full0, snd (ssim_forward (sep_forward fuel0 junk0) x y cax rax s0) = Ok (score0, full0) /\ teq score score0 /\
    (forall r, (r < length al)%nat -> nth (nth r al 0%nat) (shp full0) 0 = nth (nth r al 0%nat) (shp x) 0 - Z.max 1 (klen (nth r kers [])) + 1) /\
    (forall j, valid (shp full0) j -> valid (shp full) (inner al kers j) /\ at_ full (inner al kers j) = at_ full0 j) /\
    exists cr, snd (crop_border full (map Z.of_nat al) (fst (ssim_forward (sep_forward fuel junk) x y cax rax s))) = Ok cr /\ teq cr full0.
Proof.
  intros [Hs OA OR B BC Cr Po Sc] Hc EW B0 [K1 [K2 Ks]] R.
  assert (BC0 : blur_call fuel0 x al kers (None : option (padder F))) by exact (Cr Hc).
  destruct (blur_ok F fuel junk (ss_blur s) x cax al kers (Some p) OA B BC) as [psh [osh [ws BF]]].
  destruct (blur_ok F fuel0 junk0 (ss_blur s0) x cax al kers None OA B0 BC0) as [psh0 [osh0 [ws0 BF0]]].
  destruct (scale_ok F s (length al) kers _ (Some p) B Sc) as [c [Sc1 [Sc2 _]]]. specialize (Sc1 (map Z.of_nat al) (map_length _ _)).
  pose proof (scale_same (length al) kers _ _ _ s s0 (map Z.of_nat al) B B0 (map_length _ _) Ks Sc) as Sc0. rewrite Sc1 in Sc0.
  pose proof (bf_blurs _ _ _ _ _ _ _ _ _ _ BF) as BL. pose proof (bf_blurs _ _ _ _ _ _ _ _ _ _ BF0) as BL0.
  destruct (ssim_full_run F _ _ _ _ _ _ _ BL s x y c (mlike_refl F _) eq_refl Hs Sc1) as [s1 [G1 R1]].
  destruct (ssim_full_run F _ _ _ _ _ _ _ BL0 s0 x y c (mlike_refl F _) eq_refl Hs Sc0) as [s2 [G2 R2]].
  revert R. unfold ssim_forward, sbind, ret. rewrite Hs, seqb_refl. cbn [assertb].
  rewrite (oa_args _ _ _ OA), (oa_args _ _ _ OR).
  destruct R1 as [[f1' [-> [S1 V1]]]|[-> _]]; [|discriminate].
  destruct (crop_run F fuel junk (ss_blur s) al kers (Some p) (shp x) psh osh ws BF Po s s1 f1' G1 S1) as [c1 [Ec1 [Co1 Pc1]]]; [intros Q0; discriminate Q0|exact Cr|].
  rewrite Ec1. cbn [crop_widths] in Co1. rewrite Hc in Co1.
  assert (Shc : shp c1 = osh0).
  { eapply crop_shape; eauto. intros z Hz. symmetry. rewrite <- Hz. rewrite <- (bf_psh _ _ _ _ _ _ _ _ _ _ BF0 z Hz). reflexivity. }
  assert (Inn : forall j, valid osh0 j -> valid osh (inner al kers j) /\ at_ c1 j = at_ f1' (inner al kers j)).
  { intros j Vj. rewrite <- Shc in Vj. destruct (co_val _ _ _ _ _ Co1 j Vj) as [W E]. rewrite (bf_before _ _ _ _ _ _ _ _ _ _ BF p eq_refl) in W, E. rewrite <- S1. split; auto. }
  assert (Eq : forall z j, shp z = shp x -> valid osh0 j -> blur_at fuel junk al kers (Some p) ws z (inner al kers j) = blur_at fuel0 junk0 al kers None ws0 z j).
  { intros z j Hz Vj. eapply blur_inner; eauto. }
  rewrite K1, K2 in R2.
  destruct R2 as [[f2 [-> [S2 V2]]]|[_ [j2 [Vj2 Z2]]]].
  2:{ exfalso. destruct (Inn j2 Vj2) as [Vi _]. destruct (V1 _ Vi) as [Q _]. apply Q. rewrite !Eq by auto. exact Z2. }
  destruct (crop_run F fuel0 junk0 (ss_blur s0) al kers None (shp x) psh0 osh0 ws0 BF0 Po s0 s2 f2 G2 S2) as [c2 [Ec2 [Co2 Pc2]]]; auto.
  rewrite Ec2. cbn [crop_widths] in Co2.
  assert (Tf : teq c1 f2).
  { split; [congruence|]. intros j Vj. rewrite Shc in Vj. destruct (Inn j Vj) as [Vi ->]. destruct (V1 _ Vi) as [_ ->]. destruct (V2 _ Vj) as [_ ->]. rewrite !Eq by auto. reflexivity. }
  assert (Lf : forall a, In a al -> (a < ndim f2)%nat) by (intros a Ha; unfold ndim; rewrite S2, (osh_len _ _ _ _ _ _ _ _ _ _ _ BF0); eapply (al_lt F); eauto).
  assert (T2 : teq f2 c2). { pose proof (crop_of_refl F al f2 (al_nodup F _ _ _ _ _ _ _ _ _ _ BF0) Lf) as Cr0. eapply (crop_teq F); eauto. apply teq_refl. }
  assert (Nc : ndim c1 = ndim x). { unfold ndim. rewrite Shc. eapply (osh_len F); eauto. }
  destruct (tmean_teq F c1 c2 rl false) as [t1 [t2 [-> [-> TT]]]]; auto; [rewrite Nc; apply (oa_in _ _ _ OR)|apply (oa_distinct _ _ _ OR)|eapply teq_trans; eauto|].
  cbn [fst snd]. intros R. injection R as <- <-. exists t2, f2. split; auto. split; auto. split; [|split].
  - intros r Hr. rewrite S2, (osh_al F _ _ _ _ _ _ _ _ _ _ BF0) by auto. replace psh0 with (shp x); auto. rewrite <- (bf_psh _ _ _ _ _ _ _ _ _ _ BF0 x eq_refl). reflexivity.
  - intros j Vj. rewrite S2 in Vj. destruct (Inn j Vj) as [Vi E]. rewrite S1. split; auto. rewrite <- E. apply Tf. congruence.
  - exists c1. rewrite Ec1. cbn [snd]. auto.
Qed.

(** A filter with given kernels. *)
Lemma built_exists (kers : list (list F)) : exists m, built (length kers) kers (repeat 1 (length kers)) None m.
Proof.
  set (n := length kers).
  assert (M : mapM (fun i => x <- nds_get (NItem (Some 1)) i ;; y <- nds_get (len_spec (NList kers)) i ;; Ok (match x with None => y | Some s => s end)) (zrange (Z.of_nat n)) = Ok (repeat 1 n)).
  { rewrite mapM_ok with (g := fun _ => 1).
    - f_equal. replace n with (length (map (fun _ => 1) (zrange (Z.of_nat n)))) at 2 by now rewrite map_length, zrange_length, Nat2Z.id.
      apply Forall_eq_repeat. apply Forall_forall. intros a Ha. apply in_map_iff in Ha. now destruct Ha as [_ [<- _]].
    - intros i Hi. apply In_zrange in Hi. cbn [nds_get bind len_spec]. rewrite <- (Z2Nat.id i) by lia.
      rewrite (pyidx_nth _ _ 0) by (rewrite map_length; fold n; lia). reflexivity. }
  assert (E : exists m, sep_init (NList kers) (NItem (Some 1)) None = Ok m).
  { unfold sep_init, read_stride. cbn [nds_map check_stride bind]. unfold nds_apply2.
    assert (A : agg_index_shape [nds_ishape (NItem (Some 1)); nds_ishape (len_spec (NList kers))] = Ok (Some (Z.of_nat n))) by (unfold agg_index_shape; cbn; now rewrite map_length).
    assert (A2 : pool_align (NList kers) (NList (repeat 1 n)) = Ok (Z.of_nat n)).
    { unfold pool_align, agg_index_len, agg_index_shape. cbn [nds_ishape agg_shapes existsb]. rewrite repeat_length. fold n. rewrite Z.eqb_refl. reflexivity. }
    change (1 <? 1) with false. cbn [bind]. rewrite A. cbn [bind]. rewrite M. cbn [bind]. rewrite A2. cbn [bind]. eexists. reflexivity. }
  destruct E as [m E]. exists m.
  replace (repeat 1 n) with (map2 real_stride kers (repeat (Some 1) n)).
  - apply built_init with (kernel := NList kers) (stride := NItem (Some 1)); [|reflexivity|exact E]. cbn [expand]. unfold n. now rewrite Nat.eqb_refl.
  - apply list_ext with (d := 1); [rewrite map2_length, !repeat_length; lia|]. rewrite map2_length, repeat_length. intros i Hi.
    rewrite nth_map2 with (da := []) (db := Some 1) by (rewrite ?repeat_length; lia). now rewrite !nth_repeat.
Qed.

(** Hence the score does not depend on the padding mode. *)
Theorem ssim_mode_independent fuel junk fuel' junk' (s s' : ssim F) (x y : T) cax rax al rl kers p p' score full score' full' :
  ssim_call fuel s x y cax rax al rl kers (Some p) -> ss_crop s = true -> exact_widths (Some p) al (shp x) ->
  ssim_call fuel' s' x y cax rax al rl kers (Some p') -> ss_crop s' = true -> exact_widths (Some p') al (shp x) -> same_settings s s' ->
  snd (ssim_forward (sep_forward fuel junk) x y cax rax s) = Ok (score, full) ->
  snd (ssim_forward (sep_forward fuel' junk') x y cax rax s') = Ok (score', full') ->
  teq score score'.
Proof.
  intros C Hc W C' Hc' W' [K1 [K2 Ks]] R R'.
  destruct (built_exists kers) as [m B].
  assert (Lk : length kers = length al). { destruct (built_par F _ _ _ _ _ (sl_blur _ _ _ _ _ _ _ _ _ _ C)) as [[P1 _] _]. exact P1. }
  rewrite Lk in B.
  destruct (ssim_crop fuel junk 0 (fun _ => f0) s (set_blur s m) x y cax rax al rl kers p score full C Hc W B) as [t0 [u0 [E0 [T0 _]]]]; auto. { repeat split. }
  destruct (ssim_crop fuel' junk' 0 (fun _ => f0) s' (set_blur s m) x y cax rax al rl kers p' score' full' C' Hc' W' B) as [t1 [u1 [E1 [T1 _]]]]; auto. { repeat split; cbn; auto. }
  rewrite E0 in E1. injection E1 as <- <-. eapply teq_trans; [exact T0|]. apply teq_sym. exact T1.
Qed.
End SC.
