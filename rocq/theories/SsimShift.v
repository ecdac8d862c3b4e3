(** SSIM of cyclically shifted images (C128). *)
From Verif Require Export SsimFlip ReduceShuffle.
Open Scope Z_scope.

(** The blur copies pixels beyond the border, and cyclically along axis a. *)
Definition cyclic_blur {F : ofield} (a : nat) (al : list nat) (p : padder F) : Prop :=
  exists ms, expand (length al) (p_mode p) = Some ms /\ (forall m, In m ms -> copying m) /\
    forall r, (r < length al)%nat -> nth r al 0%nat = a -> nth r ms MUnknown = MCircular.
(** Both fail alike, or the second score map is the first one shifted. *)
Definition shifted_scores {F : ofield} (rl : list nat) (a : nat) (s : Z) (n : Z) (r1 r2 : res (tensor F * tensor F)) : Prop :=
  match r1, r2 with
  | Ok (s1, m1), Ok (s2, m2) => reordered_out rl a (fun t => (t + s) mod n) s1 s2 /\ shifted a s m1 m2
  | Err e1, Err e2 => e1 = e2
  | _, _ => False
  end.

Section SShift.
Variable F : ofield.
Add Field Fsshift : (f_field F).
Notation T := (tensor F).

Lemma blur_shift fuel junk (b : pool F) (x z z' : T) cax al kers p psh osh ws a s : on_axes x cax al -> built (length al) kers (repeat 1 (length al)) (Some p) b ->
  blur_call fuel x al kers (Some p) -> blur_facts fuel junk b al kers (Some p) (shp x) psh osh ws -> cyclic_blur a al p -> (a < ndim x)%nat ->
  shp z = shp x -> shifted a s z z' ->
  osh = shp x /\ forall j, valid osh j -> blur_at fuel junk al kers (Some p) ws z' j = blur_at fuel junk al kers (Some p) ws z (take_from a (fun t => (t + s) mod nth a (shp x) 0) j).
Proof.
  intros OA B BC BF [ms' [Em [Cm Hc]]] Ha Hz Sh. pose proof (bf_blurs _ _ _ _ _ _ _ _ _ _ BF) as BL. pose proof Sh as [Sz _].
  assert (OZ : on_axes z (AxSeq (map Z.of_nat al)) al). { apply on_axes_seq with (ax := cax). destruct OA as [O1 O2 O3]. unfold ndim in *. split; unfold ndim; rewrite ?Hz; auto. }
  assert (Nz : ndim z = ndim x) by (unfold ndim; congruence).
  destruct BC as [ms SC].
  assert (SZ : same_call F fuel p z (AxSeq (map Z.of_nat al)) al ms kers (repeat 1 (length al))).
  { destruct SC. constructor; auto; unfold ndim in *; rewrite ?Hz; auto. }
  assert (ms' = ms) by (pose proof (pf_mode _ _ _ (sc_padder F _ _ _ _ _ _ _ _ SC)); congruence). subst ms'.
  destruct (filter_shift F fuel junk junk b z z' (AxSeq (map Z.of_nat al)) al kers p ms a s B SZ Cm) as [y [y' [Y [Y' [Sy Vy]]]]]; auto; [now rewrite Nz|].
  destruct (filter_copying F fuel junk b z _ al kers p ms B SZ Cm) as [y0 [G1 [G2 _]]]. rewrite Y in G1. injection G1 as <-.
  destruct (bl_run _ _ _ _ _ _ _ BL b z (mlike_refl F _) Hz) as [b1 [t [R1 [_ [_ [St Vt]]]]]]. rewrite R1 in Y. cbn in Y. injection Y as <-.
  destruct (bl_run _ _ _ _ _ _ _ BL b z' (mlike_refl F _) ltac:(congruence)) as [b2 [t' [R2 [_ [_ [St' Vt']]]]]]. rewrite R2 in Y'. cbn in Y'. injection Y' as <-.
  assert (E : osh = shp x) by congruence. split; [exact E|]. intros j Vj.
  rewrite <- Vt' by auto. rewrite Vy by congruence. rewrite St, E. apply Vt. rewrite E in *. eapply take_valid; eauto. apply shift_reorders.
Qed.
Lemma crop_reordered al cw (full full' c c' : T) a p q : NoDup al -> (forall d, In d al -> (d < ndim full)%nat) -> length cw = length al -> (a < ndim full)%nat ->
  reorders (nth a (shp full) 0) p q ->
  (forall r, (r < length al)%nat -> nth r al 0%nat = a -> nth r cw (0, 0) = (0, 0)) ->
  reordered a p full full' -> crop_of F al cw full c -> crop_of F al cw full' c' -> reordered a p c c' /\ nth a (shp c) 0 = nth a (shp full) 0.
Proof.
  intros N L Lw Ha R Hw [S V] A B.
  assert (Sc : shp c = shp c') by (eapply (crop_shape_eq F al cw full full'); eauto).
  assert (Sa : nth a (shp c) 0 = nth a (shp full) 0).
  { destruct (in_dec Nat.eq_dec a al) as [Hi|Hi]; [|apply (co_other _ _ _ _ _ A); auto].
    destruct (In_pos a al 0%nat Hi) as [r [Hr Er]]. pose proof (co_shape _ _ _ _ _ A r Hr) as Es. rewrite (Hw r Hr Er), Er in Es. unfold pair_sum in Es. cbn in Es. lia. }
  split; auto. split; auto. intros j Vj.
  pose proof (co_nd _ _ _ _ _ A) as Nc. pose proof (valid_length _ _ Vj) as Lj. unfold ndim in *.
  assert (Vt : valid (shp c) (take_from a p j)) by (eapply take_valid; eauto; [lia|rewrite Sa; eauto]).
  destruct (co_val _ _ _ _ _ B j ltac:(congruence)) as [W ->]. rewrite S in W. fold (take_from a p j). destruct (co_val _ _ _ _ _ A _ Vt) as [_ ->]. rewrite V by auto. f_equal.
  assert (Lf : length (map fst cw) = length al) by now rewrite map_length.
  assert (Ext : forall r, (r < length al)%nat -> nth r (map fst cw) 0 = fst (nth r cw (0, 0))) by (intros r Hr; now rewrite (map_nth fst cw (0, 0))).
  assert (Pa : forall j', length j' = length j -> nth a (place al (repeat 1 (length al)) j' (map fst cw)) 0 = nth a j' 0).
  { intros j' Hj'. destruct (in_dec Nat.eq_dec a al) as [Hi|Hi]; [|now rewrite place_notin].
    destruct (In_pos a al 0%nat Hi) as [r [Hr Er]]. rewrite <- Er. rewrite place_nth; auto; rewrite ?repeat_length; auto; [|intros d Hd; rewrite Hj', Lj, Nc; auto].
    rewrite nth_repeat, Ext by auto. rewrite (Hw r Hr Er). cbn. lia. }
  apply list_ext with (d := 0); [now rewrite upd_length, !place_length; unfold take_from; rewrite upd_length|]. intros d _. unfold take_from.
  destruct (Nat.eq_dec d a) as [->|Hd].
  - rewrite nth_upd_eq by (rewrite place_length; lia). rewrite !Pa by (auto; apply upd_length). now rewrite nth_upd_eq by lia.
  - rewrite nth_upd_ne by auto. destruct (in_dec Nat.eq_dec d al) as [Hi|Hi].
    + destruct (In_pos d al 0%nat Hi) as [r [Hr <-]]. rewrite !place_nth; auto; rewrite ?repeat_length, ?upd_length, ?Lj; auto; try (rewrite Nc; auto). now rewrite nth_upd_ne by auto.
    + rewrite !place_notin by auto. now rewrite nth_upd_ne by auto.
Qed.

Theorem ssim_shift fuel junk (g : ssim F) (x y x' y' : T) cax rax al rl kers p a s : ssim_call fuel g x y cax rax al rl kers (Some p) ->
  cyclic_blur a al p -> (In a al -> ss_crop g = false) -> (a < ndim x)%nat -> shifted a s x x' -> shifted a s y y' ->
  shifted_scores (reduced (ndim x) rl) a s (nth a (shp x) 0) (snd (ssim_forward (sep_forward fuel junk) x y cax rax g)) (snd (ssim_forward (sep_forward fuel junk) x' y' cax rax g)).
Proof.
  intros [Hs OA OR B BC Cr Po Sc] CB Nc Ha Fx Fy. pose proof Fx as [Sx Vx]. pose proof Fy as [Sy Vy].
  destruct (blur_ok F fuel junk (ss_blur g) x cax al kers (Some p) OA B BC) as [psh [osh [ws BF]]].
  destruct (scale_ok F g (length al) kers _ (Some p) B Sc) as [c [Sc1 [Sc2 _]]]. specialize (Sc1 (map Z.of_nat al) (map_length _ _)).
  pose proof (bf_blurs _ _ _ _ _ _ _ _ _ _ BF) as BL.
  destruct (ssim_full_run F _ _ _ _ _ _ _ BL g x y c (mlike_refl F _) eq_refl Hs Sc1) as [s1 [G1 R1]].
  destruct (ssim_full_run F _ _ _ _ _ _ _ BL g x' y' c (mlike_refl F _) Sx ltac:(congruence) Sc1) as [s2 [G2 R2]].
  unfold ssim_forward, sbind, ret. rewrite Sy, Sx, Hs, !seqb_refl. cbn [assertb].
  assert (Nx : ndim x' = ndim x) by (unfold ndim; congruence). rewrite Nx.
  rewrite (oa_args _ _ _ OA), (oa_args _ _ _ OR).
  assert (FP : forall u v u' v' : T, shp u = shp x -> shp v = shp x -> shifted a s u u' -> shifted a s v v' -> shifted a s (prodt u v) (prodt u' v')).
  { intros u v u' v' Hu Hv [U1 U2] [V1 V2]. split; [exact U1|]. intros i Vi. cbn [prodt shp at_] in *. rewrite U2 by auto. rewrite V2 by congruence. rewrite Hu, Hv. reflexivity. }
  pose proof (fun z z' => blur_shift fuel junk (ss_blur g) x z z' cax al kers p psh osh ws a s OA B BC BF CB Ha) as BFl.
  destruct (BFl x x' eq_refl Fx) as [Eo E1]. destruct (BFl y y' Hs Fy) as [_ E2].
  destruct (BFl (prodt x x) _ eq_refl (FP x x x' x' eq_refl eq_refl Fx Fx)) as [_ E11].
  destruct (BFl (prodt y y) _ Hs (FP y y y' y' Hs Hs Fy Fy)) as [_ E22].
  destruct (BFl (prodt x y) _ eq_refl (FP x y x' y' eq_refl Hs Fx Fy)) as [_ E12]. clear BFl.
  assert (Lo : length osh = ndim x) by (rewrite Eo; reflexivity).
  set (n := nth a (shp x) 0) in *. set (sh := fun t => (t + s) mod n) in *. set (hs := fun t => (t - s) mod n).
  assert (RO : reorders (nth a osh 0) sh hs) by (rewrite Eo; apply shift_reorders).
  assert (TV : forall j, valid osh j -> valid osh (take_from a sh j)) by (intros j Vj; eapply take_valid; eauto; lia).
  assert (TV' : forall j, valid osh j -> valid osh (take_from a hs j)) by (intros j Vj; eapply take_valid; [lia|apply reorders_sym; eauto|auto]).
  assert (TB : forall j, valid osh j -> take_from a sh (take_from a hs j) = j) by (intros j Vj; eapply take_back; [|apply reorders_sym; eauto|eauto]; lia).
  destruct R1 as [[f1' [-> [S1 V1]]]|[-> [j1 [Vj1 Z1]]]]; destruct R2 as [[f2 [-> [S2 V2]]]|[-> [j2 [Vj2 Z2]]]].
  - destruct (crop_run F fuel junk (ss_blur g) al kers (Some p) (shp x) psh osh ws BF Po g s1 f1' G1 S1) as [c1 [-> [Co1 Pc1]]]; auto. { intros E. discriminate. }
    destruct (crop_run F fuel junk (ss_blur g) al kers (Some p) (shp x) psh osh ws BF Po g s2 f2 G2 S2) as [c2 [-> [Co2 Pc2]]]; auto. { intros E. discriminate. }
    assert (TQ : reordered a sh f1' f2).
    { split; [congruence|]. intros j Vj. rewrite S1 in *. destruct (V2 j Vj) as [_ ->]. fold (take_from a sh j). destruct (V1 _ (TV j Vj)) as [_ ->].
      rewrite E1, E2, E11, E22, E12 by auto. reflexivity. }
    assert (Nf : ndim f1' = ndim x) by (unfold ndim; rewrite S1; exact Lo).
    assert (Nc1 : ndim c1 = ndim x) by (rewrite (co_nd _ _ _ _ _ Co1); exact Nf).
    destruct (bf_len _ _ _ _ _ _ _ _ _ _ BF) as [_ [Lw Lk]].
    assert (FC : reordered a sh c1 c2 /\ nth a (shp c1) 0 = nth a (shp f1') 0).
    { eapply (crop_reordered al (crop_widths F (ss_crop g) (Some p) al ws) f1' f2); eauto.
      - apply (oa_distinct _ _ _ OA).
      - rewrite Nf. apply (oa_in _ _ _ OA).
      - unfold crop_widths. destruct (ss_crop g); auto; apply repeat_length.
      - lia.
      - rewrite S1. eauto.
      - intros r Hr Er. unfold crop_widths. rewrite Nc by (rewrite <- Er; apply nth_In; auto). apply nth_repeat. }
    destruct FC as [FC Fa].
    assert (Rc : reorders (nth a (shp c1) 0) sh hs) by (rewrite Fa, S1; exact RO).
    destruct (tmean_reordered F c1 c2 rl a sh hs) as [t1 [t2 [-> [-> TT]]]]; auto; [rewrite Nc1; apply (oa_in _ _ _ OR)|apply (oa_distinct _ _ _ OR)| |lia|].
    { intros d Hd. rewrite Nc1 in Hd. assert (d < ndim c1)%nat by (rewrite Nc1; eapply reduced_in; eauto; apply (oa_in _ _ _ OR)).
      assert (1 <= nth d (shp c1) 0); [|lia]. apply Pc1, nth_In. auto. }
    cbn [snd shifted_scores]. rewrite <- Nc1. split; [exact TT|]. apply (proj2 (shifted_reordered F a s f1' f2)). rewrite S1, Eo. exact TQ.
  - exfalso. destruct (V1 _ (TV _ Vj2)) as [Q _]. apply Q. rewrite E1, E2, E11, E22 in Z2 by auto. exact Z2.
  - exfalso. pose proof (TV' _ Vj1) as Vf. destruct (V2 _ Vf) as [Q _]. apply Q. rewrite E1, E2, E11, E22 by auto. rewrite !TB by auto. exact Z1.
  - reflexivity.
Qed.
End SShift.
