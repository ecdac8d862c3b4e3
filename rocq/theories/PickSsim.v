(** Reductions, the mse and SSIM work item by item along the axes that are neither reduced nor content axes. *)
From Coq Require Import Permutation.
From Verif Require Export SsimFlip PickPool.
Open Scope Z_scope.

Lemma block_pick s al d (g : Z -> Z) n j L : (d < length s)%nat -> ~ In d al -> (forall k, 0 <= k < n -> 0 <= g k < nth d s 0) ->
  valid (outside al (upd d n s)) j -> block_of (upd d n s) al j L ->
  block_of s al (upd (rank al d) (g (nth (rank al d) j 0)) j) (map (fun i => upd d (g (nth d i 0)) i) L).
Proof.
  intros Hd Nd G Vj [N H]. set (r := rank al d). set (v := nth r j 0).
  destruct (outside_rank al d (upd d n s)) as [R1 R2]; auto; [now rewrite upd_length|]. fold r in R1, R2. rewrite nth_upd_eq in R2 by auto.
  pose proof (valid_nth _ _ r Vj R1) as Bv. rewrite R2 in Bv. fold v in Bv.
  assert (Hv : forall i, In i L -> nth d i 0 = v /\ valid (upd d n s) i /\ outside al i = j).
  { intros i Hi. apply H in Hi. destruct Hi as [V E]. split; auto. unfold v. rewrite <- E. pose proof (valid_length _ _ V) as Li. rewrite upd_length in Li.
    symmetry. apply outside_rank; auto. lia. }
  split.
  - apply (NoDup_map_inv (upd d v)). rewrite map_map.
    replace (map (fun i => upd d v (upd d (g (nth d i 0)) i)) L) with L; auto.
    symmetry. rewrite <- map_id. apply map_ext_in. intros i Hi. destruct (Hv i Hi) as [<- _]. rewrite upd_upd. apply upd_nth.
  - intros i. rewrite in_map_iff. split.
    + intros [i' [<- Hi']]. destruct (Hv i' Hi') as [Ei [V E]]. rewrite Ei. pose proof (valid_length _ _ V) as Li. rewrite upd_length in Li. split.
      * eapply valid_upd_back; [exact V|]. now apply G.
      * rewrite outside_upd_out by (auto; lia). now rewrite E.
    + intros [V E]. pose proof (valid_length _ _ V) as Li. exists (upd d v i).
      assert (Ed : nth d i 0 = g v).
      { destruct (outside_rank al d i ltac:(lia) Nd) as [_ <-]. fold r. rewrite E. rewrite nth_upd_eq; auto. rewrite (valid_length _ _ Vj). auto. }
      split.
      * rewrite nth_upd_eq by lia. rewrite upd_upd, <- Ed. apply upd_nth.
      * apply H. split; [now apply valid_upd|]. rewrite outside_upd_out by (auto; lia). fold r. rewrite E, upd_upd. apply upd_nth.
Qed.

Section PickReduce.
Variable F : ofield.
Notation T := (tensor F).
Variables (d : nat) (g : Z -> Z) (n : Z).

Lemma block_sum_pick al (x x' : T) j L L' : (d < ndim x)%nat -> ~ In d al -> picked d g n x x' ->
  valid (outside al (shp x')) j -> block_of (shp x') al j L -> block_of (shp x) al (upd (rank al d) (g (nth (rank al d) j 0)) j) L' ->
  lsum (map (at_ x') L) = lsum (map (at_ x) L').
Proof.
  intros Hd Nd (S & G & V) Vj B B'. rewrite S in Vj, B. pose proof (block_pick (shp x) al d g n j L Hd Nd G Vj B) as Bf.
  transitivity (lsum (map (at_ x) (map (fun i => upd d (g (nth d i 0)) i) L))).
  - rewrite map_map. apply lsum_ext. intros i Hi. apply B in Hi. destruct Hi as [W _]. apply V. now rewrite S.
  - apply lsum_perm, Permutation_map. destruct Bf as [N1 H1]. destruct B' as [N2 H2]. apply NoDup_Permutation; auto. intros i. rewrite H1, H2. reflexivity.
Qed.
Lemma picked_out al (x x' y y' : T) : (d < ndim x)%nat -> ~ In d al -> picked d g n x x' -> shp y = outside al (shp x) -> shp y' = outside al (shp x') ->
  (forall j, valid (shp y') j -> at_ y' j = at_ y (upd (rank al d) (g (nth (rank al d) j 0)) j)) -> picked (rank al d) g n y y'.
Proof.
  intros Hd Nd (S & G & V) Sy Sy' H. split; [|split; auto].
  - rewrite Sy, Sy', S. now apply outside_upd_out.
  - intros k Hk. rewrite Sy. destruct (outside_rank al d (shp x) Hd Nd) as [_ ->]. auto.
Qed.
Theorem tsum_pick (x x' : T) al : (forall a, In a al -> (a < ndim x)%nat) -> NoDup al -> (d < ndim x)%nat -> ~ In d (reduced (ndim x) al) -> picked d g n x x' ->
  exists y y', tsum x (map Z.of_nat al) false = Ok y /\ tsum x' (map Z.of_nat al) false = Ok y' /\ picked (rank (reduced (ndim x) al) d) g n y y'.
Proof.
  intros H N Hd Nd P. pose proof P as (S & _). assert (Nx : ndim x' = ndim x) by (unfold ndim; now rewrite S, upd_length).
  destruct (tsum_ok F x al false H N) as [y [Y1 [Y2 Y3]]]. destruct (tsum_ok F x' al false) as [y' [Y1' [Y2' Y3']]]; auto; [now rewrite Nx|]. rewrite Nx in *.
  exists y, y'. split; auto. split; auto. apply (picked_out _ x x'); auto. intros j Vj. rewrite Y2' in Vj.
  rewrite (Y3' j _ (block_ok _ _ j)), (Y3 _ _ (block_ok _ _ _)). eapply block_sum_pick; eauto; apply block_ok.
Qed.
Theorem tmean_pick (x x' : T) al : (forall a, In a al -> (a < ndim x)%nat) -> NoDup al -> (forall a, In a (reduced (ndim x) al) -> 0 < nth a (shp x) 0) ->
  (d < ndim x)%nat -> ~ In d (reduced (ndim x) al) -> picked d g n x x' ->
  exists y y', tmean x (map Z.of_nat al) false = Ok y /\ tmean x' (map Z.of_nat al) false = Ok y' /\ picked (rank (reduced (ndim x) al) d) g n y y'.
Proof.
  intros H N Hp Hd Nd P. pose proof P as (S & _). assert (Nx : ndim x' = ndim x) by (unfold ndim; now rewrite S, upd_length).
  assert (Same : forall a, In a (reduced (ndim x) al) -> nth a (shp x') 0 = nth a (shp x) 0).
  { intros a Ha. rewrite S. apply nth_upd_ne. intros ->. auto. }
  destruct (tmean_ok F x al false H N Hp) as [y [Y1 [Y2 Y3]]].
  destruct (tmean_ok F x' al false) as [y' [Y1' [Y2' Y3']]]; auto; [now rewrite Nx|rewrite Nx; intros a Ha; rewrite Same; auto|]. unfold red_count in *. rewrite Nx in *.
  exists y, y'. split; auto. split; auto. apply (picked_out _ x x'); auto. intros j Vj. rewrite Y2' in Vj.
  rewrite (Y3' j _ (block_ok _ _ j)), (Y3 _ _ (block_ok _ _ _)).
  assert (E : map (fun a => nth a (shp x') 0) (reduced (ndim x) al) = map (fun a => nth a (shp x) 0) (reduced (ndim x) al)) by (apply map_ext_in; auto).
  rewrite E. f_equal. eapply block_sum_pick; eauto; apply block_ok.
Qed.

Theorem mse_pick r (u v u' v' : T) ax al : on_axes u ax al -> shp u = shp v -> (d < ndim u)%nat -> ~ In d (reduced (ndim u) al) -> picked d g n u u' -> picked d g n v v' ->
  match r with
  | RNone => exists e e', mse_forward r u v ax = Ok e /\ mse_forward r u' v' ax = Ok e' /\ picked d g n e e'
  | RSum => exists y y', mse_forward r u v ax = Ok y /\ mse_forward r u' v' ax = Ok y' /\ picked (rank (reduced (ndim u) al) d) g n y y'
  | RMean => (forall a, In a (reduced (ndim u) al) -> 0 < nth a (shp u) 0) ->
      exists y y', mse_forward r u v ax = Ok y /\ mse_forward r u' v' ax = Ok y' /\ picked (rank (reduced (ndim u) al) d) g n y y'
  | ROther => mse_forward r u v ax = Err ValueError /\ mse_forward r u' v' ax = Err ValueError
  end.
Proof.
  intros [A1 A2 A3] E Hd Nd Pu Pv. pose proof Pu as (Su & Gu & Vu). pose proof Pv as (Sv & _ & Vv).
  assert (E' : shp u' = shp v') by congruence. unfold mse_forward, metric_forward. rewrite E', E, !seqb_refl. cbn [assertb bind].
  assert (Nu : ndim u' = ndim u) by (unfold ndim; now rewrite Su, upd_length). rewrite Nu, A1. cbn [bind].
  destruct (mse_full_ok F u v E) as [e [D1 [D2 D3]]]. destruct (mse_full_ok F u' v') as [e' [D1' [D2' D3']]]; [congruence|]. rewrite D1, D1'. cbn [bind].
  assert (Fd : picked d g n e e').
  { split; [congruence|]. split; [intros k Hk; rewrite D2; auto|]. intros i Vi. rewrite D2' in Vi.
    rewrite D3' by congruence. rewrite Vu, Vv by congruence. symmetry. apply D3. pose proof (pick_valid F d g n u u' i Pu Vi) as Q. congruence. }
  assert (Nd' : ndim e = ndim u) by (unfold ndim; congruence).
  destruct r; cbn [metric_reduce].
  - intros Hp. rewrite <- Nd'. apply tmean_pick; auto; rewrite ?Nd'; auto. replace (shp e) with (shp v) by congruence; exact Hp.
  - rewrite <- Nd'. apply tsum_pick; auto; rewrite ?Nd'; auto.
  - eauto.
  - auto.
Qed.

(** SSIM. *)
Lemma blur_pick fuel junk (b : pool F) (x x' z z' : T) cax al kers pd psh osh ws psh' osh' ws' : on_axes x cax al -> built (length al) kers (repeat 1 (length al)) pd b ->
  blur_call fuel x al kers pd -> blur_call fuel x' al kers pd ->
  blur_facts fuel junk b al kers pd (shp x) psh osh ws -> blur_facts fuel junk b al kers pd (shp x') psh' osh' ws' -> (d < ndim x)%nat -> ~ In d al ->
  shp z = shp x -> shp z' = shp x' -> picked d g n z z' ->
  osh' = upd d n osh /\ (forall k, 0 <= k < n -> 0 <= g k < nth d osh 0) /\
  forall j, valid osh' j -> blur_at fuel junk al kers pd ws' z' j = blur_at fuel junk al kers pd ws z (upd d (g (nth d j 0)) j).
Proof.
  intros OA B BC BC' BF BF' Hd Nd Hz Hz' P. pose proof (bf_blurs _ _ _ _ _ _ _ _ _ _ BF) as BL. pose proof (bf_blurs _ _ _ _ _ _ _ _ _ _ BF') as BL'.
  assert (OZ : on_axes z (AxSeq (map Z.of_nat al)) al). { apply on_axes_seq with (ax := cax). destruct OA as [O1 O2 O3]. unfold ndim in *. split; unfold ndim; rewrite ?Hz; auto. }
  assert (Nz : ndim z = ndim x) by (unfold ndim; congruence).
  assert (Q : exists y y', snd (sep_forward fuel junk b z (AxSeq (map Z.of_nat al))) = Ok y /\ snd (sep_forward fuel junk b z' (AxSeq (map Z.of_nat al))) = Ok y' /\ picked d g n y y').
  { destruct pd as [p|].
    - destruct BC as [ms SC]. destruct BC' as [ms' SC']. 
      assert (ms' = ms). { pose proof (sc_padder F _ _ _ _ _ _ _ _ SC) as M1. pose proof (sc_padder F _ _ _ _ _ _ _ _ SC') as M2. destruct M1, M2. congruence. } subst ms'.
      apply (pool_same_pick F d g n fuel junk fuel junk b z z' (AxSeq (map Z.of_nat al)) al kers (repeat 1 (length al)) p ms); auto; [| |lia].
      + destruct SC. constructor; auto; unfold ndim in *; rewrite ?Hz; auto.
      + destruct SC'. constructor; auto; unfold ndim in *; rewrite ?Hz'; auto. destruct sc_axes as [O1 O2 O3]. split; unfold ndim; rewrite ?Hz'; auto.
    - apply (pool_valid_pick F d g n fuel junk fuel junk b z z' (AxSeq (map Z.of_nat al)) al kers (repeat 1 (length al))); auto. rewrite Hz. exact BC. }
  destruct Q as [y [y' [Y [Y' (Sy & Gy & Vy)]]]].
  destruct (bl_run _ _ _ _ _ _ _ BL b z (mlike_refl F _) Hz) as [b1 [t [R1 [_ [_ [St Vt]]]]]]. rewrite R1 in Y. cbn in Y. injection Y as <-.
  destruct (bl_run _ _ _ _ _ _ _ BL' b z' (mlike_refl F _) Hz') as [b2 [t' [R2 [_ [_ [St' Vt']]]]]]. rewrite R2 in Y'. cbn in Y'. injection Y' as <-.
  rewrite St, St' in *. split; auto. split; auto. intros j Vj.
  rewrite <- Vt' by auto. rewrite Vy by auto. apply Vt. rewrite <- St. rewrite <- St' in Vj. apply (pick_valid F d g n t t'); auto.
  split; [congruence|]. split; [rewrite St; auto|]. rewrite St'. auto.
Qed.
Lemma ws_unique fuel junk b al kers pd sh psh osh ws sh' psh' osh' ws' : blur_facts fuel junk b al kers pd sh psh osh ws ->
  blur_facts (F := F) fuel junk b al kers pd sh' psh' osh' ws' -> ws' = ws.
Proof.
  intros BF BF'. destruct (bf_len _ _ _ _ _ _ _ _ _ _ BF) as [_ [L1 L2]]. destruct (bf_len _ _ _ _ _ _ _ _ _ _ BF') as [_ [L1' L2']].
  apply nth_ext with (d := (0, 0)) (d' := (0, 0)); [lia|]. intros r Hr. rewrite L1' in Hr.
  destruct (bf_ws _ _ _ _ _ _ _ _ _ _ BF r Hr) as [W1 [W2 W3]]. destruct (bf_ws _ _ _ _ _ _ _ _ _ _ BF' r Hr) as [V1 [V2 V3]]. unfold pair_sum in *.
  assert (E : fst (nth r ws' (0, 0)) = fst (nth r ws (0, 0))).
  { destruct pd as [p|]; [|lia]. rewrite <- !(map_nth fst _ (0, 0)). now rewrite (bf_before _ _ _ _ _ _ _ _ _ _ BF p eq_refl), (bf_before _ _ _ _ _ _ _ _ _ _ BF' p eq_refl). }
  destruct (nth r ws (0, 0)), (nth r ws' (0, 0)). cbn in *. f_equal; lia.
Qed.
Lemma crop_pick al cw (full full' c c' : T) : NoDup al -> (forall a, In a al -> (a < ndim full)%nat) -> length cw = length al -> (d < ndim full)%nat -> ~ In d al ->
  picked d g n full full' -> crop_of F al cw full c -> crop_of F al cw full' c' -> picked d g n c c'.
Proof.
  intros N L Lw Hd Nd (S & G & V) A B. pose proof (co_nd _ _ _ _ _ A) as Nc. pose proof (co_nd _ _ _ _ _ B) as Nc'. unfold ndim in *. rewrite S, upd_length in Nc'.
  assert (Sc : shp c' = upd d n (shp c)).
  { apply list_ext with (d := 0); [rewrite upd_length; lia|]. intros a Ha. destruct (Nat.eq_dec a d) as [->|Hne].
    - rewrite (co_other _ _ _ _ _ B) by auto. rewrite S, !nth_upd_eq by lia. reflexivity.
    - rewrite nth_upd_ne by auto. destruct (in_dec Nat.eq_dec a al) as [Hi|Hi].
      + destruct (In_pos a al 0%nat Hi) as [r [Hr Er]]. pose proof (co_shape _ _ _ _ _ A r Hr) as E1. pose proof (co_shape _ _ _ _ _ B r Hr) as E2. rewrite Er in E1, E2.
        rewrite E1, E2, S, nth_upd_ne by auto. reflexivity.
      + rewrite (co_other _ _ _ _ _ A), (co_other _ _ _ _ _ B), S, nth_upd_ne by auto. reflexivity. }
  assert (P : forall k, 0 <= k < n -> 0 <= g k < nth d (shp c) 0) by (intros k Hk; rewrite (co_other _ _ _ _ _ A) by auto; auto).
  split; auto. split; auto. intros j Vj. destruct (co_val _ _ _ _ _ B j Vj) as [W ->]. rewrite V by auto. rewrite place_notin by auto.
  assert (Vj' : valid (shp c) (upd d (g (nth d j 0)) j)). { rewrite Sc in Vj. eapply valid_upd_back; [exact Vj|]. apply P.
    pose proof (valid_nth _ _ d Vj) as Q. rewrite upd_length, nth_upd_eq in Q by lia. apply Q. lia. }
  destruct (co_val _ _ _ _ _ A _ Vj') as [_ ->]. f_equal. symmetry. apply (place_upd d); auto.
Qed.

Theorem ssim_pick fuel junk (s : ssim F) (x y x' y' : T) cax rax al rl kers pd score map : ssim_call fuel s x y cax rax al rl kers pd -> ssim_call fuel s x' y' cax rax al rl kers pd ->
  (d < ndim x)%nat -> ~ In d al -> picked d g n x x' -> picked d g n y y' ->
  snd (ssim_forward (sep_forward fuel junk) x y cax rax s) = Ok (score, map) ->
  exists score' map', snd (ssim_forward (sep_forward fuel junk) x' y' cax rax s) = Ok (score', map') /\ picked d g n map map' /\
    (~ In d (reduced (ndim x) rl) -> picked (rank (reduced (ndim x) rl) d) g n score score').
Proof.
  intros SC SC' Hd Nd Px Py. pose proof SC as [Hs OA OR B BC Cr Po Sc]. pose proof SC' as [Hs' OA' OR' B' BC' Cr' Po' _]. pose proof Px as (Sx & Gx & Vx). pose proof Py as (Sy & _ & Vy).
  destruct (blur_ok F fuel junk (ss_blur s) x cax al kers pd OA B BC) as [psh [osh [ws BF]]].
  destruct (blur_ok F fuel junk (ss_blur s) x' cax al kers pd OA' B BC') as [psh' [osh' [ws' BF']]].
  pose proof (ws_unique _ _ _ _ _ _ _ _ _ _ _ _ _ _ BF BF') as ->.
  destruct (scale_ok F s (length al) kers _ pd B Sc) as [c [Sc1 [Sc2 _]]]. specialize (Sc1 (List.map Z.of_nat al) (map_length _ _)).
  pose proof (bf_blurs _ _ _ _ _ _ _ _ _ _ BF) as BL. pose proof (bf_blurs _ _ _ _ _ _ _ _ _ _ BF') as BL'.
  destruct (ssim_full_run F _ _ _ _ _ _ _ BL s x y c (mlike_refl F _) eq_refl Hs Sc1) as [s1 [G1 R1]].
  destruct (ssim_full_run F _ _ _ _ _ _ _ BL' s x' y' c (mlike_refl F _) eq_refl Hs' Sc1) as [s2 [G2 R2]].
  unfold ssim_forward, sbind, ret. rewrite Hs', Hs, !seqb_refl. cbn [assertb].
  assert (Nx : ndim x' = ndim x) by (unfold ndim; now rewrite Sx, upd_length). rewrite Nx.
  rewrite (oa_args _ _ _ OA), (oa_args _ _ _ OR).
  assert (FP : forall u v u' v' : T, shp u = shp x -> shp v = shp x -> picked d g n u u' -> picked d g n v v' -> picked d g n (prodt u v) (prodt u' v')).
  { intros u v u' v' Hu Hv (U1 & U2 & U3) (V1 & V2 & V3). split; [exact U1|]. split; [exact U2|]. intros i Vi. cbn [prodt shp at_] in *. rewrite U3 by auto. rewrite V3 by congruence. reflexivity. }
  pose proof (fun z z' => blur_pick fuel junk (ss_blur s) x x' z z' cax al kers pd psh osh ws psh' osh' ws OA B BC BC' BF BF' Hd Nd) as BFl.
  destruct (BFl x x' eq_refl eq_refl Px) as [So [Go E1]]. assert (E2 := proj2 (proj2 (BFl y y' Hs Hs' Py))).
  assert (E11 := proj2 (proj2 (BFl (prodt x x) (prodt x' x') eq_refl eq_refl (FP x x x' x' eq_refl eq_refl Px Px)))).
  assert (E22 := proj2 (proj2 (BFl (prodt y y) (prodt y' y') Hs Hs' (FP y y y' y' Hs Hs Py Py)))).
  assert (E12 := proj2 (proj2 (BFl (prodt x y) (prodt x' y') eq_refl eq_refl (FP x y x' y' eq_refl Hs Px Py)))). clear BFl.
  assert (Lo : length osh = ndim x) by (eapply (osh_len F); eauto).
  assert (VP : forall j, valid osh' j -> valid osh (upd d (g (nth d j 0)) j)).
  { intros j Vj. rewrite So in Vj. eapply valid_upd_back; [exact Vj|]. apply Go. pose proof (valid_nth _ _ d Vj) as Q. rewrite upd_length, nth_upd_eq in Q by lia. apply Q. lia. }
  destruct R1 as [[f1' [-> [S1 V1]]]|[-> _]]; [|intros; discriminate].
  destruct R2 as [[f2 [-> [S2 V2]]]|[_ [j2 [Vj2 Z2]]]].
  2:{ exfalso. destruct (V1 _ (VP _ Vj2)) as [Q _]. apply Q. rewrite E1, E2, E11, E22 in Z2 by auto. exact Z2. }
  destruct (crop_run F fuel junk (ss_blur s) al kers pd (shp x) psh osh ws BF Po s s1 f1' G1 S1) as [c1 [-> [Co1 Pc1]]]; auto. { intros ->. exact BC. }
  destruct (crop_run F fuel junk (ss_blur s) al kers pd (shp x') psh' osh' ws BF' Po' s s2 f2 G2 S2) as [c2 [-> [Co2 Pc2]]]; auto. { intros ->. exact BC'. }
  assert (TQ : picked d g n f1' f2).
  { split; [congruence|]. split; [rewrite S1; auto|]. intros j Vj. rewrite S2 in Vj. destruct (V2 j Vj) as [_ ->]. destruct (V1 _ (VP _ Vj)) as [_ ->].
    rewrite E1, E2, E11, E22, E12 by auto. reflexivity. }
  assert (Nf : ndim f1' = ndim x) by (unfold ndim; rewrite S1; exact Lo).
  assert (Nc : ndim c1 = ndim x) by (rewrite (co_nd _ _ _ _ _ Co1); exact Nf).
  destruct (bf_len _ _ _ _ _ _ _ _ _ _ BF) as [_ [Lw Lk]].
  assert (FC : picked d g n c1 c2).
  { eapply (crop_pick al (crop_widths F (ss_crop s) pd al ws) f1' f2); eauto.
    - apply (oa_distinct _ _ _ OA).
    - rewrite Nf. apply (oa_in _ _ _ OA).
    - unfold crop_widths. destruct pd; [destruct (ss_crop s)|]; auto; apply repeat_length.
    - lia. }
  assert (Pc : forall a, In a (reduced (ndim x) rl) -> 0 < nth a (shp c1) 0).
  { intros a Ha. assert (a < ndim c1)%nat by (rewrite Nc; eapply reduced_in; eauto; apply (oa_in _ _ _ OR)).
    assert (1 <= nth a (shp c1) 0); [|lia]. apply Pc1, nth_In. auto. }
  assert (Nc2 : ndim c2 = ndim x). { destruct FC as [Q _]. unfold ndim in *. rewrite Q, upd_length. exact Nc. }
  assert (Pcc : forall a, In a (reduced (ndim x) rl) -> 0 < nth a (shp c2) 0).
  { intros a Ha. assert (a < ndim c2)%nat by (rewrite Nc2; eapply reduced_in; eauto; apply (oa_in _ _ _ OR)).
    assert (1 <= nth a (shp c2) 0); [|lia]. apply Pc2, nth_In. auto. }
  destruct (tmean_ok F c1 rl false) as [t1 [T1 _]]; [rewrite Nc; apply (oa_in _ _ _ OR)|apply (oa_distinct _ _ _ OR)|now rewrite Nc|].
  destruct (tmean_ok F c2 rl false) as [t2 [T2 _]]; [rewrite Nc2; apply (oa_in _ _ _ OR)|apply (oa_distinct _ _ _ OR)|now rewrite Nc2|].
  rewrite T1, T2. cbn [snd]. intros R. injection R as <- <-. exists t2, f2. split; auto. split; auto. intros Hr.
  destruct (tmean_pick c1 c2 rl) as [u1 [u2 [U1 [U2 U3]]]]; rewrite ?Nc; auto; [apply (oa_in _ _ _ OR)|apply (oa_distinct _ _ _ OR)|].
  rewrite T1 in U1. rewrite T2 in U2. injection U1 as <-. injection U2 as <-. now rewrite Nc in U3.
Qed.
End PickReduce.
