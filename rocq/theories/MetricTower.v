(** Averages of averages: the metric of a batch and the metrics of its items. *)
From Coq Require Import Permutation Reals Lra.
From Verif Require Export SsimFlip FilterAdjoint.
Open Scope Z_scope.

Lemma blocks_all s al : Permutation (flat_map (block s al) (tindices (outside al s))) (tindices s).
Proof.
  apply NoDup_Permutation.
  - apply (NoDup_flat_map _ (outside al)); [apply NoDup_tindices| |].
    + intros j. apply block_ok.
    + intros j i Hi. now apply block_ok in Hi.
  - apply NoDup_tindices.
  - intros i. rewrite in_flat_map. split.
    + intros [j [_ Hi]]. apply block_ok in Hi. now apply In_tindices.
    + intros Hi. apply In_tindices in Hi. exists (outside al i). split; [now apply In_tindices, outside_valid|]. apply block_ok. auto.
Qed.
Lemma filter_split {A} (f : A -> bool) l : Permutation (filter f l ++ filter (fun a => negb (f a)) l) l.
Proof.
  induction l as [|a l IH]; [constructor|]. cbn [filter]. destruct (f a); cbn [negb app]; [now constructor|].
  apply Permutation_sym, Permutation_cons_app, Permutation_sym, IH.
Qed.
Lemma size_split (s : list Z) al : NoDup al -> (forall a, In a al -> (a < length s)%nat) -> zprod (map (fun a => nth a s 0) al) * zprod (outside al s) = zprod s.
Proof.
  intros N H. unfold outside. rewrite <- zprod_app, <- map_app.
  assert (P : Permutation (al ++ filter (fun d => negb (existsb (Nat.eqb d) al)) (seq 0 (length s))) (seq 0 (length s))).
  { eapply Permutation_trans; [|apply (filter_split (fun d => existsb (Nat.eqb d) al))]. apply Permutation_app_tail. apply NoDup_Permutation; auto.
    - apply NoDup_filter, seq_NoDup.
    - intros d. rewrite filter_In, in_seq. split.
      + intros Hd. split; [specialize (H d Hd); lia|]. now apply memb_in.
      + intros [_ Hd]. now apply memb_in. }
  rewrite (zprod_perm _ _ (Permutation_map _ P)). f_equal. apply list_ext with (d := 0); [now rewrite map_length, seq_length|].
  rewrite map_length, seq_length. intros d Hd. rewrite (nth_indep _ 0 (nth (0%nat) s 0)) by (now rewrite map_length, seq_length).
  rewrite (map_nth (fun a => nth a s 0)), seq_nth by auto. reflexivity.
Qed.
Lemma outside_all s : outside (seq 0 (length s)) s = [].
Proof.
  unfold outside. rewrite filter_none; auto. intros d Hd. apply negb_false_iff. now apply memb_in.
Qed.

Section Tower.
Variable F : ofield.
Add Field Ftower : (f_field F).
Notation T := (tensor F).

Lemma lsum_flat {A B} (f : B -> F) (g : A -> list B) l : lsum (map f (flat_map g l)) = lsum (map (fun j => lsum (map f (g j))) l).
Proof.
  induction l as [|a l IH]; [reflexivity|]. cbn [flat_map map]. rewrite map_app, lsum_app, IH. unfold lsum at 3. cbn [fold_right]. reflexivity.
Qed.
Lemma bsum_blocks_of s al (f : list Z -> F) : bsum (outside al s) (fun j => lsum (map f (block s al j))) = bsum s f.
Proof.
  rewrite !bsum_lsum. rewrite <- lsum_flat. apply lsum_perm, Permutation_map, blocks_all.
Qed.
Lemma reduced_ok nd al : (forall a, In a al -> (a < nd)%nat) -> NoDup al -> (forall a, In a (reduced nd al) -> (a < nd)%nat) /\ NoDup (reduced nd al).
Proof. intros H N. destruct al as [|a al]; cbn [reduced]; auto. split; [intros b Hb; apply in_seq in Hb; lia|apply seq_NoDup]. Qed.

(** The sum of the sums over the blocks is the sum of everything. *)
Theorem tsum_tower (x : T) al y : (forall a, In a al -> (a < ndim x)%nat) -> NoDup al -> tsum x (map Z.of_nat al) false = Ok y ->
  exists z, tsum x (map Z.of_nat (seq 0 (ndim x))) false = Ok z /\ shp z = [] /\ at_ z [] = bsum (shp y) (at_ y).
Proof.
  intros H N E. destruct (tsum_ok F x al false H N) as [y' [Y1 [Y2 Y3]]]. rewrite E in Y1. injection Y1 as <-.
  destruct (tsum_ok F x (seq 0 (ndim x)) false) as [z [Z1 [Z2 Z3]]]; [intros a Ha; apply in_seq in Ha; lia|apply seq_NoDup|].
  assert (R : reduced (ndim x) (seq 0 (ndim x)) = seq 0 (ndim x)) by (unfold reduced; destruct (ndim x); reflexivity). rewrite R in *.
  unfold ndim in Z2 at 1. rewrite outside_all in Z2. exists z. split; auto. split; auto.
  rewrite (Z3 [] (tindices (shp x))).
  - rewrite Y2. rewrite <- bsum_lsum. rewrite <- (bsum_blocks_of (shp x) (reduced (ndim x) al)). apply bsum_ext. intros j _. symmetry. apply Y3, block_ok.
  - split; [apply NoDup_tindices|]. intros i. rewrite In_tindices. split; [|tauto]. intros V. split; auto.
    pose proof (valid_length _ _ V) as Li. unfold ndim. rewrite <- Li. apply outside_all.
Qed.
(** The mean of the means over the blocks, which have one size, is the mean of everything. *)
Theorem tmean_tower (x : T) al y : (forall a, In a al -> (a < ndim x)%nat) -> NoDup al -> (forall n, In n (shp x) -> 1 <= n) -> tmean x (map Z.of_nat al) false = Ok y ->
  exists z, tmean x (map Z.of_nat (seq 0 (ndim x))) false = Ok z /\ shp z = [] /\ (forall n, In n (shp y) -> 1 <= n) /\
    at_ z [] = fdiv (bsum (shp y) (at_ y)) (fofZ (zprod (shp y))).
Proof.
  intros H N P E.
  assert (Hp : forall bl a, (forall b, In b bl -> (b < ndim x)%nat) -> NoDup bl -> In a (reduced (ndim x) bl) -> 0 < nth a (shp x) 0).
  { intros bl a Hb Nb Ha. destruct (reduced_ok _ _ Hb Nb) as [Q _]. specialize (P (nth a (shp x) 0) (nth_In _ _ (Q a Ha))). lia. }
  destruct (tmean_ok F x al false H N (fun a => Hp al a H N)) as [y' [Y1 [Y2 Y3]]]. rewrite E in Y1. injection Y1 as <-.
  assert (Hs : forall a, In a (seq 0 (ndim x)) -> (a < ndim x)%nat) by (intros a Ha; apply in_seq in Ha; lia).
  destruct (tmean_ok F x (seq 0 (ndim x)) false Hs (seq_NoDup _ _) (fun a => Hp _ a Hs (seq_NoDup _ _))) as [z [Z1 [Z2 Z3]]].
  assert (R : reduced (ndim x) (seq 0 (ndim x)) = seq 0 (ndim x)) by (unfold reduced; destruct (ndim x); reflexivity). rewrite R in *.
  unfold ndim in Z2 at 1. rewrite outside_all in Z2. exists z. split; auto. split; auto.
  assert (Py : forall n, In n (shp y) -> 1 <= n).
  { rewrite Y2. intros n Hn. unfold outside in Hn. apply in_map_iff in Hn. destruct Hn as [d [<- Hd]]. apply filter_In in Hd. destruct Hd as [Hd _]. apply in_seq in Hd. apply P, nth_In. lia. }
  split; auto.
  destruct (reduced_ok _ _ H N) as [Q1 Q2].
  pose proof (size_split (shp x) (reduced (ndim x) al) Q2 Q1) as SZ. rewrite <- Y2 in SZ. set (c := zprod (map (fun a => nth a (shp x) 0) (reduced (ndim x) al))) in *.
  assert (Pc : 1 <= c) by (apply zprod_pos1; intros k Hk; apply in_map_iff in Hk; destruct Hk as [a [<- Ha]]; apply P, nth_In, Q1, Ha).
  pose proof (zprod_pos1 _ Py) as Pn.
  rewrite (Z3 [] (tindices (shp x))).
  - unfold red_count. replace (map (fun a => nth a (shp x) 0) (seq 0 (ndim x))) with (shp x).
    + rewrite <- bsum_lsum. rewrite <- (bsum_blocks_of (shp x) (reduced (ndim x) al)). rewrite <- Y2, <- SZ.
      rewrite (bsum_ext F (shp y) (at_ y) (fun j => fmul (fdiv f1 (fofZ c)) (lsum (map (at_ x) (block (shp x) (reduced (ndim x) al) j))))).
      * rewrite bsum_mul, fofZ_mul. field. split; apply fofZ_neq0; lia.
      * intros j _. rewrite (Y3 j _ (block_ok _ _ _)). unfold red_count. fold c. field. apply fofZ_neq0; lia.
    + apply list_ext with (d := 0); [unfold ndim; now rewrite map_length, seq_length|]. intros d Hd.
      rewrite (nth_indep (map _ _) 0 (nth (0%nat) (shp x) 0)) by (now rewrite map_length, seq_length).
      rewrite (map_nth (fun a => nth a (shp x) 0)), seq_nth by auto. reflexivity.
  - split; [apply NoDup_tindices|]. intros i. rewrite In_tindices. split; [|tauto]. intros V. split; auto.
    pose proof (valid_length _ _ V) as Li. unfold ndim. rewrite <- Li. apply outside_all.
Qed.

(** mse of the whole and of the parts. *)
Theorem mse_tower (u v : T) ax al y : on_axes u ax al -> shp u = shp v -> (forall n, In n (shp u) -> 1 <= n) -> mse_forward RMean u v ax = Ok y ->
  exists z, mse_forward RMean u v AxNone = Ok z /\ shp z = [] /\ (forall n, In n (shp y) -> 1 <= n) /\
    at_ z [] = fdiv (bsum (shp y) (at_ y)) (fofZ (zprod (shp y))).
Proof.
  intros [A1 A2 A3] E P. unfold mse_forward, metric_forward. rewrite E, seqb_refl. cbn [assertb bind]. rewrite A1.
  assert (AN : check_axes (Z.of_nat (ndim u)) AxNone = Ok (map Z.of_nat (seq 0 (ndim u)))) by (cbn; now rewrite zrange_seq).
  rewrite AN. cbn [bind]. destruct (mse_full_ok F u v E) as [d [D1 [D2 D3]]]. rewrite D1. cbn [bind metric_reduce]. intros H.
  assert (Nd : ndim d = ndim u) by (unfold ndim; congruence). rewrite <- Nd.
  apply (tmean_tower d al); auto; [now rewrite Nd|now rewrite D2].
Qed.
Theorem mse_sum_tower (u v : T) ax al y : on_axes u ax al -> shp u = shp v -> mse_forward RSum u v ax = Ok y ->
  exists z, mse_forward RSum u v AxNone = Ok z /\ shp z = [] /\ at_ z [] = bsum (shp y) (at_ y).
Proof.
  intros [A1 A2 A3] E. unfold mse_forward, metric_forward. rewrite E, seqb_refl. cbn [assertb bind]. rewrite A1.
  assert (AN : check_axes (Z.of_nat (ndim u)) AxNone = Ok (map Z.of_nat (seq 0 (ndim u)))) by (cbn; now rewrite zrange_seq).
  rewrite AN. cbn [bind]. destruct (mse_full_ok F u v E) as [d [D1 [D2 D3]]]. rewrite D1. cbn [bind metric_reduce]. intros H.
  assert (Nd : ndim d = ndim u) by (unfold ndim; congruence). rewrite <- Nd.
  apply (tsum_tower d al); auto; now rewrite Nd.
Qed.

(** SSIM of the whole and of the parts. *)
Theorem ssim_tower fuel junk (s : ssim F) (x y : T) cax rax al rl kers pd score full : ssim_call fuel s x y cax rax al rl kers pd ->
  snd (ssim_forward (sep_forward fuel junk) x y cax rax s) = Ok (score, full) ->
  exists z, snd (ssim_forward (sep_forward fuel junk) x y cax AxNone s) = Ok (z, full) /\ shp z = [] /\ (forall n, In n (shp score) -> 1 <= n) /\
    at_ z [] = fdiv (bsum (shp score) (at_ score)) (fofZ (zprod (shp score))).
Proof.
  intros [Hs OA OR B BC Cr Po Sc].
  destruct (blur_ok F fuel junk (ss_blur s) x cax al kers pd OA B BC) as [psh [osh [ws BF]]].
  destruct (scale_ok F s (length al) kers _ pd B Sc) as [c [Sc1 [Sc2 _]]]. specialize (Sc1 (map Z.of_nat al) (map_length _ _)).
  pose proof (bf_blurs _ _ _ _ _ _ _ _ _ _ BF) as BL.
  destruct (ssim_full_run F _ _ _ _ _ _ _ BL s x y c (mlike_refl F _) eq_refl Hs Sc1) as [s1 [G1 R1]].
  unfold ssim_forward, sbind, ret. rewrite Hs, !seqb_refl. cbn [assertb].
  assert (AN : check_axes (Z.of_nat (ndim x)) AxNone = Ok (map Z.of_nat (seq 0 (ndim x)))) by (cbn; now rewrite zrange_seq).
  rewrite (oa_args _ _ _ OA), (oa_args _ _ _ OR), AN.
  assert (Lo : length osh = ndim x) by (eapply (osh_len F); eauto).
  destruct R1 as [[f1' [-> [S1 V1]]]|[-> _]]; [|intros; discriminate].
  destruct (crop_run F fuel junk (ss_blur s) al kers pd (shp x) psh osh ws BF Po s s1 f1' G1 S1) as [c1 [-> [Co1 Pc1]]]; auto. { intros ->. exact BC. }
  assert (Nf : ndim f1' = ndim x) by (unfold ndim; rewrite S1; exact Lo).
  assert (Nc : ndim c1 = ndim x) by (rewrite (co_nd _ _ _ _ _ Co1); exact Nf).
  destruct (tmean c1 (map Z.of_nat rl) false) as [t1|] eqn:T1; cbn [snd]; [|intros; discriminate]. intros Q. injection Q as <- <-.
  destruct (tmean_tower c1 rl t1) as [z [Z1 Z2]]; auto; [rewrite Nc; apply (oa_in _ _ _ OR)|apply (oa_distinct _ _ _ OR)|].
  rewrite Nc in Z1. rewrite Z1. exists z. cbn [snd]. auto.
Qed.
End Tower.
