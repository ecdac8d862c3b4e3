(** Reductions, the mse and SSIM treat no axis specially. *)
From Coq Require Import Permutation.
From Verif Require Export PermEdge PickSsim.
Open Scope Z_scope.

(** y and y' are what is left of an image of n axes and of its renamed form (of shape s') after a reduction along al and along al'. *)
Definition renamed_out {F : ofield} (ren : nat -> nat) (n : nat) (s' : list Z) (al al' : list nat) (y y' : tensor F) : Prop :=
  shp y = outside al (pull ren n s') /\ shp y' = outside al' s' /\
  forall i, valid s' i -> at_ y' (outside al' i) = at_ y (outside al (pull ren n i)).

Lemma outside_eq al i i' : length i = length i' -> (outside al i = outside al i' <-> forall d, (d < length i)%nat -> ~ In d al -> nth d i 0 = nth d i' 0).
Proof.
  intros L. unfold outside. rewrite <- L. split.
  - intros E d Hd Nd. set (l := filter (fun d => negb (existsb (Nat.eqb d) al)) (seq 0 (length i))) in *.
    assert (Hl : In d l). { apply filter_In. split; [apply in_seq; lia|]. apply negb_true_iff. destruct (existsb (Nat.eqb d) al) eqn:Q; auto. exfalso. apply Nd.
      apply existsb_exists in Q as [b [Hb Q]]. apply Nat.eqb_eq in Q. now subst. }
    clearbody l. induction l as [|b l IH]; [destruct Hl|]. cbn in E. injection E as E1 E2. destruct Hl as [->|Hl]; auto.
  - intros H. apply map_ext_in. intros d Hd. apply filter_In in Hd as [Hd Q]. apply in_seq in Hd. apply H; [lia|]. intros Hi.
    apply negb_true_iff in Q. assert (existsb (Nat.eqb d) al = true); [|congruence]. apply existsb_exists. exists d. split; auto. apply Nat.eqb_refl.
Qed.

Lemma outside_none al i : (forall d, (d < length i)%nat -> In d al) -> outside al i = [].
Proof.
  intros H. unfold outside. rewrite filter_none; [reflexivity|]. intros d Hd. apply in_seq in Hd. apply negb_false_iff, existsb_exists. exists d. split; [apply H; lia|apply Nat.eqb_refl].
Qed.
(** Reducing every axis leaves one number, the same for both. *)
Lemma renamed_out_all (F : ofield) ren n s' al al' (y y' : tensor F) : length s' = n -> (forall k, In k s' -> 1 <= k) ->
  (forall d, (d < n)%nat -> In d al) -> (forall d, (d < n)%nat -> In d al') -> renamed_out ren n s' al al' y y' ->
  shp y = [] /\ shp y' = [] /\ at_ y' [] = at_ y [].
Proof.
  intros L P H H' (S1 & S2 & V). rewrite outside_none in S1 by (rewrite pull_length; auto). rewrite outside_none in S2 by (now rewrite L). split; auto. split; auto.
  assert (W : valid s' (map (fun _ => 0) s')). { clear -P. induction s' as [|k s' IH]; cbn; constructor; [specialize (P k (or_introl eq_refl)); lia|]. apply IH. intros; apply P; now right. }
  specialize (V _ W). rewrite !outside_none in V; auto; rewrite ?pull_length, ?map_length; auto. now rewrite L.
Qed.

Section PermReduce.
Variable F : ofield.
Notation T := (tensor F).
Variables (n : nat) (ren back : nat -> nat).
Hypothesis RN : renames n ren back.

Lemma pull_back j : length j = n -> pull ren n (pull back n j) = j.
Proof.
  intros L. apply list_ext with (d := 0); [now rewrite pull_length|]. rewrite pull_length. intros d Hd. rewrite pull_nth by auto.
  rewrite pull_nth by (now apply (rn_lt _ _ _ RN)). now rewrite (rn_back _ _ _ RN).
Qed.
Lemma back_pull j : length j = n -> pull back n (pull ren n j) = j.
Proof.
  intros L. apply list_ext with (d := 0); [now rewrite pull_length|]. rewrite pull_length. intros d Hd. rewrite pull_nth by auto.
  rewrite pull_nth by (now apply (rn_back_lt _ _ _ RN)). now rewrite (rn_ren _ _ _ RN).
Qed.
Lemma renames_back : renames n back ren.
Proof. destruct RN. constructor; auto. Qed.

Lemma ren_seq : Permutation (map ren (seq 0 n)) (seq 0 n).
Proof.
  apply NoDup_Permutation.
  - apply (map_ren_nodup n ren back RN); [intros a Ha; apply in_seq in Ha; lia|apply seq_NoDup].
  - apply seq_NoDup.
  - intros a. rewrite in_map_iff. split.
    + intros [b [<- Hb]]. apply in_seq in Hb. apply in_seq. pose proof (rn_lt _ _ _ RN b). lia.
    + intros Ha. apply in_seq in Ha. exists (back a). split; [apply (rn_ren _ _ _ RN); lia|]. apply in_seq. pose proof (rn_back_lt _ _ _ RN a). lia.
Qed.
Lemma reduced_ren al : Permutation (map ren (reduced n al)) (reduced n (map ren al)).
Proof. destruct al as [|a al]; cbn [reduced map]; [apply ren_seq|apply Permutation_refl]. Qed.

(** Any two lists of axes that are renamed forms of each other up to order. *)
Variables R R' : list nat.
Hypothesis HR : forall a, In a R -> (a < n)%nat.
Hypothesis PR : Permutation (map ren R) R'.

Lemma in_ren a : (a < n)%nat -> (In (ren a) R' <-> In a R).
Proof.
  intros Ha. split.
  - intros H. apply (Permutation_in _ (Permutation_sym PR)) in H. apply in_map_iff in H as [b [E Hb]].
    replace a with b; auto. apply (ren_inj n ren back RN); auto.
  - intros H. apply (Permutation_in _ PR). now apply in_map.
Qed.
Lemma outside_ren i i' : length i = n -> length i' = n ->
  (outside R' i = outside R' i' <-> outside R (pull ren n i) = outside R (pull ren n i')).
Proof.
  intros L L'. rewrite !outside_eq by (rewrite ?pull_length; lia). rewrite pull_length, L. split; intros H d Hd Nd.
  - rewrite !pull_nth by auto. apply H; [now apply (rn_lt _ _ _ RN)|]. now rewrite in_ren.
  - specialize (H (back d) (rn_back_lt _ _ _ RN d Hd)). rewrite !pull_nth, (rn_ren _ _ _ RN) in H by (auto; now apply (rn_back_lt _ _ _ RN)).
    apply H. rewrite <- in_ren by (now apply (rn_back_lt _ _ _ RN)). now rewrite (rn_ren _ _ _ RN).
Qed.

Lemma block_sum_perm (x x' : T) i L L' : ndim x = n -> permuted ren x x' -> valid (shp x') i ->
  block_of (shp x') R' (outside R' i) L' -> block_of (shp x) R (outside R (pull ren n i)) L ->
  lsum (map (at_ x') L') = lsum (map (at_ x) L).
Proof.
  intros Nx P V B' B. pose proof P as (N' & S1 & E1). rewrite Nx in *. unfold ndim in N'. pose proof (valid_length _ _ V) as Li.
  destruct B as [N1 H1]. destruct B' as [N2 H2].
  transitivity (lsum (map (at_ x) (map (pull ren n) L'))).
  - rewrite map_map. apply lsum_ext. intros j Hj. apply H2 in Hj as [W _]. auto.
  - apply lsum_perm, Permutation_map. apply NoDup_Permutation; auto.
    + apply (NoDup_map_inv (pull back n)). rewrite map_map. replace (map (fun j => pull back n (pull ren n j)) L') with L'; auto.
      symmetry. rewrite <- map_id. apply map_ext_in. intros j Hj. apply H2 in Hj as [W _]. apply valid_length in W. apply back_pull. lia.
    + intros j. rewrite in_map_iff, H1. split.
      * intros [j' [<- Hj]]. apply H2 in Hj as [W E]. pose proof (valid_length _ _ W). split.
        -- eapply perm_valid; eauto.
        -- apply outside_ren; auto; lia.
      * intros [W E]. exists (pull back n j). pose proof (valid_length _ _ W) as Lj. unfold ndim in Nx. rewrite Nx in Lj.
        split; [now apply pull_back|]. apply H2. split.
        -- rewrite <- (back_pull (shp x')) by auto. rewrite <- S1. now apply (pull_valid n back ren renames_back).
        -- apply outside_ren; [rewrite pull_length; auto|lia|]. now rewrite pull_back.
Qed.
End PermReduce.

Section PermMetrics.
Variable F : ofield.
Notation T := (tensor F).
Variables (n : nat) (ren back : nat -> nat).
Hypothesis RN : renames n ren back.

Theorem tsum_perm (x x' : T) al : (forall a, In a al -> (a < n)%nat) -> NoDup al -> ndim x = n -> permuted ren x x' ->
  exists y y', tsum x (map Z.of_nat al) false = Ok y /\ tsum x' (map Z.of_nat (map ren al)) false = Ok y' /\
    renamed_out ren n (shp x') (reduced n al) (reduced n (map ren al)) y y'.
Proof.
  intros H N Nx P. pose proof P as (N' & S1 & _). rewrite Nx in N', S1.
  assert (H' : forall a, In a (map ren al) -> (a < n)%nat) by (intros a Ha; apply in_map_iff in Ha as [b [<- Hb]]; apply (rn_lt _ _ _ RN); auto).
  assert (HR : forall a, In a (reduced n al) -> (a < n)%nat) by (intros a Ha; exact (reduced_in n al a H Ha)).
  destruct (tsum_ok F x al false) as [y [Y1 [Y2 Y3]]]; [now rewrite Nx|auto|].
  destruct (tsum_ok F x' (map ren al) false) as [y' [Y1' [Y2' Y3']]]; [now rewrite N'|now apply (map_ren_nodup n ren back RN)|]. rewrite Nx, N' in *.
  exists y, y'. split; auto. split; auto. split; [now rewrite <- S1|]. split; auto. intros i V.
  rewrite (Y3' _ _ (block_ok _ _ _)), (Y3 _ _ (block_ok _ _ _)).
  apply (block_sum_perm F n ren back RN (reduced n al) (reduced n (map ren al)) HR (reduced_ren n ren back RN al) x x' i); auto; apply block_ok.
Qed.
Lemma count_perm (x x' : T) al : (forall a, In a al -> (a < n)%nat) -> ndim x = n -> permuted ren x x' ->
  red_count F x' (reduced n (map ren al)) = red_count F x (reduced n al).
Proof.
  intros H Nx P. unfold red_count. rewrite <- (zprod_perm _ _ (Permutation_map (fun a => nth a (shp x') 0) (reduced_ren n ren back RN al))).
  rewrite map_map. f_equal. apply map_ext_in. intros a Ha. apply (perm_shape F n ren x x' Nx P). exact (reduced_in n al a H Ha).
Qed.
Theorem tmean_perm (x x' : T) al : (forall a, In a al -> (a < n)%nat) -> NoDup al -> (forall a, In a (reduced n al) -> 0 < nth a (shp x) 0) ->
  ndim x = n -> permuted ren x x' ->
  exists y y', tmean x (map Z.of_nat al) false = Ok y /\ tmean x' (map Z.of_nat (map ren al)) false = Ok y' /\
    renamed_out ren n (shp x') (reduced n al) (reduced n (map ren al)) y y'.
Proof.
  intros H N Hp Nx P. pose proof P as (N' & S1 & _). rewrite Nx in N', S1.
  assert (H' : forall a, In a (map ren al) -> (a < n)%nat) by (intros a Ha; apply in_map_iff in Ha as [b [<- Hb]]; apply (rn_lt _ _ _ RN); auto).
  assert (HR : forall a, In a (reduced n al) -> (a < n)%nat) by (intros a Ha; exact (reduced_in n al a H Ha)).
  destruct (tmean_ok F x al false) as [y [Y1 [Y2 Y3]]]; [now rewrite Nx|auto|now rewrite Nx|].
  destruct (tmean_ok F x' (map ren al) false) as [y' [Y1' [Y2' Y3']]]; [now rewrite N'|now apply (map_ren_nodup n ren back RN)| |].
  { rewrite N'. intros a Ha. apply (Permutation_in _ (Permutation_sym (reduced_ren n ren back RN al))) in Ha. apply in_map_iff in Ha as [b [<- Hb]].
    rewrite (perm_shape F n ren x x' Nx P); auto. }
  rewrite Nx, N' in *. exists y, y'. split; auto. split; auto. split; [now rewrite <- S1|]. split; auto. intros i V.
  rewrite (Y3' _ _ (block_ok _ _ _)), (Y3 _ _ (block_ok _ _ _)). rewrite (count_perm x x' al) by auto. f_equal.
  apply (block_sum_perm F n ren back RN (reduced n al) (reduced n (map ren al)) HR (reduced_ren n ren back RN al) x x' i); auto; apply block_ok.
Qed.

Theorem mse_perm r (u v u' v' : T) ax ax' al : on_axes u ax al -> check_axes (Z.of_nat n) ax' = Ok (map Z.of_nat (map ren al)) ->
  shp u = shp v -> ndim u = n -> permuted ren u u' -> permuted ren v v' ->
  match r with
  | RNone => exists e e', mse_forward r u v ax = Ok e /\ mse_forward r u' v' ax' = Ok e' /\ permuted ren e e'
  | RSum => exists y y', mse_forward r u v ax = Ok y /\ mse_forward r u' v' ax' = Ok y' /\
      renamed_out ren n (shp u') (reduced n al) (reduced n (map ren al)) y y'
  | RMean => (forall a, In a (reduced n al) -> 0 < nth a (shp u) 0) ->
      exists y y', mse_forward r u v ax = Ok y /\ mse_forward r u' v' ax' = Ok y' /\
        renamed_out ren n (shp u') (reduced n al) (reduced n (map ren al)) y y'
  | ROther => mse_forward r u v ax = Err ValueError /\ mse_forward r u' v' ax' = Err ValueError
  end.
Proof.
  intros [A1 A2 A3] Hax E Nu Pu Pv. pose proof Pu as (Nu' & Su & Vu). pose proof Pv as (Nv' & Sv & Vv).
  assert (Nv : ndim v = n) by (unfold ndim in *; congruence). rewrite Nu in *. rewrite Nv in *.
  assert (E' : shp u' = shp v').
  { rewrite <- (back_pull n ren back RN (shp u')), <- (back_pull n ren back RN (shp v')) by auto. congruence. }
  unfold mse_forward, metric_forward. rewrite E', E, !seqb_refl. cbn [assertb bind]. rewrite Nu, Nu', A1, Hax. cbn [bind].
  destruct (mse_full_ok F u v E) as [e [D1 [D2 D3]]]. destruct (mse_full_ok F u' v') as [e' [D1' [D2' D3']]]; [congruence|]. rewrite D1, D1'. cbn [bind].
  assert (Ne : ndim e = n) by (unfold ndim in *; congruence).
  assert (Fd : permuted ren e e').
  { split; [unfold ndim in *; congruence|]. rewrite Ne. split; [rewrite D2, D2'; congruence|]. intros i Vi. rewrite D2' in Vi.
    rewrite D3' by congruence. rewrite Vu, Vv by congruence. symmetry. apply D3.
    pose proof (perm_valid F n ren back RN u u' i Nu Pu ltac:(congruence)) as Q. congruence. }
  replace (shp v') with (shp e') by congruence.
  destruct r; cbn [metric_reduce].
  - intros Hp. apply tmean_perm; auto. replace (shp e) with (shp v) by congruence; exact Hp.
  - apply tsum_perm; auto.
  - eauto.
  - auto.
Qed.

(** SSIM. *)
Lemma blur_call_perm fuel (x x' : T) al kers pd : ndim x = n -> permuted ren x x' -> (forall a, In a al -> (a < n)%nat) -> NoDup al ->
  blur_call fuel x al kers pd -> blur_call fuel x' (map ren al) kers pd.
Proof.
  intros Nx P Hal Nd B. unfold blur_call in *. destruct pd as [p|].
  - destruct B as [ms [[O1 O2 O3] N0 P0 P1 SS PF FM FU]]. exists ms. pose proof P as (N' & S1 & _). rewrite Nx in *. constructor; rewrite ?N', ?map_length; auto.
    + constructor; rewrite ?N'.
      * apply check_axes_seq_nat. intros a Ha. apply in_map_iff in Ha as [b [<- Hb]]. apply (rn_lt _ _ _ RN); auto.
      * intros a Ha. apply in_map_iff in Ha as [b [<- Hb]]. apply (rn_lt _ _ _ RN); auto.
      * now apply (map_ren_nodup n ren back RN).
    + intros d Hd. rewrite (perm_shape_back F n ren back RN x x') by auto. apply P0. now apply (rn_back_lt _ _ _ RN).
    + intros a Ha. apply in_map_iff in Ha as [b [<- Hb]]. rewrite (perm_shape F n ren x x'); auto.
    + intros d k Hd Hk. rewrite (perm_shape_back F n ren back RN x x') by auto. apply FU; auto. now apply (rn_back_lt _ _ _ RN).
  - intros r Hr. rewrite map_length in Hr. rewrite map_nth_ren by auto. rewrite (perm_shape F n ren x x'); auto. apply Hal. now apply nth_In.
Qed.
Lemma pos_perm (x x' : T) : ndim x = n -> permuted ren x x' -> (forall k, In k (shp x) -> 1 <= k) -> forall k, In k (shp x') -> 1 <= k.
Proof.
  intros Nx P H k Hk. destruct P as (N' & S1 & E1) eqn:EP. unfold ndim in *. destruct (In_nth _ _ 0 Hk) as [d [Hd <-]].
  rewrite N', Nx in Hd. rewrite (perm_shape_back F n ren back RN x x' Nx P d Hd). apply H, nth_In. rewrite Nx. now apply (rn_back_lt _ _ _ RN).
Qed.
Lemma ws_unique_len fuel junk b al al' kers pd sh psh osh ws sh' psh' osh' ws' : length al' = length al -> blur_facts fuel junk b al kers pd sh psh osh ws ->
  blur_facts (F := F) fuel junk b al' kers pd sh' psh' osh' ws' -> ws' = ws.
Proof.
  intros La BF BF'. destruct (bf_len _ _ _ _ _ _ _ _ _ _ BF) as [_ [L1 L2]]. destruct (bf_len _ _ _ _ _ _ _ _ _ _ BF') as [_ [L1' L2']].
  apply nth_ext with (d := (0, 0)) (d' := (0, 0)); [lia|]. intros r Hr. rewrite L1', La in Hr.
  destruct (bf_ws _ _ _ _ _ _ _ _ _ _ BF r Hr) as [W1 [W2 W3]]. rewrite <- La in Hr. destruct (bf_ws _ _ _ _ _ _ _ _ _ _ BF' r Hr) as [V1 [V2 V3]]. unfold pair_sum in *.
  assert (E : fst (nth r ws' (0, 0)) = fst (nth r ws (0, 0))).
  { destruct pd as [p|]; [|lia]. rewrite <- !(map_nth fst _ (0, 0)). now rewrite (bf_before _ _ _ _ _ _ _ _ _ _ BF p eq_refl), (bf_before _ _ _ _ _ _ _ _ _ _ BF' p eq_refl). }
  destruct (nth r ws (0, 0)), (nth r ws' (0, 0)). cbn in *. f_equal; lia.
Qed.
Lemma blur_perm fuel junk (b : pool F) (x x' z z' : T) al kers pd psh osh ws psh' osh' ws' : on_axes x (AxSeq (map Z.of_nat al)) al ->
  built (length al) kers (repeat 1 (length al)) pd b -> blur_call fuel x al kers pd ->
  blur_facts fuel junk b al kers pd (shp x) psh osh ws -> blur_facts fuel junk b (map ren al) kers pd (shp x') psh' osh' ws' -> ndim x = n -> 
  shp z = shp x -> shp z' = shp x' -> permuted ren z z' ->
  osh = pull ren n osh' /\ length osh' = n /\
  forall j, valid osh' j -> blur_at fuel junk (map ren al) kers pd ws' z' j = blur_at fuel junk al kers pd ws z (pull ren n j).
Proof.
  intros OA B BC BF BF' Nx Hz Hz' P. pose proof (bf_blurs _ _ _ _ _ _ _ _ _ _ BF) as BL. pose proof (bf_blurs _ _ _ _ _ _ _ _ _ _ BF') as BL'.
  assert (OZ : on_axes z (AxSeq (map Z.of_nat al)) al). { destruct OA as [O1 O2 O3]. unfold ndim in *. split; unfold ndim; rewrite ?Hz; auto. }
  assert (Nz : ndim z = n) by (unfold ndim in *; congruence).
  assert (CA : check_axes (Z.of_nat n) (AxSeq (map Z.of_nat (map ren al))) = Ok (map Z.of_nat (map ren al))).
  { apply check_axes_seq_nat. intros a Ha. apply in_map_iff in Ha as [c [<- Hc]]. apply (rn_lt _ _ _ RN). rewrite <- Nx. apply (oa_in _ _ _ OA); auto. }
  assert (Q : exists y y', snd (sep_forward fuel junk b z (AxSeq (map Z.of_nat al))) = Ok y /\
     snd (sep_forward fuel junk b z' (AxSeq (map Z.of_nat (map ren al)))) = Ok y' /\ permuted ren y y').
  { destruct pd as [p|].
    - destruct BC as [ms SC].
      apply (pool_same_permuted F n ren back RN fuel junk junk b z z' (AxSeq (map Z.of_nat al)) _ al kers (repeat 1 (length al)) p ms); auto.
      destruct SC. constructor; auto; unfold ndim in *; rewrite ?Hz; auto.
    - apply (pool_valid_permuted F n ren back RN fuel junk junk b z z' (AxSeq (map Z.of_nat al)) _ al kers (repeat 1 (length al))); auto. rewrite Hz. exact BC. }
  destruct Q as [y [y' [Y [Y' (Ny & Sy & Vy)]]]].
  destruct (bl_run _ _ _ _ _ _ _ BL b z (mlike_refl F _) Hz) as [b1 [t [R1 [_ [_ [St Vt]]]]]]. rewrite R1 in Y. cbn in Y. injection Y as <-.
  destruct (bl_run _ _ _ _ _ _ _ BL' b z' (mlike_refl F _) Hz') as [b2 [t' [R2 [_ [_ [St' Vt']]]]]]. rewrite R2 in Y'. cbn in Y'. injection Y' as <-.
  assert (Lo : ndim t = n) by (unfold ndim; rewrite St; rewrite <- Nx; eapply (osh_len F); eauto).
  rewrite Lo in *. split; [congruence|]. split; [rewrite <- St'; exact Ny|]. intros j Vj.
  rewrite <- Vt' by auto. rewrite Vy by (now rewrite St'). apply Vt. rewrite <- St, Sy. apply (pull_valid n ren back RN); auto. now rewrite St'.
Qed.
Lemma crop_perm al cw (full full' c c' : T) : NoDup al -> (forall a, In a al -> (a < n)%nat) -> ndim full = n -> length cw = length al ->
  permuted ren full full' -> crop_of F al cw full c -> crop_of F (map ren al) cw full' c' -> permuted ren c c'.
Proof.
  intros N L Nf Lw P A B. pose proof P as (N' & S & V). pose proof (co_nd _ _ _ _ _ A) as Nc. pose proof (co_nd _ _ _ _ _ B) as Nc'. rewrite Nf in *. rewrite N' in Nc'.
  assert (Sc : shp c = pull ren n (shp c')).
  { apply list_ext with (d := 0); [rewrite pull_length; exact Nc|]. intros a Ha. unfold ndim in Nc. rewrite Nc in Ha. rewrite pull_nth by auto.
    destruct (in_dec Nat.eq_dec a al) as [Hi|Hi].
    + destruct (In_pos a al 0%nat Hi) as [r [Hr Er]]. pose proof (co_shape _ _ _ _ _ A r Hr) as E1. pose proof (co_shape _ _ _ _ _ B r ltac:(now rewrite map_length)) as E2.
      rewrite map_nth_ren in E2 by auto. rewrite Er in E1, E2. rewrite E1, E2. now rewrite (perm_shape F n ren full full').
    + rewrite (co_other _ _ _ _ _ A), (co_other _ _ _ _ _ B); auto. { now rewrite (perm_shape F n ren full full'). }
      intros H. apply in_map_iff in H as [b [E Hb]]. apply Hi. replace a with b; auto. apply (ren_inj n ren back RN); auto. }
  split; [unfold ndim in *; congruence|]. rewrite Nc. split; auto. intros j Vj. destruct (co_val _ _ _ _ _ B j Vj) as [W ->]. rewrite V by auto.
  assert (Lj : length j = n) by (rewrite (valid_length _ _ Vj); exact Nc').
  destruct (co_val _ _ _ _ _ A (pull ren n j)) as [_ ->]. { rewrite Sc. apply (pull_valid n ren back RN); auto. }
  f_equal. rewrite map_length. apply (place_pull n ren back RN); auto.
Qed.

Theorem ssim_perm fuel junk (s : ssim F) (x y x' y' : T) cax rax cax' rax' al rl kers pd : ssim_call fuel s x y cax rax al rl kers pd ->
  ndim x = n -> permuted ren x x' -> permuted ren y y' ->
  check_axes (Z.of_nat n) cax' = Ok (map Z.of_nat (map ren al)) -> check_axes (Z.of_nat n) rax' = Ok (map Z.of_nat (map ren rl)) ->
  (exists score map score' map', snd (ssim_forward (sep_forward fuel junk) x y cax rax s) = Ok (score, map) /\
    snd (ssim_forward (sep_forward fuel junk) x' y' cax' rax' s) = Ok (score', map') /\ permuted ren map map' /\
    exists c' : list Z, length c' = n /\ (forall k, In k c' -> 1 <= k) /\ renamed_out ren n c' (reduced n rl) (reduced n (List.map ren rl)) score score') \/
  (snd (ssim_forward (sep_forward fuel junk) x y cax rax s) = Err ZeroDivisionError /\
   snd (ssim_forward (sep_forward fuel junk) x' y' cax' rax' s) = Err ZeroDivisionError).
Proof.
  intros SC Nx Px Py Hca Hra. pose proof SC as [Hs OA OR B BC Cr Po Sc]. pose proof Px as (Nx' & Sx & Vx). pose proof Py as (Ny' & Sy & Vy).
  assert (Ny : ndim y = n) by (unfold ndim in *; congruence). rewrite Nx in Nx', Sx, Vx. rewrite Ny in Ny', Sy, Vy.
  assert (Hs' : shp y' = shp x').
  { rewrite <- (back_pull n ren back RN (shp x')), <- (back_pull n ren back RN (shp y')) by auto. congruence. }
  assert (Hal : forall a, In a al -> (a < n)%nat) by (intros a Ha; rewrite <- Nx; apply (oa_in _ _ _ OA); auto).
  assert (Hrl : forall a, In a rl -> (a < n)%nat) by (intros a Ha; rewrite <- Nx; apply (oa_in _ _ _ OR); auto).
  assert (Nal : NoDup al) by apply (oa_distinct _ _ _ OA). assert (Nrl : NoDup rl) by apply (oa_distinct _ _ _ OR).
  pose proof (ren_on_axes F n ren back RN x x' cax cax' al Nx Px OA Hca) as OA'. pose proof (ren_on_axes F n ren back RN x x' rax rax' rl Nx Px OR Hra) as OR'.
  pose proof (blur_call_perm fuel x x' al kers pd Nx Px Hal Nal BC) as BC'. pose proof (pos_perm x x' Nx Px Po) as Po'.
  assert (B' : built (length (List.map ren al)) kers (repeat 1 (length (List.map ren al))) pd (ss_blur s)) by (now rewrite map_length).
  destruct (blur_ok F fuel junk (ss_blur s) x cax al kers pd OA B BC) as [psh [osh [ws BF]]].
  destruct (blur_ok F fuel junk (ss_blur s) x' cax' (List.map ren al) kers pd OA' B' BC') as [psh' [osh' [ws' BF']]].
  pose proof (ws_unique_len _ _ _ _ _ _ _ _ _ _ _ _ _ _ _ (map_length ren al) BF BF') as ->.
  destruct (scale_ok F s (length al) kers _ pd B Sc) as [c [Sc1 [Sc2 _]]].
  assert (Sc1' := Sc1 (List.map Z.of_nat (List.map ren al))). rewrite !map_length in Sc1'. specialize (Sc1' eq_refl). specialize (Sc1 (List.map Z.of_nat al) (map_length _ _)).
  pose proof (bf_blurs _ _ _ _ _ _ _ _ _ _ BF) as BL. pose proof (bf_blurs _ _ _ _ _ _ _ _ _ _ BF') as BL'.
  destruct (ssim_full_run F _ _ _ _ _ _ _ BL s x y c (mlike_refl F _) eq_refl Hs Sc1) as [s1 [G1 R1]].
  destruct (ssim_full_run F _ _ _ _ _ _ _ BL' s x' y' c (mlike_refl F _) eq_refl Hs' Sc1') as [s2 [G2 R2]].
  unfold ssim_forward, sbind, ret. rewrite Hs', Hs, !seqb_refl. cbn [assertb].
  rewrite (oa_args _ _ _ OA), (oa_args _ _ _ OR), (oa_args _ _ _ OA'), (oa_args _ _ _ OR').
  assert (FP : forall u v u' v' : T, shp u = shp x -> shp v = shp x -> shp v' = shp u' -> permuted ren u u' -> permuted ren v v' -> permuted ren (prodt u v) (prodt u' v')).
  { intros u v u' v' Hu Hv Hv' (U1 & U2 & U3) (V1 & V2 & V3). split; [exact U1|]. split; [exact U2|]. intros i Vi. cbn [prodt shp at_] in *. rewrite U3 by auto. rewrite V3 by congruence.
    replace (ndim (prodt u v)) with (ndim u) by reflexivity. replace (ndim v) with (ndim u) by (unfold ndim; congruence). reflexivity. }
  pose proof (fun z z' => blur_perm fuel junk (ss_blur s) x x' z z' al kers pd psh osh ws psh' osh' ws (on_axes_seq F _ _ _ OA) B BC BF BF' Nx) as BFl.
  destruct (BFl x x' eq_refl eq_refl Px) as [So [Lo' E1]]. assert (E2 := proj2 (proj2 (BFl y y' Hs Hs' Py))).
  assert (E11 := proj2 (proj2 (BFl (prodt x x) (prodt x' x') eq_refl eq_refl (FP x x x' x' eq_refl eq_refl eq_refl Px Px)))).
  assert (E22 := proj2 (proj2 (BFl (prodt y y) (prodt y' y') Hs Hs' (FP y y y' y' Hs Hs eq_refl Py Py)))).
  assert (E12 := proj2 (proj2 (BFl (prodt x y) (prodt x' y') eq_refl eq_refl (FP x y x' y' eq_refl Hs Hs' Px Py)))). clear BFl.
  assert (Lo : length osh = n) by (rewrite So; apply pull_length).
  assert (VP : forall j, valid osh' j -> valid osh (pull ren n j)) by (intros j Vj; rewrite So; apply (pull_valid n ren back RN); auto).
  assert (VQ : forall j, valid osh j -> valid osh' (pull back n j) /\ pull ren n (pull back n j) = j).
  { intros j Vj. pose proof (valid_length _ _ Vj) as Lj. rewrite Lo in Lj. split; [|now apply (pull_back n ren back RN)].
    rewrite <- (back_pull n ren back RN osh') by auto. rewrite <- So. now apply (pull_valid n back ren (renames_back n ren back RN)). }
  destruct R1 as [[f1' [-> [S1 V1]]]|[-> [j1 [Vj1 Z1]]]].
  2:{ right. split; [reflexivity|]. destruct R2 as [[f2 [-> [S2 V2]]]|[-> _]]; [|reflexivity]. exfalso.
      destruct (VQ j1 Vj1) as [Vq Eq]. destruct (V2 _ Vq) as [Q _]. apply Q. rewrite E1, E2, E11, E22 by auto. rewrite Eq. exact Z1. }
  destruct R2 as [[f2 [-> [S2 V2]]]|[_ [j2 [Vj2 Z2]]]].
  2:{ exfalso. destruct (V1 _ (VP _ Vj2)) as [Q _]. apply Q. rewrite E1, E2, E11, E22 in Z2 by auto. exact Z2. }
  left.
  destruct (crop_run F fuel junk (ss_blur s) al kers pd (shp x) psh osh ws BF Po s s1 f1' G1 S1) as [c1 [-> [Co1 Pc1]]]; auto. { intros ->. exact BC. }
  destruct (crop_run F fuel junk (ss_blur s) (List.map ren al) kers pd (shp x') psh' osh' ws BF' Po' s s2 f2 G2 S2) as [c2 [-> [Co2 Pc2]]]; auto.
  { intros ->. exact BC'. }
  { intros Ec r Hr. rewrite map_length in Hr. rewrite map_nth_ren by auto. rewrite (perm_shape F n ren x x'); auto. apply Hal, nth_In. auto. }
  assert (TQ : permuted ren f1' f2).
  { split; [unfold ndim; congruence|]. replace (ndim f1') with n by (unfold ndim; congruence). split; [congruence|]. intros j Vj. rewrite S2 in Vj.
    destruct (V2 j Vj) as [_ ->]. destruct (V1 _ (VP _ Vj)) as [_ ->]. rewrite E1, E2, E11, E22, E12 by auto. reflexivity. }
  assert (Nf : ndim f1' = n) by (unfold ndim; rewrite S1; exact Lo).
  assert (Nc : ndim c1 = n) by (rewrite (co_nd _ _ _ _ _ Co1); exact Nf).
  destruct (bf_len _ _ _ _ _ _ _ _ _ _ BF) as [_ [Lw Lk]].
  assert (Ecw : crop_widths F (ss_crop s) pd (List.map ren al) ws = crop_widths F (ss_crop s) pd al ws) by (unfold crop_widths; now rewrite map_length).
  rewrite Ecw in Co2.
  assert (FC : permuted ren c1 c2).
  { apply (crop_perm al (crop_widths F (ss_crop s) pd al ws) f1' f2); auto.
    unfold crop_widths. destruct pd; [destruct (ss_crop s)|]; auto; apply repeat_length. }
  assert (Pc : forall a, In a (reduced n rl) -> 0 < nth a (shp c1) 0).
  { intros a Ha. assert (a < ndim c1)%nat by (rewrite Nc; exact (reduced_in n rl a Hrl Ha)).
    assert (1 <= nth a (shp c1) 0); [|lia]. apply Pc1, nth_In. auto. }
  destruct (tmean_perm c1 c2 rl Hrl Nrl Pc Nc FC) as [t1 [t2 [T1 [T2 T3]]]].
  rewrite T1, T2. cbn [snd]. exists t1, f1', t2, f2. split; [reflexivity|]. split; [reflexivity|]. split; auto. exists (shp c2). split; [destruct FC as (Q & _); rewrite Nc in Q; exact Q|]. auto.
Qed.
End PermMetrics.
