(** MS_SSIM works item by item along the axes that are not content axes, and commutes with permuting the axes. *)
From Verif Require Export MsSim.
Open Scope Z_scope.

Section MR.
Variable F : ofield.
Notation T := (tensor F).

(** Every level can be blurred. *)
Lemma levs_ok fuel junk (s : ssim F) (x y : T) cax rax al rl kers pd m : ms_call fuel s x y cax rax al rl kers pd ->
  large_enough (Z.of_nat (length (ms_weights m))) kers al (shp x) ->
  levs F fuel junk (ss_blur s) kers pd al (Z.of_nat (length (ms_weights (F := F) m)) - 1) (shp x).
Proof.
  intros MC H i Hi. pose proof (levels_ok F fuel junk s x y cax rax al rl kers pd MC m H i Hi) as Lv. split; [exact Lv|]. intros z Hz.
  pose proof (lv_fit _ _ _ _ _ _ _ _ Lv) as Fit. pose proof (lv_pos _ _ _ _ _ _ _ _ Lv) as Ps. pose proof (lv_axes _ _ _ _ _ _ _ _ Lv) as Ax.
  unfold blur_call. destruct pd as [p|]; [|now rewrite Hz]. destruct (mc_padder _ _ _ _ _ _ _ _ _ _ MC) as [ms [C1 C2 C3 C4 C5 C6 C7 C8]]. exists ms.
  assert (Nz : ndim z = ndim x) by (unfold ndim; now rewrite Hz, halved_length).
  assert (Pz : forall d, (d < ndim x)%nat -> 1 <= nth d (shp z) 0) by (intros d Hd; rewrite Hz; apply Ps, nth_In; now rewrite halved_length).
  assert (Le : forall d, (d < ndim x)%nat -> nth d (shp z) 0 <= nth d (shp x) 0).
  { intros d Hd. rewrite Hz. assert (1 <= nth d (shp x) 0) by (apply (mc_pos _ _ _ _ _ _ _ _ _ _ MC), nth_In; auto).
    destruct (in_dec Nat.eq_dec d al) as [Hi'|Hi'].
    - rewrite halved_in by auto. assert (0 < 2 ^ i) by (apply Z.pow_pos_nonneg; lia). apply Z.div_le_upper_bound; nia.
    - rewrite halved_notin by auto. lia. }
  assert (Al : forall a, In a al -> (a < ndim z)%nat) by (intros a Ha; unfold ndim; rewrite Hz; auto).
  constructor; rewrite ?Nz; auto.
  - constructor; [now apply check_axes_seq_nat|exact Al|apply (oa_distinct _ _ _ C1)].
  - intros d Hd. specialize (Pz d Hd). lia.
  - intros a Ha. apply Pz. rewrite <- Nz. auto.
  - intros d k Hd Hk. specialize (C8 d k Hd Hk). specialize (Le d Hd). lia.
Qed.
Lemma large_or L (kers : list (list F)) al sh : large_enough L kers al sh \/ exists r, (r < length al)%nat /\ nth (nth r al 0%nat) sh 0 <= klen (nth r kers []) * 2 ^ (L - 1).
Proof.
  unfold large_enough. induction (length al) as [|n IH]; [left; intros; lia|]. destruct IH as [IH|[r [Hr H]]]; [|right; exists r; auto].
  destruct (Z.lt_ge_cases (klen (nth n kers []) * 2 ^ (L - 1)) (nth (nth n al 0%nat) sh 0)).
  - left. intros r Hr. destruct (Nat.eq_dec r n) as [->|]; auto. apply IH. lia.
  - right. exists n. split; auto.
Qed.

Section Pick.
Variables (d : nat) (g : Z -> Z) (n : Z) (nd : nat).
Definition pick_shape (s s' : list Z) : Prop := length s = nd /\ s' = upd d n s /\ forall k, 0 <= k < n -> 0 <= g k < nth d s 0.
Notation phi := (fun i => upd d (g (nth d i 0)) i).
Notation rel := (rel F phi pick_shape).
Hypothesis Hd : (d < nd)%nat.
Lemma rel_picked (x x' : T) : rel x x' <-> ndim x = nd /\ picked d g n x x'.
Proof. unfold rel, pick_shape, picked, ndim. tauto. Qed.
Lemma ones_upd al : forall s, ~ In d al -> ones_at al (upd d n s) = upd d n (ones_at al s).
Proof.
  induction al as [|a al IH]; intros s H; [reflexivity|]. cbn [ones_at fold_right] in *. unfold ones_at in IH. rewrite IH by (intros E; apply H; now right).
  apply upd_comm. intros ->. apply H. now left.
Qed.
Lemma keep_pick al (x x' y y' : T) : (forall a, In a al -> (a < nd)%nat) -> NoDup al -> ~ In d (reduced nd al) -> (forall k, In k (shp x) -> 1 <= k) -> (forall k, In k (shp x') -> 1 <= k) ->
  rel x x' -> tmean x (map Z.of_nat al) true = Ok y -> tmean x' (map Z.of_nat al) true = Ok y' -> rel y y'.
Proof.
  intros H N Nd Px Px' R E E'. apply rel_picked in R as [Nx P]. pose proof P as (S & G & V). assert (Nx' : ndim x' = nd) by (unfold ndim in *; now rewrite S, upd_length).
  set (Rd := reduced nd al) in *. assert (HR : forall a, In a Rd -> (a < nd)%nat) by (intros a Ha; exact (reduced_in nd al a H Ha)).
  assert (PP : forall z : T, ndim z = nd -> (forall k, In k (shp z) -> 1 <= k) -> forall a, In a Rd -> 0 < nth a (shp z) 0).
  { intros z Nz Pz a Ha. assert (1 <= nth a (shp z) 0); [|lia]. apply Pz, nth_In. unfold ndim in Nz. rewrite Nz. auto. }
  destruct (tmean_ok F x al true) as [u [U1 [U2 U3]]]; rewrite ?Nx; auto. destruct (tmean_ok F x' al true) as [u' [U1' [U2' U3']]]; rewrite ?Nx'; auto.
  rewrite E in U1. injection U1 as <-. rewrite E' in U1'. injection U1' as <-. rewrite Nx in U2, U3. rewrite Nx' in U2', U3'. fold Rd in U2, U3, U2', U3'.
  assert (Lo : length (ones_at Rd (shp x)) = nd) by (rewrite ones_at_length; exact Nx).
  assert (Ne : existsb (Nat.eqb d) Rd = false). { destruct (existsb (Nat.eqb d) Rd) eqn:Q; auto. apply existsb_exists in Q as [a [Q1 Q2]]. apply Nat.eqb_eq in Q2. subst a. contradiction. }
  apply rel_picked. split; [unfold ndim; now rewrite U2|]. split; [rewrite U2, U2', S; now apply ones_upd|]. split.
  { intros k Hk. rewrite U2, ones_at_nth, Ne by (rewrite ?Nx; auto; unfold ndim in Nx; rewrite Nx; auto). auto. }
  intros j Vj. rewrite U2' in Vj. pose proof (valid_length _ _ Vj) as Lj. rewrite ones_at_length in Lj. unfold ndim in Nx'. rewrite Nx' in Lj.
  rewrite (U3' j _ (block_ok _ _ _)), (U3 _ _ (block_ok _ _ _)).
  assert (EC : red_count F x' Rd = red_count F x Rd).
  { unfold red_count. f_equal. apply map_ext_in. intros a Ha. rewrite S. apply nth_upd_ne. intros ->. auto. }
  rewrite EC. f_equal.
  apply (block_sum_pick F d g n Rd x x' (outside Rd j)); auto.
  - rewrite Nx. auto.
  - apply (outside_valid Rd) in Vj. rewrite outside_ones in Vj by (intros a Ha; rewrite Nx'; auto). exact Vj.
  - apply block_ok.
  - destruct (outside_rank Rd d j) as [_ ->]; auto; [lia|]. rewrite <- outside_upd_out by (auto; lia). apply block_ok.
Qed.
Lemma half_upd al i s : ~ In d al -> halved al i (upd d n s) = upd d n (halved al i s).
Proof.
  intros H. apply list_ext with (d := 0); [rewrite halved_length, !upd_length, halved_length; auto|]. rewrite halved_length, upd_length. intros a Ha.
  destruct (Nat.eq_dec a d) as [->|Hne].
  - rewrite halved_notin by auto. rewrite !nth_upd_eq; auto; now rewrite halved_length.
  - rewrite nth_upd_ne by auto. destruct (in_dec Nat.eq_dec a al) as [Hi|Hi].
    + rewrite !halved_in by (rewrite ?upd_length; auto). now rewrite nth_upd_ne by auto.
    + rewrite !halved_notin by auto. now rewrite nth_upd_ne by auto.
Qed.
Lemma down_pick fuel junk al (x x' y y' : T) : NoDup al -> (forall a, In a al -> (a < ndim x)%nat) -> (forall a, In a al -> 2 <= nth a (shp x) 0) -> ~ In d al ->
  rel x x' -> downsample (avg_forward fuel junk true) x (map Z.of_nat al) = Ok y -> downsample (avg_forward fuel junk true) x' (map Z.of_nat al) = Ok y' -> rel y y'.
Proof.
  intros N L P Nd R E E'. apply rel_picked in R as [Nx Pk]. pose proof Pk as (S & G & V). assert (Nx' : ndim x' = nd) by (unfold ndim in *; now rewrite S, upd_length).
  destruct (downsample_ok F fuel junk x al L N P) as [u [U1 [U2 U3]]]. rewrite E in U1. injection U1 as <-.
  destruct (downsample_ok F fuel junk x' al) as [v [V1 [V2 V3]]]; [rewrite Nx'; rewrite Nx in L; exact L|auto| |].
  { intros a Ha. rewrite S, nth_upd_ne; auto. intros ->. auto. }
  rewrite E' in V1. injection V1 as <-. apply rel_picked. split; [unfold ndim in *; now rewrite U2, halved_length|]. split; [rewrite U2, V2, S; now apply half_upd|].
  assert (G' : forall k, 0 <= k < n -> 0 <= g k < nth d (shp y) 0) by (intros k Hk; rewrite U2, halved_notin by auto; auto).
  split; [exact G'|]. intros j Vj. rewrite V3 by auto.
  assert (Vj' : valid (shp y) (upd d (g (nth d j 0)) j)).
  { rewrite V2, S, half_upd, <- U2 in Vj by auto. eapply valid_upd_back; [exact Vj|]. apply G'. pose proof (valid_nth _ _ d Vj) as Q. rewrite upd_length, nth_upd_eq in Q by (rewrite U2, halved_length; unfold ndim in Nx; lia).
    apply Q. rewrite U2, halved_length. unfold ndim in Nx. lia. }
  rewrite U3 by auto. f_equal. apply bsum_ext. intros o Vo. rewrite V.
  - rewrite place_notin by auto. f_equal. symmetry. now apply place_upd.
  - apply (half_valid F); auto; [unfold ndim in *; rewrite Nx'; rewrite Nx in L; exact L|]. now rewrite <- V2.
Qed.

Theorem ms_pick fuel junk (s : ssim F) (x y x' y' : T) cax rax al rl kers pd pow m score : ms_call fuel s x y cax rax al rl kers pd -> ms_call fuel s x' y' cax rax al rl kers pd ->
  ms_weights m <> [] -> ndim x = nd -> ~ In d (reduced nd al) -> picked d g n x x' -> picked d g n y y' ->
  snd (ms_forward (sep_forward fuel junk) pow (avg_forward fuel junk true) m x y cax rax s) = Ok score ->
  exists score', snd (ms_forward (sep_forward fuel junk) pow (avg_forward fuel junk true) m x' y' cax rax s) = Ok score' /\
    (~ In d (reduced nd rl) -> picked (rank (reduced nd rl) d) g n score score').
Proof.
  intros MC MC' Hw Nx Nr Px Py Rs. pose proof (mc_shape _ _ _ _ _ _ _ _ _ _ MC) as Hs. pose proof (mc_shape _ _ _ _ _ _ _ _ _ _ MC') as Hs'.
  assert (Hal : forall a, In a al -> (a < nd)%nat) by (rewrite <- Nx; apply (oa_in _ _ _ (mc_content _ _ _ _ _ _ _ _ _ _ MC))).
  assert (Hrl : forall a, In a rl -> (a < nd)%nat) by (rewrite <- Nx; apply (oa_in _ _ _ (mc_reduce _ _ _ _ _ _ _ _ _ _ MC))).
  assert (Nal : NoDup al) by apply (oa_distinct _ _ _ (mc_content _ _ _ _ _ _ _ _ _ _ MC)). assert (Nrl : NoDup rl) by apply (oa_distinct _ _ _ (mc_reduce _ _ _ _ _ _ _ _ _ _ MC)).
  assert (Na : ~ In d al). { destruct al as [|a0 al0]; [intros []|exact Nr]. }
  destruct (large_or (Z.of_nat (length (ms_weights m))) kers al (shp x)) as [LE|[r [Hr H]]].
  2:{ rewrite (forward_fails F fuel junk s x y cax rax al rl kers pd MC pow m r Hw Hr H) in Rs. discriminate. }
  assert (LE' : large_enough (Z.of_nat (length (ms_weights m))) kers al (shp x')).
  { intros r Hr. rewrite (proj1 Px), nth_upd_ne; auto. intros ->. apply Na, nth_In. auto. }
  destruct (forward_run F fuel junk s x y cax rax al rl kers pd MC pow m Hw LE) as [c [Hc [_ [S1 R]]]].
  destruct (forward_run F fuel junk s x' y' cax rax al rl kers pd MC' pow m Hw LE') as [c' [Hc' [_ [S2 R']]]].
  rewrite S1 in S2. injection S2 as <-.
  pose proof (levs_ok fuel junk s x y cax rax al rl kers pd m MC LE) as Lv. pose proof (levs_ok fuel junk s x' y' cax rax al rl kers pd m MC' LE') as Lv'.
  assert (Rx : rel x x') by (apply rel_picked; auto). assert (Ry : rel y y') by (apply rel_picked; split; auto; unfold ndim in *; now rewrite Hs).
  assert (HV : forall s0 s' i, pick_shape s0 s' -> valid s' i -> valid s0 (phi i)).
  { intros s0 s' i (L & -> & G) V. eapply valid_upd_back; [exact V|]. apply G. pose proof (valid_nth _ _ d V) as Q. rewrite upd_length, nth_upd_eq in Q by lia. apply Q. lia. }
  assert (HB : forall (z z' : T) psh osh ws psh' osh' ws', rel z z' -> lev F fuel junk (ss_blur s) kers pd al (shp z) -> lev F fuel junk (ss_blur s) kers pd al (shp z') ->
    blur_facts fuel junk (ss_blur s) al kers pd (shp z) psh osh ws -> blur_facts fuel junk (ss_blur s) al kers pd (shp z') psh' osh' ws' ->
    ws' = ws /\ pick_shape osh osh' /\ forall j, valid osh' j -> blur_at fuel junk al kers pd ws' z' j = blur_at fuel junk al kers pd ws z (phi j)).
  { intros z z' psh osh ws psh' osh' ws' Rz [Lz Bz] [Lz' Bz'] BF BF'. apply rel_picked in Rz as [Nz Pz]. pose proof (ws_unique F _ _ _ _ _ _ _ _ _ _ _ _ _ _ BF BF') as ->. split; auto.
    assert (OZ : on_axes z (AxSeq (map Z.of_nat al)) al) by (constructor; auto; [apply check_axes_seq_nat|]; rewrite Nz; auto).
    destruct (blur_pick F d g n fuel junk (ss_blur s) z z' z z' _ al kers pd psh osh ws psh' osh' ws OZ (mc_blur _ _ _ _ _ _ _ _ _ _ MC) (Bz z eq_refl) (Bz' z' eq_refl) BF BF' ltac:(lia) Na eq_refl eq_refl Pz)
      as [Q1 [Q2 Q3]].
    split; auto. split; auto. rewrite (osh_len F _ _ _ _ _ _ _ _ _ _ BF). exact Nz. }
  assert (HC : forall cw (full full' cr cr' : T), NoDup al -> (forall a, In a al -> (a < ndim full)%nat) -> length cw = length al -> rel full full' ->
    crop_of F al cw full cr -> crop_of F al cw full' cr' -> rel cr cr').
  { intros cw full full' cr cr' _ Lf Lw Rf C C'. apply rel_picked in Rf as [Nf Pf]. apply rel_picked. split; [rewrite (co_nd _ _ _ _ _ C); exact Nf|].
    eapply (crop_pick F d g n al cw full full'); eauto. lia. }
  assert (HM : forall (cr cr' t t' : T), NoDup al -> (forall a, In a al -> (a < ndim cr)%nat) -> (forall k, In k (shp cr) -> 1 <= k) -> (forall k, In k (shp cr') -> 1 <= k) ->
    rel cr cr' -> tmean cr (map Z.of_nat al) true = Ok t -> tmean cr' (map Z.of_nat al) true = Ok t' -> rel t t').
  { intros cr cr' t t' _ _ P P' Rc. now apply keep_pick. }
  assert (HD : forall (u u' v v' : T), NoDup al -> (forall a, In a al -> (a < ndim u)%nat) -> (forall a, In a al -> 2 <= nth a (shp u) 0) ->
    rel u u' -> downsample (avg_forward fuel junk true) u (map Z.of_nat al) = Ok v -> downsample (avg_forward fuel junk true) u' (map Z.of_nat al) = Ok v' -> rel v v').
  { intros u u' v v' N L P Ru. now apply down_pick. }
  destruct R as [[w [W E]]|[[final [sc [L2 [Rn [Af [Pf [M E]]]]]]]|[E Z]]]; try congruence. rewrite E in Rs. injection Rs as <-.
  destruct R' as [[w' [W' E']]|[[final' [sc' [L2' [Rn' [Af' [Pf' [M' E']]]]]]]|[E' Z']]].
  - rewrite W' in L2. cbn in L2. lia.
  - exists sc'. split; auto. intros Nrd.
    pose proof (run_sim F fuel junk (ss_blur s) al al kers pd _ _ (ss_crop s) c pow m phi pick_shape eq_refl HV HB HC HM HD x y x' y' final final' Hs Hs' Rx Ry Hw Lv Lv' Rn Rn') as RR.
    apply rel_picked in RR as [Nf RR]. rewrite <- Nf in Nrd |- *.
    destruct (tmean_pick F d g n final final' rl) as [u [u' [U1 [U2 U3]]]]; auto.
    + intros a Ha. assert (1 <= nth a (shp final) 0); [|lia]. apply Pf, nth_In. exact (reduced_in _ rl a Af Ha).
    + rewrite Nf. exact Hd.
    + congruence.
  - exfalso. revert Z'. exact (run_sim_zero F fuel junk (ss_blur s) al al kers pd _ _ (ss_crop s) c pow m phi pick_shape eq_refl HV HB HD x y x' y' final Hs Hs' Rx Ry Hw Lv Lv' Rn).
Qed.
End Pick.

Section PermRun.
Variables (n : nat) (ren back : nat -> nat).
Hypothesis RN : renames n ren back.
Definition perm_shapes (s s' : list Z) : Prop := length s' = n /\ s = pull ren n s'.
Notation rel := (rel F (pull ren n) perm_shapes).
Lemma rel_permuted (x x' : T) : rel x x' <-> ndim x = n /\ permuted ren x x'.
Proof.
  unfold MsSim.rel, perm_shapes, permuted. split.
  - intros [[L S] V]. assert (N : ndim x = n) by (unfold ndim; rewrite S; apply pull_length). rewrite N. auto.
  - intros [N [N' [S V]]]. rewrite N in *. auto.
Qed.
Lemma map_ren_in al a : (forall b, In b al -> (b < n)%nat) -> (a < n)%nat -> (In (ren a) (map ren al) <-> In a al).
Proof.
  intros H Ha. split; [|apply in_map]. intros Hi. apply in_map_iff in Hi as [b [E Hb]]. replace a with b; auto. apply (ren_inj n ren back RN); auto.
Qed.
Lemma half_pull al i s : (forall b, In b al -> (b < n)%nat) -> length s = n -> halved al i (pull ren n s) = pull ren n (halved (map ren al) i s).
Proof.
  intros H L. apply list_ext with (d := 0); [now rewrite halved_length, !pull_length|]. rewrite halved_length, pull_length. intros a Ha. rewrite (pull_nth n ren) by auto.
  pose proof (rn_lt _ _ _ RN a Ha) as Hr. destruct (in_dec Nat.eq_dec a al) as [Hi|Hi].
  - rewrite !halved_in by (rewrite ?pull_length, ?L; auto; now apply in_map). now rewrite (pull_nth n ren).
  - rewrite !halved_notin; auto; [now rewrite (pull_nth n ren)|]. now rewrite map_ren_in.
Qed.
Lemma keep_perm al (x x' y y' : T) : (forall a, In a al -> (a < n)%nat) -> NoDup al -> (forall k, In k (shp x) -> 1 <= k) -> (forall k, In k (shp x') -> 1 <= k) ->
  rel x x' -> tmean x (map Z.of_nat al) true = Ok y -> tmean x' (map Z.of_nat (map ren al)) true = Ok y' -> rel y y'.
Proof.
  intros H N Px Px' R E E'. apply rel_permuted in R as [Nx P]. pose proof P as (N' & S & V). rewrite Nx in N', S, V.
  assert (H' : forall a, In a (map ren al) -> (a < n)%nat) by (intros a Ha; apply in_map_iff in Ha as [b [<- Hb]]; apply (rn_lt _ _ _ RN); auto).
  assert (HR : forall a, In a (reduced n al) -> (a < n)%nat) by (intros a Ha; exact (reduced_in n al a H Ha)).
  assert (HR' : forall a, In a (reduced n (map ren al)) -> (a < n)%nat) by (intros a Ha; exact (reduced_in n (map ren al) a H' Ha)).
  assert (PP : forall z : T, ndim z = n -> (forall k, In k (shp z) -> 1 <= k) -> forall a, (a < n)%nat -> 0 < nth a (shp z) 0).
  { intros z Nz Pz a Ha. assert (1 <= nth a (shp z) 0); [|lia]. apply Pz, nth_In. unfold ndim in Nz. rewrite Nz. auto. }
  destruct (tmean_ok F x al true) as [u [U1 [U2 U3]]]; rewrite ?Nx; auto.
  destruct (tmean_ok F x' (map ren al) true) as [u' [U1' [U2' U3']]]; rewrite ?N'; auto. { now apply (map_ren_nodup n ren back RN). }
  rewrite E in U1. injection U1 as <-. rewrite E' in U1'. injection U1' as <-. rewrite Nx in U2, U3. rewrite N' in U2', U3'. unfold ndim in N', Nx.
  assert (Mem : forall a, (a < n)%nat -> existsb (Nat.eqb (ren a)) (reduced n (map ren al)) = existsb (Nat.eqb a) (reduced n al)).
  { intros a Ha. apply Bool.eq_iff_eq_true. rewrite !existsb_exists. pose proof (in_ren n ren back RN (reduced n al) (reduced n (map ren al)) HR (reduced_ren n ren back RN al) a Ha) as Q.
    split; intros [b [B1 B2]]; apply Nat.eqb_eq in B2; subst b; [exists a|exists (ren a)]; rewrite Nat.eqb_refl; split; auto; now apply Q. }
  apply rel_permuted. assert (Ny : ndim y = n) by (unfold ndim; rewrite U2, ones_at_length; exact Nx). split; [exact Ny|]. split; [|rewrite Ny; split].
  - rewrite Ny. unfold ndim. rewrite U2', ones_at_length. exact N'.
  - apply list_ext with (d := 0); [rewrite pull_length; exact Ny|]. intros a Ha. unfold ndim in Ny. rewrite Ny in Ha. rewrite (pull_nth n ren) by auto. rewrite U2, U2', !ones_at_nth; auto.
    + rewrite Mem by auto. destruct (existsb _ _); auto. rewrite S. now rewrite (pull_nth n ren).
    + rewrite N'. auto.
    + rewrite Nx. auto.
  - intros j Vj. rewrite U2' in Vj. pose proof (valid_length _ _ Vj) as Lj. rewrite ones_at_length, N' in Lj.
    assert (W : valid (shp x') j).
    { apply valid_iff. split; [lia|]. intros a Ha. rewrite ?Lj, ?N' in Ha. pose proof (valid_nth _ _ a Vj) as Q. rewrite ones_at_length, N' in Q. specialize (Q Ha).
      rewrite ones_at_nth in Q by (rewrite N'; auto). specialize (PP x' N' Px' a Ha). destruct (existsb _ _); lia. }
    rewrite (U3' j _ (block_ok _ _ _)), (U3 _ _ (block_ok _ _ _)). rewrite (count_perm F n ren back RN x x' al) by auto. f_equal.
    apply (block_sum_perm F n ren back RN (reduced n al) (reduced n (map ren al)) HR (reduced_ren n ren back RN al) x x' j); auto; apply block_ok.
Qed.
Lemma down_perm fuel junk al (x x' y y' : T) : NoDup al -> (forall a, In a al -> (a < ndim x)%nat) -> (forall a, In a al -> 2 <= nth a (shp x) 0) ->
  rel x x' -> downsample (avg_forward fuel junk true) x (map Z.of_nat al) = Ok y -> downsample (avg_forward fuel junk true) x' (map Z.of_nat (map ren al)) = Ok y' -> rel y y'.
Proof.
  intros N L P R E E'. apply rel_permuted in R as [Nx Pk]. pose proof Pk as (N' & S & V). rewrite Nx in N', S, V, L.
  assert (H' : forall a, In a (map ren al) -> (a < n)%nat) by (intros a Ha; apply in_map_iff in Ha as [b [<- Hb]]; apply (rn_lt _ _ _ RN); auto).
  destruct (downsample_ok F fuel junk x al) as [u [U1 [U2 U3]]]; [now rewrite Nx|auto|auto|]. rewrite E in U1. injection U1 as <-.
  destruct (downsample_ok F fuel junk x' (map ren al)) as [v [V1 [V2 V3]]]; [now rewrite N'|now apply (map_ren_nodup n ren back RN)| |].
  { intros a Ha. apply in_map_iff in Ha as [b [<- Hb]]. rewrite (perm_shape F n ren x x'); auto. }
  rewrite E' in V1. injection V1 as <-. rewrite map_length in V3. unfold ndim in N'.
  assert (Sy : shp y = pull ren n (shp y')) by (rewrite U2, V2, S; now apply half_pull).
  assert (Ly : length (shp y') = n) by (rewrite V2, halved_length; exact N').
  apply rel_permuted. assert (Ny : ndim y = n) by (unfold ndim; rewrite Sy; apply pull_length). split; [exact Ny|]. split; [rewrite Ny; exact Ly|]. rewrite Ny. split; [exact Sy|].
  intros j Vj. assert (Lj := valid_length _ _ Vj). rewrite Ly in Lj. rewrite V3 by auto. rewrite U3 by (rewrite Sy; now apply (pull_valid n ren back RN)).
  f_equal. apply bsum_ext. intros o Vo. rewrite V.
  - rewrite (place_pull n ren back RN) by auto. reflexivity.
  - pose proof (half_valid F junk (map ren al) f0 fadd (shp x') j o) as Q. rewrite map_length in Q. apply Q; auto; [rewrite N'; auto|now apply (map_ren_nodup n ren back RN)|]. now rewrite <- V2.
Qed.

Section Both.
Variables (fuel : nat) (junk : list Z -> F) (s : ssim F) (x y x' y' : T) (cax rax cax' rax' : axes_arg) (al rl rl' : list nat) (kers : list (list F)) (pd : option (padder F)).
Variables (pow : F -> F -> F) (m : msssim F) (c : F).
Hypothesis MC : ms_call fuel s x y cax rax al rl kers pd.
Hypothesis MC' : ms_call fuel s x' y' cax' rax' (map ren al) rl' kers pd.
Hypothesis Nx : ndim x = n.
Hypothesis Px : permuted ren x x'.
Hypothesis Py : permuted ren y y'.
Hypothesis Hw : ms_weights m <> [].
Hypothesis LE : large_enough (Z.of_nat (length (ms_weights m))) kers al (shp x).
Hypothesis LE' : large_enough (Z.of_nat (length (ms_weights m))) kers (map ren al) (shp x').
Notation run := (ms_run F fuel junk (ss_blur s) al kers pd (ss_K1 s) (ss_K2 s) (ss_crop s) c pow m x y).
Notation run' := (ms_run F fuel junk (ss_blur s) (map ren al) kers pd (ss_K1 s) (ss_K2 s) (ss_crop s) c pow m x' y').
Notation zero' := (ms_zero F fuel junk (ss_blur s) (map ren al) kers pd (ss_K1 s) (ss_K2 s) c m x' y').

Lemma perm_run final : run final -> ~ zero' /\ forall final', run' final' -> permuted ren final final'.
Proof.
  intros Rn. pose proof (mc_shape _ _ _ _ _ _ _ _ _ _ MC) as Hs. pose proof (mc_shape _ _ _ _ _ _ _ _ _ _ MC') as Hs'.
  assert (Hal : forall a, In a al -> (a < n)%nat) by (rewrite <- Nx; apply (oa_in _ _ _ (mc_content _ _ _ _ _ _ _ _ _ _ MC))).
  assert (Nal : NoDup al) by apply (oa_distinct _ _ _ (mc_content _ _ _ _ _ _ _ _ _ _ MC)).
  pose proof (levs_ok fuel junk s x y cax rax al rl kers pd m MC LE) as Lv. pose proof (levs_ok fuel junk s x' y' cax' rax' (map ren al) rl' kers pd m MC' LE') as Lv'.
  assert (Rx : rel x x') by (apply rel_permuted; auto). assert (Ry : rel y y') by (apply rel_permuted; split; auto; unfold ndim in *; now rewrite Hs).
  assert (HV : forall s0 s' i, perm_shapes s0 s' -> valid s' i -> valid s0 (pull ren n i)) by (intros s0 s' i (L & ->) V; now apply (pull_valid n ren back RN)).
  assert (HB : forall (z z' : T) psh osh ws psh' osh' ws', rel z z' -> lev F fuel junk (ss_blur s) kers pd al (shp z) -> lev F fuel junk (ss_blur s) kers pd (map ren al) (shp z') ->
    blur_facts fuel junk (ss_blur s) al kers pd (shp z) psh osh ws -> blur_facts fuel junk (ss_blur s) (map ren al) kers pd (shp z') psh' osh' ws' ->
    ws' = ws /\ perm_shapes osh osh' /\ forall j, valid osh' j -> blur_at fuel junk (map ren al) kers pd ws' z' j = blur_at fuel junk al kers pd ws z (pull ren n j)).
  { intros z z' psh osh ws psh' osh' ws' Rz [Lz Bz] [Lz' Bz'] BF BF'. apply rel_permuted in Rz as [Nz Pz]. pose proof (ws_unique_len F _ _ _ _ _ _ _ _ _ _ _ _ _ _ _ (map_length ren al) BF BF') as ->. split; auto.
    assert (OZ : on_axes z (AxSeq (map Z.of_nat al)) al) by (constructor; auto; [apply check_axes_seq_nat|]; rewrite Nz; auto).
    destruct (blur_perm F n ren back RN fuel junk (ss_blur s) z z' z z' al kers pd psh osh ws psh' osh' ws OZ (mc_blur _ _ _ _ _ _ _ _ _ _ MC) (Bz z eq_refl) BF BF' Nz eq_refl eq_refl Pz)
      as [Q1 [Q2 Q3]]. split; [split; auto|auto]. }
  assert (HC : forall cw (full full' cr cr' : T), NoDup al -> (forall a, In a al -> (a < ndim full)%nat) -> length cw = length al -> rel full full' ->
    crop_of F al cw full cr -> crop_of F (map ren al) cw full' cr' -> rel cr cr').
  { intros cw full full' cr cr' _ Lf Lw Rf C C'. apply rel_permuted in Rf as [Nf Pf]. apply rel_permuted. split; [rewrite (co_nd _ _ _ _ _ C); exact Nf|].
    eapply (crop_perm F n ren back RN al cw full full'); eauto. }
  assert (HM : forall (cr cr' t t' : T), NoDup al -> (forall a, In a al -> (a < ndim cr)%nat) -> (forall k, In k (shp cr) -> 1 <= k) -> (forall k, In k (shp cr') -> 1 <= k) ->
    rel cr cr' -> tmean cr (map Z.of_nat al) true = Ok t -> tmean cr' (map Z.of_nat (map ren al)) true = Ok t' -> rel t t').
  { intros cr cr' t t' _ _ P P' Rc. now apply keep_perm. }
  assert (HD : forall (u u' v v' : T), NoDup al -> (forall a, In a al -> (a < ndim u)%nat) -> (forall a, In a al -> 2 <= nth a (shp u) 0) ->
    rel u u' -> downsample (avg_forward fuel junk true) u (map Z.of_nat al) = Ok v -> downsample (avg_forward fuel junk true) u' (map Z.of_nat (map ren al)) = Ok v' -> rel v v').
  { intros u u' v v' N L P Ru. now apply down_perm. }
  split.
  - exact (run_sim_zero F fuel junk (ss_blur s) al (map ren al) kers pd _ _ (ss_crop s) c pow m (pull ren n) perm_shapes (map_length ren al) HV HB HD x y x' y' final Hs Hs' Rx Ry Hw Lv Lv' Rn).
  - intros final' Rn'.
    pose proof (run_sim F fuel junk (ss_blur s) al (map ren al) kers pd _ _ (ss_crop s) c pow m (pull ren n) perm_shapes (map_length ren al) HV HB HC HM HD x y x' y' final final' Hs Hs' Rx Ry Hw Lv Lv' Rn Rn') as RR.
    now apply rel_permuted in RR as [Nf RR].
Qed.
End Both.
End PermRun.

Lemma permuted_back n ren back (x x' : T) : renames n ren back -> ndim x = n -> permuted ren x x' -> permuted back x' x.
Proof.
  intros RN Nx (N' & S & V). rewrite Nx in *. split; [congruence|]. rewrite N'. unfold ndim in *. split.
  - rewrite S. now rewrite (back_pull n ren back RN).
  - intros i Vi. assert (Li := valid_length _ _ Vi). rewrite V.
    + now rewrite (pull_back n ren back RN) by lia.
    + rewrite <- (back_pull n ren back RN (shp x')) by auto. rewrite <- S. apply (pull_valid n back ren (renames_back n ren back RN)); auto.
Qed.
Lemma map_back n ren back al : renames n ren back -> (forall a, In a al -> (a < n)%nat) -> map back (map ren al) = al.
Proof. intros RN H. rewrite map_map. rewrite <- (map_id al) at 2. apply map_ext_in. intros a Ha. apply (rn_back _ _ _ RN). auto. Qed.

Theorem ms_perm n ren back fuel junk (s : ssim F) (x y x' y' : T) cax rax cax' rax' al rl kers pd pow m : renames n ren back -> ms_call fuel s x y cax rax al rl kers pd ->
  (2 <= length (ms_weights m))%nat -> ndim x = n -> permuted ren x x' -> permuted ren y y' ->
  check_axes (Z.of_nat n) cax' = Ok (map Z.of_nat (map ren al)) -> check_axes (Z.of_nat n) rax' = Ok (map Z.of_nat (map ren rl)) ->
  (exists score score', snd (ms_forward (sep_forward fuel junk) pow (avg_forward fuel junk true) m x y cax rax s) = Ok score /\
     snd (ms_forward (sep_forward fuel junk) pow (avg_forward fuel junk true) m x' y' cax' rax' s) = Ok score' /\
     renamed_out ren n (kept_shape (map ren al) (shp x')) (reduced n rl) (reduced n (map ren rl)) score score') \/
  (exists e, snd (ms_forward (sep_forward fuel junk) pow (avg_forward fuel junk true) m x y cax rax s) = Err e /\
     snd (ms_forward (sep_forward fuel junk) pow (avg_forward fuel junk true) m x' y' cax' rax' s) = Err e /\ (e = ZeroDivisionError \/ e = AssertionError)).
Proof.
  intros RN MC H2 Nx Px Py Hca Hra. assert (Hw : ms_weights m <> []) by (destruct (ms_weights m); [cbn in H2; lia|discriminate]).
  pose proof MC as [Hs OA OR B Bk BC Po Sc]. pose proof Px as (Nx' & Sx & Vx). pose proof Py as (Ny' & Sy & Vy).
  assert (Ny : ndim y = n) by (unfold ndim in *; congruence). rewrite Nx in Nx', Sx, Vx. rewrite Ny in Ny', Sy, Vy.
  assert (Hs' : shp y' = shp x').
  { rewrite <- (back_pull n ren back RN (shp x')), <- (back_pull n ren back RN (shp y')) by auto. congruence. }
  assert (Hal : forall a, In a al -> (a < n)%nat) by (intros a Ha; rewrite <- Nx; apply (oa_in _ _ _ OA); auto).
  assert (Hrl : forall a, In a rl -> (a < n)%nat) by (intros a Ha; rewrite <- Nx; apply (oa_in _ _ _ OR); auto).
  assert (Nal : NoDup al) by apply (oa_distinct _ _ _ OA). assert (Nrl : NoDup rl) by apply (oa_distinct _ _ _ OR).
  pose proof (ren_on_axes F n ren back RN x x' cax cax' al Nx Px OA Hca) as OA'. pose proof (ren_on_axes F n ren back RN x x' rax rax' rl Nx Px OR Hra) as OR'.
  assert (MC' : ms_call fuel s x' y' cax' rax' (map ren al) (map ren rl) kers pd).
  { constructor; auto.
    - now rewrite map_length.
    - destruct pd as [p|]; auto. exact (blur_call_perm F n ren back RN fuel x x' al kers (Some p) Nx Px Hal Nal BC).
    - exact (pos_perm F n ren back RN x x' Nx Px Po). }
  assert (Sz : forall r, (r < length al)%nat -> nth (nth r (map ren al) 0%nat) (shp x') 0 = nth (nth r al 0%nat) (shp x) 0).
  { intros r Hr. rewrite map_nth_ren by auto. apply (perm_shape F n ren x x'); auto. apply Hal. now apply nth_In. }
  destruct (large_or (Z.of_nat (length (ms_weights m))) kers al (shp x)) as [LE|[r [Hr H]]].
  2:{ right. exists AssertionError. rewrite (forward_fails F fuel junk s x y cax rax al rl kers pd MC pow m r Hw Hr H).
      rewrite (forward_fails F fuel junk s x' y' cax' rax' (map ren al) (map ren rl) kers pd MC' pow m r Hw) by (rewrite ?map_length, ?Sz; auto). auto. }
  assert (LE' : large_enough (Z.of_nat (length (ms_weights m))) kers (map ren al) (shp x')).
  { intros r Hr. rewrite map_length in Hr. rewrite Sz by auto. auto. }
  destruct (forward_run F fuel junk s x y cax rax al rl kers pd MC pow m Hw LE) as [c [Hc [_ [S1 R]]]].
  destruct (forward_run F fuel junk s x' y' cax' rax' (map ren al) (map ren rl) kers pd MC' pow m Hw LE') as [c' [Hc' [_ [S2 R']]]].
  destruct (scale_ok F s (length al) kers _ pd B Sc) as [c0 [Sc1 _]].
  assert (Ec : c' = c). { rewrite Sc1 in S1, S2 by (now rewrite !map_length). congruence. } subst c'.
  destruct R as [[w [W E]]|[[final [sc [L2 [Rn [Af [Pf [M E]]]]]]]|[E Z]]]; [rewrite W in H2; cbn in H2; lia| |];
    (destruct R' as [[w' [W' E']]|[[final' [sc' [L2' [Rn' [Af' [Pf' [M' E']]]]]]]|[E' Z']]]; [rewrite W' in H2; cbn in H2; lia| |]).
  - left. exists sc, sc'. split; auto. split; auto.
    destruct (perm_run n ren back RN fuel junk s x y x' y' cax rax cax' rax' al rl (map ren rl) kers pd pow m c MC MC' Nx Px Py Hw LE LE' final Rn) as [_ RR]. specialize (RR final' Rn').
    assert (Sf : shp final = kept_shape al (shp x)) by (destruct Rn as [? [? [? [? Rn]]]]; apply Rn).
    assert (Sf' : shp final' = kept_shape (map ren al) (shp x')) by (destruct Rn' as [? [? [? [? Rn']]]]; apply Rn').
    assert (Nf : ndim final = n) by (unfold ndim, kept_shape in *; now rewrite Sf, ones_at_length).
    destruct (tmean_perm F n ren back RN final final' rl) as [u [u' [U1 [U2 U3]]]]; auto.
    + intros a Ha. assert (1 <= nth a (shp final) 0); [|lia]. apply Pf, nth_In. unfold ndim in Nf. rewrite Nf. exact (reduced_in n rl a Hrl Ha).
    + rewrite <- Sf'. congruence.
  - exfalso. revert Z'. exact (proj1 (perm_run n ren back RN fuel junk s x y x' y' cax rax cax' rax' al rl (map ren rl) kers pd pow m c MC MC' Nx Px Py Hw LE LE' final Rn)).
  - exfalso. revert Z. pose proof (map_back n ren back al RN Hal) as Eb.
    pose proof (perm_run n back ren (renames_back n ren back RN) fuel junk s x' y' x y cax' rax' cax rax (map ren al) (map ren rl) rl kers pd pow m c MC') as Q. rewrite Eb in Q.
    refine (proj1 (Q MC Nx' _ _ Hw LE' LE final' Rn')); eapply permuted_back; eauto.
  - right. exists ZeroDivisionError. auto.
Qed.
End MR.
