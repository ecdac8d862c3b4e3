(** Padding and pooling when the axes are permuted (torch.permute, transpose). *)
From Verif Require Export PoolFlip.
Open Scope Z_scope.

(** ren and back are inverse renamings of the axes 0..n-1. *)
Record renames (n : nat) (ren back : nat -> nat) : Prop := {
  rn_lt : forall d, (d < n)%nat -> (ren d < n)%nat;
  rn_back_lt : forall d, (d < n)%nat -> (back d < n)%nat;
  rn_back : forall d, (d < n)%nat -> back (ren d) = d;
  rn_ren : forall d, (d < n)%nat -> ren (back d) = d }.
(** The entries of l in the old order: entry d is entry ren d of l. *)
Definition pull (ren : nat -> nat) (n : nat) (l : list Z) : list Z := map (fun d => nth (ren d) l 0) (seq 0 n).
(** x' is x with its axis d renamed to ren d. *)
Definition permuted {F : ofield} (ren : nat -> nat) (x x' : tensor F) : Prop :=
  ndim x' = ndim x /\ shp x = pull ren (ndim x) (shp x') /\
  forall i, valid (shp x') i -> at_ x' i = at_ x (pull ren (ndim x) i).

Section Perm.
Variable F : ofield.
Add Field Fperm : (f_field F).
Notation T := (tensor F).
Variables (n : nat) (ren back : nat -> nat).
Hypothesis RN : renames n ren back.

Lemma ren_inj a b : (a < n)%nat -> (b < n)%nat -> ren a = ren b -> a = b.
Proof. intros Ha Hb E. rewrite <- (rn_back _ _ _ RN a), <- (rn_back _ _ _ RN b) by auto. congruence. Qed.
Lemma pull_length l : length (pull ren n l) = n.
Proof. unfold pull. now rewrite map_length, seq_length. Qed.
Lemma pull_nth d l : (d < n)%nat -> nth d (pull ren n l) 0 = nth (ren d) l 0.
Proof. intros H. unfold pull. now rewrite nth_map_seq. Qed.
Lemma pull_upd a v l : (a < n)%nat -> length l = n -> pull ren n (upd (ren a) v l) = upd a v (pull ren n l).
Proof.
  intros Ha L. apply list_ext with (d := 0); [now rewrite upd_length, !pull_length|]. rewrite pull_length. intros d Hd. rewrite pull_nth by auto.
  destruct (Nat.eq_dec d a) as [->|N].
  - rewrite !nth_upd_eq; auto; rewrite ?pull_length; auto. rewrite L. now apply (rn_lt _ _ _ RN).
  - rewrite !nth_upd_ne; auto. { now rewrite pull_nth. } intros E. apply N. symmetry. now apply ren_inj.
Qed.
Lemma pull_valid s i : length s = n -> valid s i -> valid (pull ren n s) (pull ren n i).
Proof.
  intros L V. apply valid_iff. rewrite !pull_length. split; auto. intros d Hd. rewrite !pull_nth by auto.
  apply valid_nth; auto. rewrite L. now apply (rn_lt _ _ _ RN).
Qed.
Lemma back_nth d l : (d < n)%nat -> nth d l 0 = nth (back d) (pull ren n l) 0.
Proof. intros H. rewrite pull_nth by (now apply (rn_back_lt _ _ _ RN)). now rewrite (rn_ren _ _ _ RN). Qed.
Lemma map_ren_nodup l : (forall a, In a l -> (a < n)%nat) -> NoDup l -> NoDup (map ren l).
Proof.
  induction l as [|a l IH]; intros H Hn; cbn; [constructor|]. inversion Hn as [|? ? N1 N2]. subst. constructor.
  - intros Hi. apply in_map_iff in Hi. destruct Hi as [b [E Hb]]. apply N1. replace a with b; auto. apply ren_inj; auto; apply H; [now right|now left].
  - apply IH; auto. intros; apply H; now right.
Qed.

Lemma axis_par_ren (p : padder F) l d : (forall a, In a l -> (a < n)%nat) -> (d < n)%nat -> axis_par p (map ren l) (ren d) = axis_par p l d.
Proof.
  induction l as [|a l IH]; intros H Hd; cbn [map axis_par]; auto. rewrite map_length.
  destruct (Nat.eqb_spec d a) as [->|N]; [now rewrite Nat.eqb_refl|].
  destruct (Nat.eqb_spec (ren d) (ren a)) as [E|E]; [exfalso; apply N, ren_inj; auto; apply H; now left|].
  apply IH; auto. intros; apply H; now right.
Qed.
Lemma last_axes_map (p : padder F) al : last_axes p (map ren al) = map ren (last_axes p al).
Proof. unfold last_axes. rewrite map_length. destruct (0 <? p_ndim p); auto. now rewrite skipn_map. Qed.

(** *** padding *)
Lemma spec_axis_perm (q : axis_params F) a (x x' s : T) : ndim x = n -> (a < n)%nat -> permuted ren x x' -> spec_axis q a x = Some s ->
  exists s', spec_axis q (ren a) x' = Some s' /\ permuted ren s s' /\ ndim s = n.
Proof.
  intros Nx Ha P H. pose proof P as [N' [S1 E1]]. rewrite Nx in S1, E1. unfold spec_axis in *.
  assert (Ea : nth (ren a) (shp x') 0 = nth a (shp x) 0) by (rewrite S1, pull_nth; auto). rewrite Ea.
  destruct (negb _); [discriminate|]. destruct (_ && _); [inv H; eauto|].
  destruct ((nth a (shp x) 0 <=? 0) && negb (empty_ok (ap_mode q))) eqn:En; [discriminate|].
  assert (Hn : 1 <= nth a (shp x) 0 \/ ap_mode q = MConstant \/ ap_mode q = MEmpty).
  { apply andb_false_iff in En. destruct En as [En|En]; [left; apply Z.leb_gt in En; lia|].
    apply negb_false_iff in En. destruct (ap_mode q); try discriminate; auto. }
  assert (L' : length (shp x') = n) by (unfold ndim in *; congruence).
  assert (G : forall e pb pa, mode_ext (ap_mode q) (ap_before q) (ap_after q) (ap_const q) (ap_end q) (ap_stat q) = Some e ->
     permuted ren (pad1 e a pb pa x) (pad1 e (ren a) pb pa x') /\ ndim (pad1 e a pb pa x) = n).
  { intros e pb pa He. unfold permuted, ndim, pad1. cbn [shp at_]. rewrite !upd_length. unfold ndim in Nx. rewrite Nx, L'. split; auto. split; auto. split.
    - rewrite pull_upd by auto. rewrite Ea. now rewrite <- S1.
    - intros j V. assert (Lj : length j = n) by (apply valid_length in V; rewrite upd_length in V; congruence).
      rewrite Ea, pull_nth by auto. apply (mode_ext_extl F _ _ _ _ _ _ _ _ He).
      { destruct Hn as [Hn|[Hn|Hn]]; auto; [right; now rewrite Hn|]. rewrite Hn in He. discriminate. }
      intros u Hu. rewrite E1. 2: { eapply valid_upd_back; eauto. rewrite Ea. auto. } now rewrite pull_upd. }
  destruct (mode_ext (ap_mode q) (ap_before q) (ap_after q) (ap_const q) (ap_end q) (ap_stat q)) as [e|] eqn:He.
  - specialize (G e (ap_before q) (ap_after q + parity_slot (ap_mode q) (nth a (shp x) 0)) eq_refl).
    destruct (ap_mode q) eqn:Em; cbn [mode_ext] in He; try discriminate; injection He as <-; injection H as <-; eexists; (split; [reflexivity|exact G]).
  - destruct (ap_mode q) eqn:Em; cbn [mode_ext] in He; try discriminate. injection H as <-. eauto.
Qed.
Lemma spec_axes_perm (p : padder F) : forall l (x x' s : T), ndim x = n -> (forall a, In a l -> (a < n)%nat) -> permuted ren x x' ->
  spec_axes p x l = Some s -> exists s', spec_axes p x' (map ren l) = Some s' /\ permuted ren s s' /\ ndim s = n.
Proof.
  induction l as [|a l IH]; intros x x' s Nx Hl P H; cbn [spec_axes map] in *.
  - inv H. eauto.
  - rewrite map_length. destruct (params p (length l)) as [q|]; [|discriminate]. destruct (spec_axis q a x) as [x1|] eqn:E; [|discriminate].
    destruct (spec_axis_perm q a x x' x1) as [x1' [E' [P' N1]]]; auto; [apply Hl; now left|]. rewrite E'.
    apply (IH x1 x1'); auto. intros; apply Hl; now right.
Qed.

Lemma perm_call fuel (p : padder F) (x x' : T) ax ax' al : ndim x = n -> permuted ren x x' -> pad_call fuel p x ax al ->
  check_axes (Z.of_nat n) ax' = Ok (map Z.of_nat (map ren al)) -> pad_call fuel p x' ax' (map ren al).
Proof.
  intros Nx [N' [S1 _]] [C1 C2 C3 C4 C5 C6] Hax. rewrite Nx in *.
  assert (Hal : forall a, In a (last_axes p al) -> (a < n)%nat) by (intros a Ha; apply C4; eapply last_axes_in; eauto).
  assert (Nd : NoDup (map ren al)) by (apply map_ren_nodup; auto).
  constructor; rewrite ?N'; auto.
  - intros d Hd. rewrite back_nth by auto. rewrite <- S1. apply C2. now apply (rn_back_lt _ _ _ RN).
  - intros a Ha. apply in_map_iff in Ha. destruct Ha as [b [<- Hb]]. apply (rn_lt _ _ _ RN). auto.
  - intros d Hd. pose proof (rn_back_lt _ _ _ RN d Hd) as Hb. specialize (C6 _ Hb).
    assert (B1 : (back d < length (shp x))%nat) by (unfold ndim in *; congruence). assert (B2 : (d < length (shp x'))%nat) by (unfold ndim in *; congruence).
    rewrite (out_shape_par F p) in C6; auto.
    rewrite (out_shape_par F p); auto. rewrite last_axes_map. rewrite <- (rn_ren _ _ _ RN d Hd) at 1. rewrite axis_par_ren by auto.
    rewrite (back_nth d) by auto. rewrite <- S1. exact C6.
Qed.

Theorem padding_permuted fuel junk junk' (p : padder F) (x x' : T) ax ax' al : ndim x = n -> permuted ren x x' ->
  pad_call fuel p x ax al -> all_fine F p x al ->
  (forall d q, axis_par p (last_axes p al) d = Some q -> is_empty_mode F (ap_mode q) = false) ->
  check_axes (Z.of_nat n) ax' = Ok (map Z.of_nat (map ren al)) ->
  exists y y', padder_forward fuel junk p x ax = Ok y /\ padder_forward fuel junk' p x' ax' = Ok y' /\ ndim y = n /\ permuted ren y y'.
Proof.
  intros Nx P PC AF NE Hax. pose proof (perm_call fuel p x x' ax ax' al Nx P PC Hax) as PC'.
  destruct (pad_spec_some F p x al (pc_nodup _ _ _ _ _ PC) AF) as [s Hs].
  assert (Hal : forall a, In a (last_axes p al) -> (a < n)%nat).
  { intros a Ha. rewrite <- Nx. apply (pc_lt _ _ _ _ _ PC). eapply last_axes_in; eauto. }
  destruct (spec_axes_perm p (last_axes p al) x x' s Nx Hal P Hs) as [s' [Hs' [P' Ns]]].
  assert (Hs2 : pad_spec p x' (map ren al) = Some s') by (unfold pad_spec; now rewrite last_axes_map).
  assert (ND : NoDup (last_axes p al)) by (apply last_axes_nodup, (pc_nodup _ _ _ _ _ PC)).
  assert (NE1 : no_empty_mode F p al) by (apply no_empty_by_par; auto; intros d q _ Hq; eapply NE; eauto).
  assert (NE2 : no_empty_mode F p (map ren al)).
  { apply no_empty_by_par; rewrite last_axes_map; [apply map_ren_nodup; auto|]. intros d q Hd Hq. apply in_map_iff in Hd. destruct Hd as [b [<- Hb]].
    rewrite axis_par_ren in Hq by auto. eapply NE; eauto. }
  destruct (forward_call F fuel junk p x s ax al PC Hs) as [y [Y1 [_ [_ Y2]]]].
  destruct (forward_call F fuel junk' p x' s' ax' (map ren al) PC' Hs2) as [y' [Y1' [_ [_ Y2']]]].
  destruct (Y2 NE1) as [T1 T2]. destruct (Y2' NE2) as [T1' T2'].
  exists y, y'. split; auto. split; auto. assert (Ny : ndim y = n) by (unfold ndim in *; congruence). split; auto.
  destruct P' as [P1 [P2 P3]]. rewrite Ns in P1, P2, P3.
  split; [unfold ndim in *; congruence|]. rewrite Ny. split; [congruence|]. intros i V. rewrite T2' by auto. rewrite P3 by congruence.
  symmetry. apply T2. rewrite T1, P2. apply pull_valid; [exact P1|congruence].
Qed.

(** *** pooling *)
Lemma place_pull al : forall sts j o, (forall a, In a al -> (a < n)%nat) -> length j = n ->
  pull ren n (place (map ren al) sts j o) = place al sts (pull ren n j) o.
Proof.
  induction al as [|a al IH]; intros [|s sts] j [|t o] H L; cbn [map place]; auto.
  rewrite pull_upd by (rewrite ?place_length; auto; apply H; now left). rewrite IH by (auto; intros; apply H; now right).
  now rewrite pull_nth by (apply H; now left).
Qed.
Lemma pooled_pull al : forall (kers : list (list F)) sts sh, (forall a, In a al -> (a < n)%nat) -> length sh = n ->
  pull ren n (pooled (map ren al) kers sts sh) = pooled al kers sts (pull ren n sh).
Proof.
  induction al as [|a al IH]; intros [|k kers] [|s sts] sh H L; cbn [map pooled]; auto.
  rewrite IH by (rewrite ?upd_length; auto; intros; apply H; now right).
  rewrite pull_upd by (auto; apply H; now left). now rewrite pull_nth by (apply H; now left).
Qed.
Lemma corr_perm al (kers : list (list F)) sts (x x' y y' : T) : ndim x = n -> NoDup al -> (forall a, In a al -> (a < n)%nat) ->
  length kers = length al -> length sts = length al -> (forall r, (r < length al)%nat -> 1 <= nth r sts 1) ->
  permuted ren x x' -> teq y (correlate al kers sts x) -> teq y' (correlate (map ren al) kers sts x') -> permuted ren y y' /\ ndim y = n.
Proof.
  intros Nx Nd Hal Lk Ls Hs [N' [S1 E1]] [Y1 Y2] [Y1' Y2']. rewrite Nx in *.
  assert (L' : length (shp x') = n) by exact N'. cbn [correlate shp] in Y1, Y1'.
  assert (Ny : ndim y = n) by (unfold ndim; rewrite Y1, pooled_length; exact Nx).
  assert (Ny' : ndim y' = n) by (unfold ndim; rewrite Y1', pooled_length; exact L').
  assert (Sy : shp y = pull ren n (shp y')) by (rewrite Y1, Y1', pooled_pull, <- S1; auto).
  split; auto. split; [congruence|]. rewrite Ny. split; auto. intros j V. rewrite Y2' by auto.
  assert (Vp : valid (shp y) (pull ren n j)) by (rewrite Sy; now apply pull_valid).
  rewrite Y2 by auto. cbn [correlate at_]. apply bsum_ext. intros o Vo. f_equal.
  assert (Lj : length j = n) by (rewrite <- Ny'; apply valid_length; auto).
  rewrite E1. { now rewrite place_pull. }
  apply (place_valid F (map ren al) kers); auto; rewrite ?map_length; auto.
  - now apply map_ren_nodup.
  - intros a Ha. apply in_map_iff in Ha. destruct Ha as [b [<- Hb]]. rewrite L'. apply (rn_lt _ _ _ RN). auto.
  - now rewrite <- Y1'.
Qed.

Lemma eff_pos (kers : list (list F)) sts (m : nat) (al : list nat) r : length kers = length al -> length sts = length al ->
  (forall r, (r < length al)%nat -> nth r kers [] <> [] -> 1 <= nth r sts 1) -> (r < length al)%nat -> (m = length al) -> 1 <= nth r (map2 eff_stride kers sts) 1.
Proof.
  intros L1 L2 H Hr _. rewrite nth_map2 with (da := []) (db := 1) by lia. specialize (H r Hr). destruct (nth r kers []); cbn [eff_stride]; [lia|]. apply H. discriminate.
Qed.
Lemma ren_on_axes (x x' : T) ax ax' al : ndim x = n -> permuted ren x x' -> on_axes x ax al ->
  check_axes (Z.of_nat n) ax' = Ok (map Z.of_nat (map ren al)) -> on_axes x' ax' (map ren al).
Proof.
  intros Nx [N' _] [O1 O2 O3] H. rewrite Nx in *. constructor; rewrite ?N'; auto.
  - intros a Ha. apply in_map_iff in Ha. destruct Ha as [b [<- Hb]]. apply (rn_lt _ _ _ RN). auto.
  - now apply map_ren_nodup.
Qed.
Lemma map_nth_ren al r : (r < length al)%nat -> nth r (map ren al) 0%nat = ren (nth r al 0%nat).
Proof. intros H. rewrite (nth_indep _ 0%nat (ren 0%nat)) by (now rewrite map_length). apply map_nth. Qed.

Theorem pool_valid_permuted fuel junk junk' (m : pool F) (x x' : T) ax ax' al kers sts : ndim x = n -> permuted ren x x' ->
  on_axes x ax al -> check_axes (Z.of_nat n) ax' = Ok (map Z.of_nat (map ren al)) -> built (length al) kers sts None m ->
  (forall r, (r < length al)%nat -> klen (nth r kers []) <= nth (nth r al 0%nat) (shp x) 0) ->
  exists y y', snd (sep_forward fuel junk m x ax) = Ok y /\ snd (sep_forward fuel junk' m x' ax') = Ok y' /\ permuted ren y y'.
Proof.
  intros Nx P OA Hax B Hf. pose proof (ren_on_axes x x' ax ax' al Nx P OA Hax) as OA'. pose proof OA as [O1 O2 O3]. rewrite Nx in O2.
  destruct (built_par F _ _ _ _ _ B) as [PP [Pd _]]. pose proof PP as [L1 [L2 [_ L4]]].
  pose proof P as [N' [S1 _]]. rewrite Nx in S1.
  destruct (sep_forward_valid F fuel junk m x ax al kers sts OA PP Pd Hf) as [y [Y1 Y2]].
  destruct (sep_forward_valid F fuel junk' m x' ax' (map ren al) kers sts OA') as [y' [Y1' Y2']]; rewrite ?map_length; auto.
  { intros r Hr. rewrite map_nth_ren by auto. specialize (Hf r Hr). rewrite S1, pull_nth in Hf by (apply O2, nth_In; auto). auto. }
  exists y, y'. rewrite Y1, Y1'. split; auto. split; auto.
  apply (corr_perm al (map eff_kernel kers) (map2 eff_stride kers sts) x x' y y'); auto; rewrite ?map_length, ?map2_length; auto; try lia.
  intros r Hr. apply (eff_pos kers sts (length al) al); auto. intros r' Hr' Hk. destruct (L4 r' Hr') as [_ [_ [_ Q]]]. auto.
Qed.

Theorem pool_same_permuted fuel junk junk' (m : pool F) (x x' : T) ax ax' al kers sts p ms : ndim x = n -> permuted ren x x' ->
  check_axes (Z.of_nat n) ax' = Ok (map Z.of_nat (map ren al)) -> built (length al) kers sts (Some p) m -> same_call F fuel p x ax al ms kers sts ->
  exists y y', snd (sep_forward fuel junk m x ax) = Ok y /\ snd (sep_forward fuel junk' m x' ax') = Ok y' /\ permuted ren y y'.
Proof.
  intros Nx P Hax B SC. pose proof SC as [OA N0 P0 P1 SS PF FM FU]. pose proof (ren_on_axes x x' ax ax' al Nx P OA Hax) as OA'.
  pose proof OA as [O1 O2 O3]. rewrite Nx in *. destruct (built_par F _ _ _ _ _ B) as [PP [Pd [E1 [E2 _]]]]. pose proof PP as [L1 [L2 [_ L4]]].
  pose proof P as [N' [S1 _]]. rewrite Nx in N', S1.
  assert (SC' : same_call F fuel p x' ax' (map ren al) ms kers sts).
  { constructor; rewrite ?N', ?map_length; auto.
    - intros d Hd. rewrite back_nth by auto. rewrite <- S1. apply P0. now apply (rn_back_lt _ _ _ RN).
    - intros a Ha. apply in_map_iff in Ha. destruct Ha as [b [<- Hb]]. rewrite <- pull_nth, <- S1 by auto. auto.
    - intros d k Hd Hk. rewrite back_nth by auto. rewrite <- S1. apply FU; auto. now apply (rn_back_lt _ _ _ RN). }
  destruct (sep_forward_same F fuel junk m x ax al kers sts p ms PP E1 E2 Pd SC) as [ws [xp [y [W1 [W2 [PC [AF [NE [W6 [W7 [W8 [Ty _]]]]]]]]]]]].
  destruct (sep_forward_same F fuel junk' m x' ax' (map ren al) kers sts p ms) as [ws' [xp' [y' [W1' [W2' [PC' [AF' [NE' [W6' [W7' [W8' [Ty' _]]]]]]]]]]]];
    rewrite ?map_length; auto.
  rewrite map_length in W1', W2'.
  assert (Ew : ws' = ws).
  { apply nth_ext with (d := (0, 0)) (d' := (0, 0)); [lia|]. intros r Hr. rewrite W1' in Hr. specialize (W2' r Hr). specialize (W2 r Hr).
    rewrite map_nth_ren in W2' by auto. rewrite S1, pull_nth in W2 by (apply O2, nth_In; auto). eapply same_width_unique; eauto. }
  subst ws'. destruct (with_width_par F (length al) p ms ws al PF W1 eq_refl O3) as [LA Q].
  assert (Lm : length ms = length al) by (apply (expand_length _ _ _ (pf_mode _ _ _ PF))).
  destruct (padding_permuted fuel junk junk' (with_width p ws) x x' ax ax' al Nx P PC AF) as [z [z' [Z1 [Z2 [Nz Pz]]]]]; auto.
  { rewrite LA. intros d q Hq. destruct (in_dec Nat.eq_dec d al) as [Hi|Hi]; [|rewrite axis_par_notin in Hq by auto; discriminate].
    destruct (In_pos d al 0%nat Hi) as [r [Hr <-]]. destruct (Q r Hr) as [q' [Q1 [_ [_ Q4]]]]. rewrite Q1 in Hq. injection Hq as <-.
    rewrite Q4. apply fills_not_empty, FM, nth_In. lia. }
  rewrite W6 in Z1. injection Z1 as <-. rewrite W6' in Z2. injection Z2 as <-.
  exists y, y'. rewrite W8, W8'. split; auto. split; auto.
  apply (corr_perm al (map eff_kernel kers) (map2 eff_stride kers sts) xp xp' y y'); auto; rewrite ?map_length, ?map2_length; auto; try lia.
  intros r Hr. apply (eff_pos kers sts (length al) al); auto.
Qed.
End Perm.
