(** Pooling works item by item along the axes it leaves alone. *)
From Verif Require Export PoolFlip PickPad.
Open Scope Z_scope.

Section PickPool.
Variable F : ofield.
Notation T := (tensor F).
Variables (d : nat) (g : Z -> Z) (n : Z).

Lemma place_upd al : forall sts j o v, ~ In d al -> place al sts (upd d v j) o = upd d v (place al sts j o).
Proof.
  induction al as [|a al IH]; intros [|s sts] j [|k o] v H; cbn [place]; auto.
  assert (d <> a) by (intros ->; apply H; now left). rewrite IH by (intros E; apply H; now right). rewrite (nth_upd_ne d a) by auto. apply upd_comm. auto.
Qed.
Lemma pooled_upd al : forall (kers : list (list F)) sts sh v, ~ In d al -> pooled al kers sts (upd d v sh) = upd d v (pooled al kers sts sh).
Proof.
  induction al as [|a al IH]; intros [|k kers] [|s sts] sh v H; cbn [pooled]; auto.
  assert (d <> a) by (intros ->; apply H; now left). rewrite (nth_upd_ne d a) by auto. rewrite upd_comm by auto. apply IH. intros E; apply H; now right.
Qed.

Lemma corr_pick al (kers : list (list F)) sts (x x' y y' : T) : NoDup al -> length kers = length al -> length sts = length al ->
  (forall b, In b al -> (b < ndim x)%nat) -> (forall r, (r < length al)%nat -> 1 <= nth r sts 1) -> ~ In d al -> picked d g n x x' ->
  teq y (correlate al kers sts x) -> teq y' (correlate al kers sts x') -> picked d g n y y'.
Proof.
  intros Nd Lk Ls Hal Hs Hd P [Y1 Y2] [Y1' Y2']. pose proof P as (S & G & V). cbn [correlate shp at_] in *. rewrite S, pooled_upd in Y1' by auto.
  split; [congruence|]. split. { intros k Hk. rewrite Y1, pooled_notin by auto. auto. }
  intros j Vj. rewrite Y2' by auto.
  assert (PV : forall o, valid (map klen kers) o -> valid (shp x') (place al sts j o)).
  { intros o Vo. apply (place_valid F al kers sts (shp x') j o); auto.
    - rewrite S, upd_length. exact Hal.
    - rewrite S, pooled_upd by auto. congruence. }
  transitivity (bsum (map klen kers) (fun o => fmul (weight kers o) (at_ x (place al sts (upd d (g (nth d j 0)) j) o)))).
  - apply bsum_ext. intros o Vo. f_equal. rewrite V by auto. rewrite place_notin by auto. now rewrite place_upd by auto.
  - symmetry. apply Y2. rewrite Y1.
    destruct (Nat.lt_ge_cases d (length (shp x))) as [H|H].
    + rewrite Y1' in Vj. pose proof (valid_nth _ _ d Vj) as B. rewrite upd_length, pooled_length, nth_upd_eq in B by (rewrite pooled_length; auto).
      eapply valid_upd_back; [exact Vj|]. rewrite pooled_notin by auto. auto.
    + rewrite Y1' in Vj. rewrite upd_over in Vj by (rewrite pooled_length; lia). rewrite upd_over; auto. pose proof (valid_length _ _ Vj) as L. rewrite pooled_length in L. lia.
Qed.

(** Without padding. *)
Theorem pool_valid_pick fuel junk fuel' junk' (m : pool F) (x x' : T) ax al kers sts : on_axes x ax al ->
  built (length al) kers sts None m ->
  (forall r, (r < length al)%nat -> klen (nth r kers []) <= nth (nth r al 0%nat) (shp x) 0) ->
  ~ In d al -> picked d g n x x' ->
  exists y y', snd (sep_forward fuel junk m x ax) = Ok y /\ snd (sep_forward fuel' junk' m x' ax) = Ok y' /\ picked d g n y y'.
Proof.
  intros OA B Hf Hd P. pose proof P as (S & _).
  assert (OA' : on_axes x' ax al). { destruct OA as [O1 O2 O3]. unfold ndim in *. split; unfold ndim; rewrite ?S, ?upd_length; auto. }
  destruct (built_par F _ _ _ _ _ B) as [PP [Pd _]].
  assert (Hf' : forall r, (r < length al)%nat -> klen (nth r kers []) <= nth (nth r al 0%nat) (shp x') 0).
  { intros r Hr. rewrite S, nth_upd_ne; auto. intros ->. apply Hd, nth_In. auto. }
  destruct (sep_forward_valid F fuel junk m x ax al kers sts OA PP Pd Hf) as [y [Y1 Y2]].
  destruct (sep_forward_valid F fuel' junk' m x' ax al kers sts OA' PP Pd Hf') as [y' [Y1' Y2']].
  exists y, y'. rewrite Y1, Y1'. split; auto. split; auto.
  pose proof PP as [L1 [L2 [_ L4]]]. destruct OA as [O1 O2 O3].
  eapply (corr_pick al (map eff_kernel kers) (map2 eff_stride kers sts) x x'); eauto; rewrite ?map_length, ?map2_length; auto; try lia.
  intros r Hr. rewrite nth_map2 with (da := []) (db := 1) by lia. destruct (L4 r Hr) as [_ [_ [_ Q]]]. destruct (nth r kers []); cbn [eff_stride]; [lia|]. apply Q. discriminate.
Qed.

(** With a same padder. *)
Theorem pool_same_pick fuel junk fuel' junk' (m : pool F) (x x' : T) ax al kers sts p ms :
  built (length al) kers sts (Some p) m -> same_call F fuel p x ax al ms kers sts -> same_call F fuel' p x' ax al ms kers sts ->
  (d < ndim x)%nat -> ~ In d al -> picked d g n x x' ->
  exists y y', snd (sep_forward fuel junk m x ax) = Ok y /\ snd (sep_forward fuel' junk' m x' ax) = Ok y' /\ picked d g n y y'.
Proof.
  intros B SC SC' Hd Nd P. pose proof P as (Sx & _).
  destruct (built_par F _ _ _ _ _ B) as [PP [Pd [E1 [E2 _]]]]. pose proof PP as [L1 [L2 [_ L4]]]. pose proof SC as [OA N0 P0 P1 SS PF FM FU].
  destruct (sep_forward_same F fuel junk m x ax al kers sts p ms PP E1 E2 Pd SC) as [ws [xp [y [W1 [W2 [PC [AF [NE [W6 [W7 [W8 [Ty _]]]]]]]]]]]].
  destruct (sep_forward_same F fuel' junk' m x' ax al kers sts p ms PP E1 E2 Pd SC') as [ws' [xp' [y' [W1' [W2' [PC' [AF' [NE' [W6' [W7' [W8' [Ty' _]]]]]]]]]]]].
  assert (Ew : ws' = ws).
  { apply nth_ext with (d := (0, 0)) (d' := (0, 0)); [lia|]. intros r Hr. rewrite W1' in Hr. specialize (W2' r Hr).
    rewrite Sx, nth_upd_ne in W2' by (intros ->; apply Nd, nth_In; auto). eapply same_width_unique; eauto. }
  subst ws'.
  destruct (same_pad_call F fuel p x ax al ms kers sts ws SC W1 L1 W2) as [_ [_ [_ [FL [FN FS]]]]].
  pose proof OA as [O1 O2 O3].
  destruct (with_width_par F (length al) p ms ws al PF W1 eq_refl O3) as [LA Q].
  assert (Lm : length ms = length al) by (apply (expand_length _ _ _ (pf_mode _ _ _ PF))).
  destruct (padding_pick F d g n fuel junk fuel' junk' (with_width p ws) x x' ax al PC PC' AF) as [z [z' [Z1 [Z2 Fz]]]]; auto.
  { intros b q Hq. rewrite LA in Hq. destruct (in_dec Nat.eq_dec b al) as [Hi|Hi]; [|rewrite axis_par_notin in Hq by auto; discriminate].
    destruct (In_pos b al 0%nat Hi) as [r [Hr <-]]. destruct (Q r Hr) as [q' [Q1 [_ [_ Q4]]]]. rewrite Q1 in Hq. injection Hq as <-. rewrite Q4.
    apply fills_not_empty, FM, nth_In. lia. }
  rewrite W6 in Z1. injection Z1 as <-. rewrite W6' in Z2. injection Z2 as <-.
  exists y, y'. rewrite W8, W8'. split; auto. split; auto.
  assert (Nx : ndim xp = ndim x) by (unfold ndim; rewrite W7; exact FL).
  eapply (corr_pick al (map eff_kernel kers) (map2 eff_stride kers sts) xp xp'); eauto; rewrite ?map_length, ?map2_length; auto; try lia.
  - intros b Hb. rewrite Nx. auto.
  - intros r Hr. rewrite nth_map2 with (da := []) (db := 1) by lia. destruct (nth r kers []); cbn [eff_stride]; [lia|]. now apply SS.
Qed.
End PickPool.
