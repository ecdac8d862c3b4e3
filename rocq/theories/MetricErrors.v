(** Errors of the metrics for every axes argument (C125). *)
From Verif Require Export MetricTower.
From Verif Require Import SsimProofs PsnrModel.
Open Scope Z_scope.

(** An axis number torch rejects, and the axis meant by one it accepts. *)
Definition off_range (nd : nat) (a : Z) : Prop := a < - Z.of_nat nd \/ Z.of_nat nd <= a.
Definition named_axis (nd : nat) (a : Z) : nat := Z.to_nat (a mod Z.of_nat nd).

Lemma axis_nat_off nd a : off_range nd a -> axis_nat nd a = Err IndexError.
Proof. unfold off_range, axis_nat. intros H. destruct (Z.ltb_spec a 0); cbv zeta; repeat match goal with |- context [?u <=? ?v] => destruct (Z.leb_spec u v) | |- context [?u <? ?v] => destruct (Z.ltb_spec u v) end; cbn [andb]; auto; lia. Qed.
Lemma axis_nat_in nd a : ~ off_range nd a -> axis_nat nd a = Ok (named_axis nd a).
Proof.
  unfold off_range, axis_nat, named_axis. intros H.
  assert (E : a mod Z.of_nat nd = if a <? 0 then a + Z.of_nat nd else a).
  { destruct (Z.ltb_spec a 0); symmetry; [apply (Z.mod_unique_pos _ _ (-1)); lia|apply (Z.mod_unique_pos _ _ 0); lia]. }
  rewrite E. destruct (Z.ltb_spec a 0); cbv zeta; repeat match goal with |- context [?u <=? ?v] => destruct (Z.leb_spec u v) | |- context [?u <? ?v] => destruct (Z.ltb_spec u v) end; cbn [andb]; auto; lia.
Qed.
Lemma off_dec nd a : off_range nd a \/ ~ off_range nd a.
Proof. unfold off_range. lia. Qed.
Lemma axes_off nd l : (exists a, In a l /\ off_range nd a) -> mapM (axis_nat nd) l = Err IndexError.
Proof.
  induction l as [|b l IH]; intros (a & Ha & O); [destruct Ha|]. cbn [mapM]. destruct (off_dec nd b) as [Q|Q].
  - now rewrite axis_nat_off.
  - rewrite axis_nat_in by auto. cbn [bind]. destruct Ha as [->|Ha]; [contradiction|]. rewrite IH by eauto. reflexivity.
Qed.
Lemma axes_in nd l : (forall a, In a l -> ~ off_range nd a) -> mapM (axis_nat nd) l = Ok (map (named_axis nd) l).
Proof.
  induction l as [|b l IH]; intros H; [reflexivity|]. cbn [mapM map]. rewrite axis_nat_in by (apply H; now left). cbn [bind].
  rewrite IH by (intros; apply H; now right). reflexivity.
Qed.
Lemma nodup_full (l : list nat) : length (nodup Nat.eq_dec l) = length l <-> NoDup l.
Proof.
  split.
  - induction l as [|a l IH]; intros H; [constructor|]. cbn [nodup] in H. destruct (in_dec Nat.eq_dec a l) as [Ha|Ha].
    + assert (length (nodup Nat.eq_dec l) <= length l)%nat; [|cbn in H; lia].
      apply NoDup_incl_length; [apply NoDup_nodup|intros x Hx; now apply nodup_In in Hx].
    + constructor; auto.
  - intros H. now rewrite nodup_fixed_point.
Qed.

Section Err.
Variable F : ofield.
Notation T := (tensor F).

Lemma tsum_off (x : T) l kd : (exists a, In a l /\ off_range (ndim x) a) -> tsum x l kd = Err IndexError.
Proof. intros H. unfold tsum. destruct l as [|a l]; [destruct H as (? & [] & _)|]. now rewrite axes_off. Qed.
Lemma tmean_off (x : T) l kd : (exists a, In a l /\ off_range (ndim x) a) -> tmean x l kd = Err IndexError.
Proof. intros H. unfold tmean. destruct l as [|a l]; [destruct H as (? & [] & _)|]. now rewrite axes_off. Qed.
Lemma tsum_dup (x : T) l kd : (forall a, In a l -> ~ off_range (ndim x) a) -> ~ NoDup (map (named_axis (ndim x)) l) -> tsum x l kd = Err RuntimeError.
Proof.
  intros H N. unfold tsum. destruct l as [|a l]; [destruct N; constructor|]. rewrite axes_in by auto. cbn [bind].
  destruct (Nat.eqb _ _) eqn:E; [|reflexivity]. apply Nat.eqb_eq, nodup_full in E. contradiction.
Qed.
Lemma tmean_dup (x : T) l kd : (forall a, In a l -> ~ off_range (ndim x) a) -> ~ NoDup (map (named_axis (ndim x)) l) -> tmean x l kd = Err RuntimeError.
Proof.
  intros H N. unfold tmean. rewrite (tsum_dup x l kd H N). destruct l as [|a l]; [destruct N; constructor|]. rewrite axes_in by auto. reflexivity.
Qed.
Lemma named_lt nd a : ~ off_range nd a -> (named_axis nd a < nd)%nat.
Proof. unfold off_range, named_axis. intros H. assert (0 <= a mod Z.of_nat nd < Z.of_nat nd) by (apply Z.mod_pos_bound; lia). lia. Qed.
Lemma named_on (x : T) l : (forall a, In a l -> ~ off_range (ndim x) a) -> NoDup (map (named_axis (ndim x)) l) ->
  on_axes x (AxSeq (map Z.of_nat (map (named_axis (ndim x)) l))) (map (named_axis (ndim x)) l).
Proof.
  intros H N. assert (H' : forall a, In a (map (named_axis (ndim x)) l) -> (a < ndim x)%nat).
  { intros a Ha. apply in_map_iff in Ha as (b & <- & Hb). apply named_lt; auto. }
  split; auto. cbn [check_axes].
  assert (E : map (fun a => if 0 <=? a then a else Z.of_nat (ndim x) + a) (map Z.of_nat (map (named_axis (ndim x)) l)) = map Z.of_nat (map (named_axis (ndim x)) l)).
  { rewrite map_map. apply map_ext. intros a. destruct (Z.leb_spec 0 (Z.of_nat a)); lia. }
  rewrite E. assert (Q : forallb (fun a => (0 <=? a) && (a <=? Z.of_nat (ndim x))) (map Z.of_nat (map (named_axis (ndim x)) l)) = true); [|now rewrite Q].
  apply forallb_forall. intros a Ha. apply in_map_iff in Ha as (b & <- & Hb). apply H' in Hb. apply andb_true_intro. split; apply Z.leb_le; lia.
Qed.
Lemma same_axes nd l : (forall a, In a l -> ~ off_range nd a) ->
  mapM (axis_nat nd) (match map Z.of_nat (map (named_axis nd) l) with [] => zrange (Z.of_nat nd) | _ => map Z.of_nat (map (named_axis nd) l) end) =
  mapM (axis_nat nd) (match l with [] => zrange (Z.of_nat nd) | _ => l end).
Proof.
  intros H. destruct l as [|a l]; [reflexivity|]. cbn [map]. rewrite (axes_in nd (a :: l) H).
  change (Z.of_nat (named_axis nd a) :: map Z.of_nat (map (named_axis nd) l)) with (map Z.of_nat (map (named_axis nd) (a :: l))).
  rewrite axes_in.
  - rewrite map_map. f_equal. rewrite <- (map_id (map (named_axis nd) (a :: l))) at 2. rewrite map_map, map_map. apply map_ext_in. intros b Hb.
    apply H, named_lt in Hb. unfold named_axis at 1. rewrite Z.mod_small by lia. apply Nat2Z.id.
  - intros b Hb. apply in_map_iff in Hb as (c & <- & Hc). apply in_map_iff in Hc as (e & <- & He). apply H, named_lt in He. unfold off_range. lia.
Qed.
Lemma tsum_named (x : T) l kd : (forall a, In a l -> ~ off_range (ndim x) a) ->
  tsum x l kd = tsum x (map Z.of_nat (map (named_axis (ndim x)) l)) kd.
Proof. intros H. unfold tsum. now rewrite same_axes. Qed.
Lemma tmean_named (x : T) l kd : (forall a, In a l -> ~ off_range (ndim x) a) ->
  tmean x l kd = tmean x (map Z.of_nat (map (named_axis (ndim x)) l)) kd.
Proof. intros H. unfold tmean. rewrite (tsum_named x l kd H). now rewrite same_axes. Qed.

(** The same three cases for any call taking reduction axes. *)
Definition axes_cases {R} (nd : nat) (l : list Z) (call : axes_arg -> res R) (ax : axes_arg) : Prop :=
  ((exists a, In a l /\ off_range nd a) -> call ax = Err IndexError) /\
  ((forall a, In a l -> ~ off_range nd a) -> ~ NoDup (map (named_axis nd) l) -> call ax = Err RuntimeError) /\
  ((forall a, In a l -> ~ off_range nd a) -> NoDup (map (named_axis nd) l) -> call ax = call (AxSeq (map Z.of_nat (map (named_axis nd) l)))).

Lemma reduce_cases r (f : T) l : r = RSum \/ r = RMean ->
  ((exists a, In a l /\ off_range (ndim f) a) -> metric_reduce r f l = Err IndexError) /\
  ((forall a, In a l -> ~ off_range (ndim f) a) -> ~ NoDup (map (named_axis (ndim f)) l) -> metric_reduce r f l = Err RuntimeError) /\
  ((forall a, In a l -> ~ off_range (ndim f) a) -> metric_reduce r f l = metric_reduce r f (map Z.of_nat (map (named_axis (ndim f)) l))).
Proof.
  intros [->| ->]; cbn [metric_reduce]; (split; [|split]).
  - apply tsum_off.
  - apply tsum_dup.
  - apply tsum_named.
  - apply tmean_off.
  - apply tmean_dup.
  - apply tmean_named.
Qed.
Theorem mse_axes r (x y : T) ax l : shp x = shp y -> check_axes (Z.of_nat (ndim x)) ax = Ok l -> r = RSum \/ r = RMean ->
  axes_cases (ndim x) l (mse_forward r x y) ax.
Proof.
  intros E C R. unfold axes_cases, mse_forward, metric_forward. rewrite E, seqb_refl, C. cbn [assertb bind].
  destruct (mse_full_ok F x y E) as (f & D1 & D2 & _). rewrite D1. assert (Nf : ndim f = ndim x) by (unfold ndim; congruence). cbn [bind]. destruct (reduce_cases r f l R) as (A1 & A2 & A3). rewrite Nf in *.
  split; [exact A1|]. split; [exact A2|]. intros H N. rewrite (oa_args _ _ _ (named_on x l H N)). cbn [bind]. auto.
Qed.
Theorem mse_passes r (x y : T) ax e : shp x = shp y -> check_axes (Z.of_nat (ndim x)) ax = Err e -> mse_forward r x y ax = Err e.
Proof. intros E C. unfold mse_forward, metric_forward. rewrite E, seqb_refl, C. reflexivity. Qed.
Theorem mse_none (x y : T) ax ax' l l' : shp x = shp y -> check_axes (Z.of_nat (ndim x)) ax = Ok l -> check_axes (Z.of_nat (ndim x)) ax' = Ok l' ->
  mse_forward RNone x y ax = mse_forward RNone x y ax' /\ mse_forward ROther x y ax = Err ValueError.
Proof.
  intros E C C'. unfold mse_forward, metric_forward. rewrite E, seqb_refl, C, C'. cbn [assertb bind].
  destruct (mse_full_ok F x y E) as (f & -> & _). cbn [bind metric_reduce]. auto.
Qed.
(** Means over empty blocks. *)
Lemma zprod_zero (l : list Z) : In 0 l -> zprod l = 0.
Proof. induction l as [|a l IH]; [intros []|]. intros [->|H]; [reflexivity|]. change (zprod (a :: l)) with (a * zprod l). rewrite IH by auto. lia. Qed.
Theorem mse_mean_empty (x y : T) ax al : on_axes x ax al -> shp x = shp y -> (exists a, In a (reduced (ndim x) al) /\ nth a (shp x) 0 = 0) ->
  (In 0 (outside (reduced (ndim x) al) (shp x)) -> exists m, mse_forward RMean x y ax = Ok m /\ shp m = outside (reduced (ndim x) al) (shp x)) /\
  ((forall n, In n (outside (reduced (ndim x) al) (shp x)) -> 1 <= n) -> mse_forward RMean x y ax = Err ZeroDivisionError).
Proof.
  intros OA E (a & Ha & Z0). destruct (mse_full_ok F x y E) as (f & D1 & D2 & _). assert (Nf : ndim f = ndim x) by (unfold ndim; congruence).
  assert (Sq : seqb (shp x) (shp y) = true) by (rewrite E; apply seqb_refl).
  unfold mse_forward, metric_forward. rewrite Sq, (oa_args _ _ _ OA). cbn [assertb bind]. rewrite D1. cbn [bind metric_reduce].
  destruct (tsum_ok F f al false) as (z & Z1 & Z2 & _); [rewrite Nf; apply (oa_in _ _ _ OA)|apply (oa_distinct _ _ _ OA)|].
  unfold tmean. rewrite Nf, D2 in *. rewrite reduced_axes by apply (oa_in _ _ _ OA). cbn [bind]. rewrite Z1. cbn [bind].
  assert (P0 : zprod (map (fun a => nth a (shp x) 0) (reduced (ndim x) al)) = 0) by (apply zprod_zero, in_map_iff; eauto).
  rewrite P0, Z2. cbn [Z.eqb andb]. split.
  - intros H. rewrite (zprod_zero _ H). cbn. eexists. split; [reflexivity|]. exact Z2.
  - intros H. assert (0 < zprod (outside (reduced (ndim x) al) (shp x))).
    { clear -H. induction (outside _ _) as [|n l IH]; [reflexivity|]. change (zprod (n :: l)) with (n * zprod l). assert (1 <= n) by (apply H; now left). assert (0 < zprod l) by (apply IH; intros; apply H; now right). nia. }
    destruct (Z.eqb_spec (zprod (outside (reduced (ndim x) al) (shp x))) 0); [lia|reflexivity].
Qed.
Theorem ssim_axes fuel junk (s : ssim F) (x y : T) cax rax al rl kers pd score full ax l : ssim_call fuel s x y cax rax al rl kers pd ->
  snd (ssim_forward (sep_forward fuel junk) x y cax rax s) = Ok (score, full) -> check_axes (Z.of_nat (ndim x)) ax = Ok l ->
  axes_cases (ndim x) l (fun a => snd (ssim_forward (sep_forward fuel junk) x y cax a s)) ax /\
  ((forall a, In a l -> ~ off_range (ndim x) a) -> NoDup (map (named_axis (ndim x)) l) ->
    exists t, snd (ssim_forward (sep_forward fuel junk) x y cax ax s) = Ok (t, full)).
Proof.
  intros [Hs OA OR B BC Cr Po Sc].
  destruct (blur_ok F fuel junk (ss_blur s) x cax al kers pd OA B BC) as [psh [osh [ws BF]]].
  destruct (scale_ok F s (length al) kers _ pd B Sc) as [c [Sc1 [Sc2 _]]]. specialize (Sc1 (map Z.of_nat al) (map_length _ _)).
  pose proof (bf_blurs _ _ _ _ _ _ _ _ _ _ BF) as BL.
  destruct (ssim_full_run F _ _ _ _ _ _ _ BL s x y c (mlike_refl F _) eq_refl Hs Sc1) as [s1 [G1 R1]].
  unfold axes_cases, ssim_forward, sbind, ret. rewrite Hs, !seqb_refl. cbn [assertb].
  rewrite (oa_args _ _ _ OA), (oa_args _ _ _ OR).
  assert (Lo : length osh = ndim x) by (eapply (osh_len F); eauto).
  destruct R1 as [[f1' [-> [S1 V1]]]|[-> _]]; [|intros; discriminate].
  destruct (crop_run F fuel junk (ss_blur s) al kers pd (shp x) psh osh ws BF Po s s1 f1' G1 S1) as [c1 [-> [Co1 Pc1]]]; auto. { intros ->. exact BC. }
  assert (Nf : ndim f1' = ndim x) by (unfold ndim; rewrite S1; exact Lo).
  assert (Nc : ndim c1 = ndim x) by (rewrite (co_nd _ _ _ _ _ Co1); exact Nf).
  destruct (tmean c1 (map Z.of_nat rl) false) as [t1|] eqn:T1; cbn [snd]; [|intros; discriminate]. intros Q C. injection Q as Q1 Q2. rewrite C.
  rewrite <- Nc. split; [split; [|split]|].
  - intros H. rewrite (tmean_off c1 l false H). reflexivity.
  - intros H N. rewrite (tmean_dup c1 l false H N). reflexivity.
  - intros H N. rewrite (tmean_named c1 l false H). rewrite (oa_args _ _ _ (named_on c1 l H N)). reflexivity.
  - intros H N. rewrite (tmean_named c1 l false H). pose proof (named_on c1 l H N) as ON.
    destruct (tmean_ok F c1 (map (named_axis (ndim c1)) l) false) as [t [T2 _]]; [apply (oa_in _ _ _ ON)|apply (oa_distinct _ _ _ ON)| |].
    { intros a Ha. assert (a < ndim c1)%nat by (eapply reduced_in; eauto; apply (oa_in _ _ _ ON)).
      assert (1 <= nth a (shp c1) 0); [|lia]. apply Pc1, nth_In. auto. }
    rewrite T2. cbn [snd]. subst full. eauto.
Qed.
End Err.

(** PSNR fails as the mean squared error does. *)
Theorem psnr_axes mx eps r (x y : tensor RF) ax l : shp x = shp y -> check_axes (Z.of_nat (ndim x)) ax = Ok l -> r = RSum \/ r = RMean ->
  axes_cases (ndim x) l (psnr_forward mx eps r x y) ax.
Proof.
  intros E C R. destruct (mse_axes RF r x y ax l E C R) as (A1 & A2 & A3). unfold psnr_forward. split; [|split].
  - intros H. now rewrite A1.
  - intros H N. now rewrite A2.
  - intros H N. now rewrite A3.
Qed.
Theorem psnr_passes mx eps r (x y : tensor RF) ax e : mse_forward r x y ax = Err e -> psnr_forward mx eps r x y ax = Err e.
Proof. intros H. unfold psnr_forward. now rewrite H. Qed.
