(** Exact forms of the padding claims that fail as stated. *)
From Verif Require Export PadderMore PadUtilProofs.

(** Same padding covers every element exactly when the kernel is no shorter than the
    stride or than the axis. *)
Theorem same_padding_cover_iff k s n b a m : 1 <= k -> 1 <= s -> 1 <= n ->
  same_padding_width k (Some s) (Some n) = Ok (b, a) -> is_ceil_div n s m ->
  ((forall e, 0 <= e < n -> covered k s b m e) <-> s <= k \/ n <= k).
Proof.
  intros Hk Hs Hn H Hm. split.
  - intros G. destruct (Z.le_gt_cases s k); [auto|]. right. destruct (Z.le_gt_cases n k); auto. exfalso.
    destruct (Z.le_gt_cases s n).
    + destruct (same_padding_gap k s n b a m ltac:(lia) ltac:(lia) H Hm) as [e [He N]]. auto.
    + destruct (G k ltac:(lia)) as [j [J1 J2]]. unfold is_ceil_div in Hm.
      assert (m = 1) by nia. subst m. rewrite same_padding_eq in H by lia.
      assert (HS : same_pad_split ((zceil_div n s - 1) * s + k - n) = (b, a)) by congruence.
      pose proof (zceil_div_spec n s ltac:(lia)) as C. rewrite (is_ceil_div_unique n s _ 1 ltac:(lia) C Hm) in HS.
      apply same_pad_split_spec in HS. lia.
  - intros [G|G] e He; [eapply same_padding_covers_all; eauto; lia|].
    destruct (Z.le_gt_cases s k); [eapply same_padding_covers_all; eauto; lia|].
    unfold is_ceil_div in Hm. assert (m = 1) by nia. subst m. rewrite same_padding_eq in H by lia.
    assert (HS : same_pad_split ((zceil_div n s - 1) * s + k - n) = (b, a)) by congruence.
    pose proof (zceil_div_spec n s ltac:(lia)) as C. rewrite (is_ceil_div_unique n s _ 1 ltac:(lia) C Hm) in HS.
    apply same_pad_split_spec in HS. exists 0. lia.
Qed.

Section E.
Variable F : ofield.
Notation T := (tensor F).

(** pad_axis in mode periodize on an axis of odd length: forward without its last sample. *)
Theorem pad_axis_periodize_spec fuel junk p (x : T) i ax a q :
  (forall d, (d < ndim x)%nat -> 0 <= nth d (shp x) 0) ->
  check_axes (Z.of_nat (ndim x)) ax = Ok [Z.of_nat a] -> (a < ndim x)%nat ->
  at_item F p i q -> ap_mode q = MPeriodize -> 0 <= ap_before q -> 1 <= ap_after q ->
  nth a (shp x) 0 mod 2 = 1 ->
  ap_before q + nth a (shp x) 0 + ap_after q <= Z.of_nat fuel ->
  exists y, pad_axis fuel junk p x i ax = Ok y /\
    shp y = upd a (ap_before q + nth a (shp x) 0 + ap_after q) (shp x) /\
    forall j, valid (shp y) j ->
      at_ y j = ext_periodize (nth a (shp x) 0) (fun u => at_ x (upd a u j)) (nth a j 0 - ap_before q).
Proof.
  intros Hsh Hax Ha Hat Hm Hb Haf Hodd Hfuel.
  pose proof Hat as [H1 [H2 _]]. unfold pad_axis. rewrite Hax. cbn [bind]. rewrite H1. cbn [bind fst snd].
  set (n := nth a (shp x) 0) in *. set (pb := ap_before q) in *. set (pa := ap_after q) in *.
  assert (Hn1 : 1 <= n). { assert (0 <= n) by (apply Hsh; auto). destruct (Z.eq_dec n 0) as [E|]; [rewrite E in Hodd; discriminate|lia]. }
  replace ((pb =? 0) && (pa =? 0)) with false by (destruct (Z.eqb_spec pa 0); [lia|now rewrite andb_false_r]).
  rewrite axis_nat_ok by auto. rewrite ?of_nat_neg. cbn [bind]. unfold dimlen. fold n.
  set (NS := upd a (pb + n + pa) (shp x)). set (nd := ndim x).
  set (h := upd a pb (repeat 0 nd)). set (t := upd a (pb + n) (shp x)).
  set (idx := make_idx (srng pb (pb + n)) a nd).
  assert (LNS : length NS = nd) by (unfold NS; now rewrite upd_length).
  assert (Et : upd a (pb + n) NS = t) by (unfold NS, t; now rewrite upd_upd).
  assert (X : idxrep NS idx h t).
  { unfold idx. rewrite make_idx_upd by auto. rewrite <- Et. unfold h.
    apply (idxrep_upd NS (repeat sfull nd) (repeat 0 nd) NS a pb (pb + n)).
    - split; [rewrite repeat_length; auto|]. split; [rewrite repeat_length; auto|]. split; auto.
      intros d Hd. rewrite !nth_repeat. rewrite LNS in Hd.
      assert (0 <= nth d NS 0). { unfold NS. destruct (Nat.eq_dec a d); [subst; rewrite nth_upd_eq by auto; lia|]. rewrite nth_upd_ne by auto. now apply Hsh. }
      rewrite resolve_sfull by auto. split; [f_equal; lia|]. split; auto. lia.
    - rewrite LNS. auto.
    - lia.
    - unfold NS. rewrite nth_upd_eq by auto. lia. }
  destruct (tset_block NS (tempty NS junk) x idx h t) as [y0 [Hy0 [Sy0 [A0 _]]]]; auto.
  { rewrite LNS. intros d Hd. unfold t, h. destruct (Nat.eq_dec a d).
    - subst d. rewrite !nth_upd_eq by (rewrite ?repeat_length; auto). fold n. lia.
    - rewrite !nth_upd_ne, nth_repeat by auto. lia. }
  rewrite Hy0. cbn [bind].
  rewrite (fill_value_only F fuel p i q y0 a (Idx idx) Hat).
  assert (Nh : nth a h 0 = pb) by (unfold h; apply nth_upd_eq; rewrite repeat_length; auto).
  assert (Nt : nth a t 0 = pb + n) by (unfold t; apply nth_upd_eq; auto).
  assert (NN : nth a NS 0 = pb + n + pa) by (unfold NS; apply nth_upd_eq; auto).
  assert (Ni : nth a idx sfull = srng (nth a h 0) (nth a t 0)).
  { unfold idx. rewrite make_idx_upd by auto. rewrite nth_upd_eq by (rewrite repeat_length; auto). congruence. }
  assert (I0 : Inv F NS idx h t x y0).
  { split; auto. split; auto. split; auto. split; auto. rewrite LNS. intros d Hd. unfold t, h. destruct (Nat.eq_dec a d).
    - subst d. rewrite !nth_upd_eq by (rewrite ?repeat_length; auto). fold n. lia.
    - rewrite !nth_upd_ne, nth_repeat by auto. lia. }
  assert (Pd : pads F (periodize_1d fuel) y0 idx a (nth a h 0) (nth a t 0) ext_periodize).
  { apply periodize_pads.
    - split; auto; rewrite ?Nh, ?Nt, ?Sy0, ?NN; try lia. eapply idxrep_wfi; eauto. rewrite LNS. auto.
    - rewrite Sy0, Nh, Nt, NN. replace (pb + n - pb) with n by lia. lia.
    - rewrite Sy0, NN. lia. }
  destruct (inv_step F NS idx h t x y0 a ext_periodize (periodize_1d fuel) pb pa I0) as [y [Hy I]]; auto.
  { now rewrite LNS. }
  { intros f g u Hfg. apply periodize_extl; auto. rewrite Nh, Nt. lia. }
  { rewrite Nh. lia. } { lia. } { rewrite Nt, NN. lia. }
  unfold fill_value_1d. cbn [only p_width p_mode nds_get bind fst snd]. fold pb pa.
  replace ((pb =? 0) && (pa =? 0)) with false by (destruct (Z.eqb_spec pa 0); [lia|now rewrite andb_false_r]).
  rewrite Hm. cbn [mode_params pad_func_of bind is_periodize]. rewrite Hy. cbn [bind].
  rewrite (head_tail_nth idx a (nth a h 0) (nth a t 0)) by (auto; unfold idx; rewrite make_idx_upd, upd_length, repeat_length by auto; auto). cbn [bind fst].
  exists y. split; auto. rewrite Nh, Nt in I. replace (pb - pb) with 0 in I by lia.
  destruct I as [_ [Sy [_ [_ Ay]]]]. split; auto. intros j V. rewrite Sy in V.
  rewrite Ay.
  - unfold pad1. cbn [at_]. fold n.
    assert (E : map2 Z.sub j (upd a 0 h) = j).
    { pose proof (valid_length _ _ V). unfold h. rewrite upd_upd. apply list_ext with (d := 0).
      - rewrite map2_length_eq; rewrite ?upd_length, ?repeat_length; lia.
      - intros d Hd. rewrite map2_length_eq in Hd by (rewrite upd_length, repeat_length; lia).
        rewrite nth_map2 with (da := 0) (db := 0) by (rewrite ?upd_length, ?repeat_length; lia).
        destruct (Nat.eq_dec a d); [subst; rewrite nth_upd_eq by (rewrite repeat_length; auto)|rewrite nth_upd_ne, nth_repeat by auto]; lia. }
    rewrite E. reflexivity.
  - split; [now apply valid_length|]. intros d Hd. pose proof (valid_nth _ _ d V Hd) as Vd. rewrite LNS in Hd.
    destruct (Nat.eq_dec a d).
    + subst d. rewrite !nth_upd_eq; auto; unfold h, t; rewrite ?upd_length, ?repeat_length; auto. lia.
    + rewrite !nth_upd_ne by auto. unfold h, t, NS in *. rewrite nth_upd_ne in Vd by auto.
      rewrite !nth_upd_ne, nth_repeat by auto. auto.
Qed.

Theorem pad_axis_periodize_forward fuel junk junk' p (x : T) i ax a q :
  (forall d, (d < ndim x)%nat -> 0 <= nth d (shp x) 0) ->
  check_axes (Z.of_nat (ndim x)) ax = Ok [Z.of_nat a] -> (a < ndim x)%nat ->
  at_item F p i q -> ap_mode q = MPeriodize -> 0 <= ap_before q -> 1 <= ap_after q ->
  nth a (shp x) 0 mod 2 = 1 ->
  (forall d, (d < ndim x)%nat -> nth d (shp x) 0 + ap_before q + ap_after q + 1 <= Z.of_nat fuel) ->
  exists y y', pad_axis fuel junk p x i ax = Ok y /\ padder_forward fuel junk' (only F q) x ax = Ok y' /\
    shp y' = upd a (nth a (shp y) 0 + 1) (shp y) /\ forall j, valid (shp y) j -> at_ y j = at_ y' j.
Proof.
  intros Hsh Hax Ha Hat Hm Hb Haf Hodd Hfuel.
  assert (Hn1 : 1 <= nth a (shp x) 0).
  { assert (0 <= nth a (shp x) 0) by (apply Hsh; auto). destruct (Z.eq_dec (nth a (shp x) 0) 0) as [E|]; [rewrite E in Hodd; discriminate|lia]. }
  destruct (pad_axis_periodize_spec fuel junk p x i ax a q) as [y [Hy [Sy Ay]]]; auto.
  { specialize (Hfuel a Ha). lia. }
  assert (Es : step_after F q (nth a (shp x) 0) = ap_after q + 1).
  { unfold step_after. rewrite Hm. cbn [parity_slot]. destruct (Z.eqb_spec (ap_after q) 0); [lia|]. now rewrite andb_false_r, Hodd. }
  destruct (forward_axis F fuel junk' (only F q) x ax a q ext_periodize) as [y' [Hy' [Sy' Ay']]]; auto; try lia.
  { apply params_only. } { rewrite Hm. reflexivity. }
  { intros d Hd. rewrite Es. specialize (Hfuel d Hd). destruct (Nat.eq_dec a d).
    - subst d. rewrite nth_upd_eq by auto. lia.
    - rewrite nth_upd_ne by auto. lia. }
  exists y, y'. split; auto. split; auto.
  assert (S2 : shp y' = upd a (nth a (shp y) 0 + 1) (shp y)).
  { rewrite Sy', Sy, Es, nth_upd_eq, upd_upd by auto. f_equal. lia. }
  split; auto. intros j V. rewrite Ay by auto. rewrite Ay'; auto. rewrite S2.
  apply valid_iff. pose proof (valid_length _ _ V) as L. rewrite upd_length. split; auto. intros d Hd.
  pose proof (valid_nth _ _ d V ltac:(lia)) as Vd. destruct (Nat.eq_dec a d); [subst d; rewrite nth_upd_eq by (rewrite Sy, upd_length; auto); lia|now rewrite nth_upd_ne by auto].
Qed.

(** Without a slot after the data the code writes [chunk] samples from [chunk - 1]. *)
Lemma expandable_upd s a m m' : (a < length s)%nat -> expandable (upd a m s) (upd a m' s) = (m =? m') || (m =? 1).
Proof.
  intros Ha. unfold expandable. rewrite !upd_length, Nat.leb_refl, Nat.sub_diag. cbn [andb skipn].
  destruct ((m =? m') || (m =? 1)) eqn:E.
  - apply all2_iff with (da := 0) (db := 0). rewrite !upd_length. split; auto. intros d Hd.
    destruct (Nat.eq_dec a d); [subst d; now rewrite !nth_upd_eq by auto|]. rewrite !nth_upd_ne by auto. now rewrite Z.eqb_refl.
  - apply not_true_iff_false. intros G. apply all2_iff with (da := 0) (db := 0) in G. destruct G as [_ G]. rewrite upd_length in G.
    specialize (G a Ha). rewrite !nth_upd_eq in G by auto. congruence.
Qed.
Lemma lens_upd (sh : list Z) idx a sl : length idx = length sh -> (a < length sh)%nat ->
  map r_len (map2 resolve sh (upd a sl idx)) = upd a (r_len (resolve (nth a sh 0) sl)) (map r_len (map2 resolve sh idx)).
Proof.
  intros L Ha. apply list_ext with (d := 0).
  - rewrite upd_length, !map_length, !map2_length_eq; rewrite ?upd_length; auto.
  - rewrite map_length, map2_length_eq by (now rewrite upd_length). intros d Hd.
    assert (P : forall l, length l = length sh -> nth d (map r_len (map2 resolve sh l)) 0 = r_len (resolve (nth d sh 0) (nth d l sfull))).
    { intros l Hl. rewrite (nth_indep _ 0 (r_len (mkR 0 0 1))) by (rewrite map_length, map2_length_eq; auto).
      rewrite map_nth. f_equal. apply nth_map2; lia. }
    rewrite P by (now rewrite upd_length). destruct (Nat.eq_dec a d).
    + subst d. rewrite !nth_upd_eq; rewrite ?map_length, ?map2_length_eq; auto; try lia.
    + rewrite !nth_upd_ne by auto. now rewrite P.
Qed.
Theorem pad_axis_periodize_error fuel junk p (x : T) i ax a q :
  (forall d, (d < ndim x)%nat -> 0 <= nth d (shp x) 0) ->
  check_axes (Z.of_nat (ndim x)) ax = Ok [Z.of_nat a] -> (a < ndim x)%nat ->
  at_item F p i q -> ap_mode q = MPeriodize -> 1 <= ap_before q -> ap_after q = 0 ->
  nth a (shp x) 0 mod 2 = 1 -> Z.min (ap_before q) (nth a (shp x) 0 + 1) <> 2 ->
  pad_axis (S fuel) junk p x i ax = Err RuntimeError.
Proof.
  intros Hsh Hax Ha Hat Hm Hb Haf Hodd Hmin.
  pose proof Hat as [H1 [H2 _]]. unfold pad_axis. rewrite Hax. cbn [bind]. rewrite H1. cbn [bind fst snd].
  set (n := nth a (shp x) 0) in *. set (pb := ap_before q) in *. rewrite Haf.
  assert (Hn1 : 1 <= n). { assert (0 <= n) by (apply Hsh; auto). destruct (Z.eq_dec n 0) as [E|]; [rewrite E in Hodd; discriminate|lia]. }
  replace (pb =? 0) with false by (destruct (Z.eqb_spec pb 0); [lia|auto]). cbn [andb].
  rewrite axis_nat_ok by auto. rewrite ?of_nat_neg. cbn [bind]. unfold dimlen. fold n.
  set (NS := upd a (pb + n + 0) (shp x)). set (nd := ndim x).
  set (idx := make_idx (srng pb (pb + n)) a nd).
  assert (LNS : length NS = nd) by (unfold NS; now rewrite upd_length).
  assert (NN : nth a NS 0 = pb + n) by (unfold NS; rewrite nth_upd_eq by auto; lia).
  assert (Li : length idx = nd) by (unfold idx; rewrite make_idx_upd, upd_length, repeat_length by auto; auto).
  set (LL := map r_len (map2 resolve NS idx)).
  assert (LLL : length LL = nd) by (unfold LL; rewrite map_length, map2_length_eq; lia).
  assert (Ht : exists y0, tset (tempty NS junk) idx x = Ok y0 /\ shp y0 = NS).
  { unfold tset. cbn [tempty shp]. rewrite LNS, Li, Nat.eqb_refl.
    replace (expandable (shp x) (map r_len (map2 resolve NS idx))) with true; [eexists; split; reflexivity|]. symmetry.
    unfold idx. rewrite make_idx_upd by auto. rewrite lens_upd by (rewrite ?repeat_length; lia).
    rewrite NN, resolve_srng by lia. cbn [r_len].
    replace (shp x) with (upd a n (map r_len (map2 resolve NS (repeat sfull nd)))) at 1.
    - rewrite expandable_upd; [apply orb_true_iff; left; apply Z.eqb_eq; lia|]. rewrite map_length, map2_length_eq; rewrite ?repeat_length; lia.
    - apply list_ext with (d := 0); [rewrite upd_length, map_length, map2_length_eq; rewrite ?repeat_length; auto|].
      rewrite upd_length, map_length, map2_length_eq by (rewrite repeat_length; auto). intros d Hd.
      destruct (Nat.eq_dec a d); [subst d; rewrite nth_upd_eq by (rewrite map_length, map2_length_eq; rewrite ?repeat_length; lia); auto|].
      rewrite nth_upd_ne by auto. rewrite (nth_indep _ 0 (r_len (mkR 0 0 1))) by (rewrite map_length, map2_length_eq; rewrite ?repeat_length; auto).
      rewrite map_nth. rewrite nth_map2 with (da := 0) (db := sfull) by (rewrite ?repeat_length; lia). rewrite nth_repeat.
      unfold NS. rewrite nth_upd_ne by auto. rewrite resolve_sfull; auto. apply Hsh. fold nd. lia. }
  destruct Ht as [y0 [-> Sy]]. cbn [bind]. rewrite (fill_value_only F (S fuel) p i q y0 a (Idx idx) Hat).
  unfold fill_value_1d. cbn [only p_width p_mode nds_get bind fst snd]. fold pb. rewrite Haf.
  replace (pb =? 0) with false by (destruct (Z.eqb_spec pb 0); [lia|auto]). cbn [andb].
  rewrite Hm. cbn [mode_params pad_func_of bind is_periodize].
  unfold periodize_1d.
  assert (Ni : nth a idx sfull = srng pb (pb + n)).
  { unfold idx. rewrite make_idx_upd by auto. now rewrite nth_upd_eq by (rewrite repeat_length; auto). }
  rewrite (head_tail_nth idx a pb (pb + n)) by (auto; lia). cbn [bind]. replace (pb + n - pb) with n by lia. rewrite Hodd.
  cbn [Z.eqb]. unfold modify_idx at 1 2 3.
  assert (TG : forall (y : T) sl, shp y = NS -> exists v, tget y (upd a sl idx) = Ok v /\ shp v = upd a (r_len (resolve (pb + n) sl)) LL).
  { intros y sl E. unfold tget. rewrite E, upd_length, LNS, Li, Nat.eqb_refl. eexists. split; [reflexivity|]. cbn [shp].
    rewrite lens_upd by lia. now rewrite NN. }
  assert (TS : forall (y v : T) sl m, shp y = NS -> shp v = upd a m LL ->
     tset y (upd a sl idx) v = if (m =? r_len (resolve (pb + n) sl)) || (m =? 1) then tset y (upd a sl idx) v else Err RuntimeError).
  { intros y v sl m E Ev. unfold tset. rewrite E, upd_length, LNS, Li, Nat.eqb_refl. rewrite lens_upd by lia. rewrite NN, Ev. fold LL.
    rewrite expandable_upd by lia. destruct (_ || _); auto. }
  destruct (TG y0 (srng (pb + n - 1) (pb + n)) Sy) as [v [-> Sv]]. cbn [bind]. rewrite resolve_srng in Sv by lia. cbn [r_len] in Sv.
  replace (pb + n - (pb + n - 1)) with 1 in Sv by lia.
  assert (T1 : exists y1, tset y0 (upd a (srng (pb + n) (pb + n + 1)) idx) v = Ok y1 /\ shp y1 = NS).
  { unfold tset. rewrite Sy, upd_length, LNS, Li, Nat.eqb_refl, lens_upd by lia. rewrite Sv. fold LL. rewrite expandable_upd by lia.
    rewrite orb_true_r. eexists. split; reflexivity. }
  destruct T1 as [y1 [-> Sy1]]. cbn [bind]. unfold circular_1d.
  assert (Ni1 : nth a (upd a (srng pb (pb + n + 1)) idx) sfull = srng pb (pb + n + 1)) by (rewrite nth_upd_eq by lia; auto).
  rewrite (head_tail_nth _ a pb (pb + n + 1)) by (rewrite ?upd_length; auto; lia). cbn [bind].
  replace (pb + n + 1 - pb) with (n + 1) by lia. destruct (Z.eqb_spec (n + 1) 1); [lia|].
  cbn [circular_before]. destruct (Z.ltb_spec 0 pb); [|lia]. cbv zeta. set (ch := Z.min pb (n + 1)) in *.
  unfold modify_idx. rewrite !upd_upd.
  destruct (TG y1 (srng (pb + n + 1 - ch) (pb + n + 1)) Sy1) as [w [-> Sw]]. cbn [bind].
  assert (R1 : r_len (resolve (pb + n) (srng (pb + n + 1 - ch) (pb + n + 1))) = ch - 1).
  { unfold resolve, srng, clampi. cbn [s_lo s_hi s_st r_len]. destruct (Z.ltb_spec (pb + n + 1 - ch) 0); [lia|].
    destruct (Z.ltb_spec (pb + n + 1) 0); [lia|]. rewrite Z.div_1_r. lia. }
  rewrite R1 in Sw. rewrite (TS y1 w _ _ Sy1 Sw). rewrite resolve_srng by lia. cbn [r_len].
  destruct (Z.eqb_spec (ch - 1) (pb - (pb - ch))); [lia|]. destruct (Z.eqb_spec (ch - 1) 1); [lia|]. reflexivity.
Qed.
End E.
