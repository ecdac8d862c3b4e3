(** periodize without a slot after the data: the copies of two samples that succeed (C18). *)
From Verif Require Export PadExact.
Open Scope Z_scope.

Section PT.
Variable F : ofield.
Notation T := (tensor F).

Lemma periodize_last n (f : Z -> F) head t : n mod 2 = 1 -> 1 <= n -> head = 2 \/ n = 1 -> - head <= t < 0 -> ext_periodize n f t = f (n - 1).
Proof.
  intros Ho Hn Hc Ht. unfold ext_periodize, ext_circular. rewrite Ho. destruct Hc as [Hc|Hc]; subst.
  - assert (E : t mod (n + 1) = t + (n + 1)).
    { symmetry. apply Z.mod_unique with (q := -1); [left; lia|lia]. }
    rewrite E. destruct (Z.ltb_spec (t + (n + 1)) n); [f_equal; lia|reflexivity].
  - pose proof (Z.mod_pos_bound t (1 + 1)). destruct (Z.ltb_spec (t mod (1 + 1)) 1); [f_equal; lia|reflexivity].
Qed.

Section W.
Variables (x : T) (idx : list slice) (dim : nat) (head tail : Z).
Hypothesis P : pre F x idx dim head tail.
Hypothesis Ht : tail = nth dim (shp x) 0.
Let n := tail - head.
Hypothesis Hodd : n mod 2 = 1.
Let E := Eof F ext_periodize x dim head n.

Lemma tight_dinv : dinv dim E.
Proof. apply Eof_dinv; [apply periodize_extl|]. destruct P. unfold n. lia. Qed.
(** The copy that repeats the last sample goes into an empty slice. *)
Lemma tight_start : exists v y, tget x (upd dim (srng (tail - 1) tail) idx) = Ok v /\ tset x (upd dim (srng tail (tail + 1)) idx) v = Ok y /\
  agree (shp x) idx dim x E head tail y.
Proof.
  pose proof P as [W Hidx Hhead Hht Htail]. pose proof (agree_start F _ _ _ _ _ _ P (periodize_core F)) as A. fold n in A.
  destruct (agree_get (shp x) idx dim W x E head tail x (srng (tail - 1) tail) (tail - 1) 1 tight_dinv A) as [v [Hv Hf]]; try lia. { rewrite resolve_srng by lia; f_equal; lia. }
  destruct (agree_set_after (shp x) idx dim W x E head tail x (srng tail (tail + 1)) v tail (fun j _ => E j (tail - 1 + 0)) tight_dinv A) as [y [Hy Ay]]; try lia.
  { rewrite <- Ht. unfold resolve, srng, clampi. cbn [s_lo s_hi s_st]. destruct (Z.ltb_spec tail 0); [lia|]. destruct (Z.ltb_spec (tail + 1) 0); [lia|].
    f_equal; [lia|]. change (1 - 1) with 0. rewrite Z.div_1_r. lia. }
  { exact (frep_one _ _ _ W v _ _ Hf). }
  exists v, y. auto.
Qed.
(** One copy of two samples. *)
Lemma tight_chunk y curr : agree (shp x) idx dim x E curr tail y -> 2 <= curr <= head -> head = 2 \/ n = 1 ->
  exists v z, tget y (upd dim (srng (tail + 1 - 2) (tail + 1)) idx) = Ok v /\ tset y (upd dim (srng (curr - 2) curr) idx) v = Ok z /\
  agree (shp x) idx dim x E (curr - 2) tail z.
Proof.
  intros A Hc Hcase. pose proof P as [W Hidx Hhead Hht Htail].
  destruct (agree_get (shp x) idx dim W x E curr tail y (srng (tail + 1 - 2) (tail + 1)) (tail - 1) 1 tight_dinv A) as [v [Hv Hf]]; try lia.
  { rewrite <- Ht. unfold resolve, srng, clampi. cbn [s_lo s_hi s_st]. destruct (Z.ltb_spec (tail + 1 - 2) 0); [lia|]. destruct (Z.ltb_spec (tail + 1) 0); [lia|].
    f_equal; [lia|]. rewrite Z.div_1_r. lia. }
  destruct (agree_set_before (shp x) idx dim W x E curr tail y (srng (curr - 2) curr) v (curr - 2) (fun j _ => E j (tail - 1 + 0)) tight_dinv A) as [z [Hz Az]]; try lia.
  { rewrite resolve_srng by lia; f_equal; lia. }
  { exact (frep_one _ _ _ W v _ _ Hf). }
  { intros j k Hj Hk. unfold E, Eof. rewrite (periodize_last n _ head (curr - 2 + k - head)); auto; unfold n in *; try lia.
    rewrite (periodize_core F) by lia. f_equal. lia. }
  exists v, z. auto.
Qed.
Lemma tight_before fuel : forall y curr, agree (shp x) idx dim x E curr tail y -> curr <= 2 * Z.of_nat fuel -> 0 <= curr <= head -> curr mod 2 = 0 ->
  head = 2 \/ n = 1 ->
  exists z, circular_before fuel y (upd dim (srng head (tail + 1)) idx) dim (tail + 1) (n + 1) curr = Ok z /\ agree (shp x) idx dim x E 0 tail z.
Proof.
  pose proof P as [W Hidx Hhead Hht Htail].
  induction fuel as [|fuel IH]; intros y curr A Hf Hc Hev Hcase; cbn [circular_before];
    (destruct (Z.ltb_spec 0 curr); [|exists y; split; auto; now replace 0 with curr by lia]); [lia|].
  assert (C2 : 2 <= curr). { pose proof (Z.div_mod curr 2). lia. }
  assert (M : Z.min curr (n + 1) = 2) by (unfold n in *; destruct Hcase; lia). cbv zeta. rewrite M. unfold modify_idx. rewrite !upd_upd.
  destruct (tight_chunk y curr A ltac:(lia) Hcase) as [v [z [Hv [Hz Az]]]]. rewrite Hv. cbn [bind]. rewrite Hz. cbn [bind].
  apply IH; auto; try lia. replace (curr - 2) with (curr + (-1) * 2) by lia. rewrite Z.mod_add by lia. exact Hev.
Qed.
Lemma periodize_tight fuel : head <= 2 * Z.of_nat fuel -> head mod 2 = 0 -> head = 2 \/ n = 1 ->
  pads F (periodize_1d fuel) x idx dim head tail ext_periodize.
Proof.
  intros Hf Hev Hcase. pose proof P as [W Hidx Hhead Hht Htail]. unfold pads, periodize_1d. rewrite (head_tail_ok _ _ _ _ _ W Hidx). cbn [bind]. fold n. rewrite Hodd.
  change (1 =? 0) with false. cbv iota. unfold modify_idx.
  destruct tight_start as [v [y [Hv [Hy Ay]]]]. rewrite Hv. cbn [bind]. rewrite Hy. cbn [bind]. unfold circular_1d.
  assert (Ld : (dim < length idx)%nat) by (rewrite (wfi_len _ _ _ W); apply W).
  rewrite (head_tail_nth _ dim head (tail + 1)) by (rewrite ?upd_length, ?nth_upd_eq; auto). cbn [bind].
  replace (tail + 1 - head) with (n + 1) by (unfold n; lia). destruct (Z.eqb_spec (n + 1) 1); [unfold n in *; lia|].
  destruct (tight_before fuel y head Ay Hf ltac:(lia) Hev Hcase) as [z [Hz Az]]. rewrite Hz. cbn [bind].
  assert (Ea : circular_after fuel z (upd dim (srng head (tail + 1)) idx) dim head (n + 1) (tail + 1) = Ok z).
  { destruct fuel; cbn [circular_after]; unfold dimlen; rewrite (proj1 Az), <- Ht; destruct (Z.ltb_spec (tail + 1) tail); lia || reflexivity. }
  exists z. split; [exact Ea|]. rewrite <- Ht. exact Az.
Qed.
(** One sample: copying runs out for an odd number of slots. *)
Lemma tight_odd fuel : n = 1 -> forall y curr, agree (shp x) idx dim x E curr tail y -> curr < 2 * Z.of_nat fuel -> 1 <= curr <= head -> curr mod 2 = 1 ->
  circular_before fuel y (upd dim (srng head (tail + 1)) idx) dim (tail + 1) (n + 1) curr = Err RuntimeError.
Proof.
  intros N1. pose proof P as [W Hidx Hhead Hht Htail].
  induction fuel as [|fuel IH]; intros y curr A Hf Hc Hev; cbn [circular_before]; [lia|].
  destruct (Z.ltb_spec 0 curr); [|lia]. unfold modify_idx. rewrite !upd_upd. cbv zeta. destruct (Z.eq_dec curr 1) as [->|C1].
  - rewrite N1. change (Z.min 1 (1 + 1)) with 1. replace (tail + 1 - 1) with tail by lia.
    destruct (tget_frep (shp x) idx dim W y (srng tail (tail + 1)) tail 0 (proj1 A)) as [v [Hv Hfr]]; [|lia|].
    { rewrite <- Ht. unfold resolve, srng, clampi. cbn [s_lo s_hi s_st]. destruct (Z.ltb_spec tail 0); [lia|]. destruct (Z.ltb_spec (tail + 1) 0); [lia|].
      f_equal; [lia|]. change (1 - 1) with 0. rewrite Z.div_1_r. lia. }
    rewrite Hv. cbn [bind]. destruct Hfr as [_ [Sv _]]. unfold tset. rewrite (proj1 A), upd_length, (wfi_len _ _ _ W), Nat.eqb_refl.
    rewrite lens_upd by (try apply (wfi_len _ _ _ W); apply W). rewrite Sv.
    rewrite expandable_upd by (rewrite map_length, map2_length_eq; [apply W|symmetry; apply (wfi_len _ _ _ W)]).
    rewrite resolve_srng by lia. cbn [r_len]. reflexivity.
  - assert (C3 : 3 <= curr). { pose proof (Z.div_mod curr 2). lia. }
    assert (M : Z.min curr (n + 1) = 2) by lia. rewrite M.
    destruct (tight_chunk y curr A ltac:(lia) (or_intror N1)) as [v [z [Hv [Hz Az]]]]. rewrite Hv. cbn [bind]. rewrite Hz. cbn [bind].
    apply IH; auto; try lia. replace (curr - 2) with (curr + (-1) * 2) by lia. rewrite Z.mod_add by lia. exact Hev.
Qed.
Lemma periodize_tight_odd fuel : head < 2 * Z.of_nat fuel -> head mod 2 = 1 -> n = 1 -> periodize_1d fuel x idx dim = Err RuntimeError.
Proof.
  intros Hf Hev N1. pose proof P as [W Hidx Hhead Hht Htail]. unfold periodize_1d. rewrite (head_tail_ok _ _ _ _ _ W Hidx). cbn [bind]. fold n. rewrite Hodd.
  change (1 =? 0) with false. cbv iota. unfold modify_idx.
  destruct tight_start as [v [y [Hv [Hy Ay]]]]. rewrite Hv. cbn [bind]. rewrite Hy. cbn [bind]. unfold circular_1d.
  assert (Ld : (dim < length idx)%nat) by (rewrite (wfi_len _ _ _ W); apply W).
  rewrite (head_tail_nth _ dim head (tail + 1)) by (rewrite ?upd_length, ?nth_upd_eq; auto). cbn [bind].
  replace (tail + 1 - head) with (n + 1) by (unfold n; lia). destruct (Z.eqb_spec (n + 1) 1); [unfold n in *; lia|].
  rewrite tight_odd; auto. assert (head <> 0) by (intros E0; rewrite E0 in Hev; discriminate). lia.
Qed.
End W.

(** pad_axis in mode periodize on an odd axis, in terms of what the filling does. *)
Lemma pad_axis_periodize_gen fuel junk p (x : T) i ax a q :
  (forall d, (d < ndim x)%nat -> 0 <= nth d (shp x) 0) ->
  check_axes (Z.of_nat (ndim x)) ax = Ok [Z.of_nat a] -> (a < ndim x)%nat ->
  at_item F p i q -> ap_mode q = MPeriodize -> 0 <= ap_before q -> 0 <= ap_after q -> ap_before q + ap_after q <> 0 ->
  nth a (shp x) 0 mod 2 = 1 ->
  let n := nth a (shp x) 0 in let pb := ap_before q in let N := ap_before q + nth a (shp x) 0 + ap_after q in
  ((forall y idx, pre F y idx a pb (pb + n) -> nth a (shp y) 0 = N -> pads F (periodize_1d fuel) y idx a pb (pb + n) ext_periodize) ->
   exists y, pad_axis fuel junk p x i ax = Ok y /\ shp y = upd a N (shp x) /\
     forall j, valid (shp y) j -> at_ y j = ext_periodize n (fun u => at_ x (upd a u j)) (nth a j 0 - pb)) /\
  (forall e, (forall y idx, pre F y idx a pb (pb + n) -> nth a (shp y) 0 = N -> periodize_1d fuel y idx a = Err e) ->
   pad_axis fuel junk p x i ax = Err e).
Proof.
  intros Hsh Hax Ha Hat Hm Hb Haf Hne Hodd. cbv zeta.
  pose proof Hat as [H1 [H2 _]]. unfold pad_axis. rewrite Hax. cbn [bind]. rewrite H1. cbn [bind fst snd].
  set (n := nth a (shp x) 0) in *. set (pb := ap_before q) in *. set (pa := ap_after q) in *.
  assert (Hn1 : 1 <= n). { assert (0 <= n) by (apply Hsh; auto). destruct (Z.eq_dec n 0) as [E|]; [rewrite E in Hodd; discriminate|lia]. }
  replace ((pb =? 0) && (pa =? 0)) with false by (destruct (Z.eqb_spec pb 0); destruct (Z.eqb_spec pa 0); lia || reflexivity).
  rewrite axis_nat_ok by auto. rewrite ?of_nat_neg. cbn [bind]. unfold dimlen. fold n.
  set (NS := upd a (pb + n + pa) (shp x)). set (nd := ndim x).
  set (h := upd a pb (repeat 0 nd)). set (t := upd a (pb + n) (shp x)).
  set (idx := make_idx (srng pb (pb + n)) a nd).
  assert (LNS : length NS = nd) by (unfold NS; now rewrite upd_length).
  assert (Et : upd a (pb + n) NS = t) by (unfold NS, t; now rewrite upd_upd).
  assert (X : idxrep NS idx h t).
  { unfold idx. rewrite make_idx_upd by auto. rewrite <- Et. unfold h.
    apply (idxrep_upd NS (repeat sfull nd) (repeat 0 nd) NS a pb (pb + n)).
    - split; [rewrite repeat_length; auto|]. split; [rewrite repeat_length; auto|]. split; auto.
      intros d Hd. rewrite !nth_repeat. rewrite LNS in Hd.
      assert (0 <= nth d NS 0). { unfold NS. destruct (Nat.eq_dec a d); [subst; rewrite nth_upd_eq by auto; lia|]. rewrite nth_upd_ne by auto. now apply Hsh. }
      rewrite resolve_sfull by auto. split; [f_equal; lia|]. split; auto. lia.
    - rewrite LNS. auto.
    - lia.
    - unfold NS. rewrite nth_upd_eq by auto. lia. }
  destruct (tset_block NS (tempty NS junk) x idx h t) as [y0 [Hy0 [Sy0 [A0 _]]]]; auto.
  { rewrite LNS. intros d Hd. unfold t, h. destruct (Nat.eq_dec a d).
    - subst d. rewrite !nth_upd_eq by (rewrite ?repeat_length; auto). fold n. lia.
    - rewrite !nth_upd_ne, nth_repeat by auto. lia. }
  rewrite Hy0. cbn [bind].
  rewrite (fill_value_only F fuel p i q y0 a (Idx idx) Hat).
  assert (Nh : nth a h 0 = pb) by (unfold h; apply nth_upd_eq; rewrite repeat_length; auto).
  assert (Nt : nth a t 0 = pb + n) by (unfold t; apply nth_upd_eq; auto).
  assert (NN : nth a NS 0 = pb + n + pa) by (unfold NS; apply nth_upd_eq; auto).
  assert (Ni : nth a idx sfull = srng (nth a h 0) (nth a t 0)).
  { unfold idx. rewrite make_idx_upd by auto. rewrite nth_upd_eq by (rewrite repeat_length; auto). congruence. }
  assert (I0 : Inv F NS idx h t x y0).
  { split; auto. split; auto. split; auto. split; auto. rewrite LNS. intros d Hd. unfold t, h. destruct (Nat.eq_dec a d).
    - subst d. rewrite !nth_upd_eq by (rewrite ?repeat_length; auto). fold n. lia.
    - rewrite !nth_upd_ne, nth_repeat by auto. lia. }
  assert (Pr : pre F y0 idx a pb (pb + n)).
  { split; auto; rewrite <- ?Nh, <- ?Nt, ?Sy0, ?NN; rewrite ?Nh, ?Nt; try lia; [|congruence]. eapply idxrep_wfi; eauto. rewrite LNS. auto. }
  assert (N0 : nth a (shp y0) 0 = pb + n + pa) by now rewrite Sy0.
  split.
  2:{ intros e He. specialize (He y0 idx Pr N0).
      unfold fill_value_1d. cbn [only p_width p_mode nds_get bind fst snd]. fold pb pa.
      replace ((pb =? 0) && (pa =? 0)) with false by (destruct (Z.eqb_spec pb 0); destruct (Z.eqb_spec pa 0); lia || reflexivity).
      rewrite Hm. cbn [mode_params pad_func_of bind is_periodize]. now rewrite He. }
  intros Hp. pose proof (Hp y0 idx Pr N0) as Pd. assert (Pd2 : pads F (periodize_1d fuel) y0 idx a (nth a h 0) (nth a t 0) ext_periodize) by (now rewrite Nh, Nt).
  destruct (inv_step F NS idx h t x y0 a ext_periodize (periodize_1d fuel) pb pa I0) as [y [Hy I]]; auto.
  { now rewrite LNS. }
  { intros f g u Hfg. apply periodize_extl; auto. rewrite Nh, Nt. lia. }
  { rewrite Nh. lia. } { rewrite Nt, NN. lia. }
  unfold fill_value_1d. cbn [only p_width p_mode nds_get bind fst snd]. fold pb pa.
  replace ((pb =? 0) && (pa =? 0)) with false by (destruct (Z.eqb_spec pb 0); destruct (Z.eqb_spec pa 0); lia || reflexivity).
  rewrite Hm. cbn [mode_params pad_func_of bind is_periodize]. rewrite Hy. cbn [bind].
  rewrite (head_tail_nth idx a (nth a h 0) (nth a t 0)) by (auto; unfold idx; rewrite make_idx_upd, upd_length, repeat_length by auto; auto). cbn [bind fst].
  exists y. split; auto. rewrite Nh, Nt in I. replace (pb - pb) with 0 in I by lia.
  destruct I as [_ [Sy [_ [_ Ay]]]]. split; auto. intros j V. rewrite Sy in V.
  rewrite Ay.
  - unfold pad1. cbn [at_]. fold n.
    assert (E : map2 Z.sub j (upd a 0 h) = j).
    { pose proof (valid_length _ _ V). unfold h. rewrite upd_upd. apply list_ext with (d := 0).
      - rewrite map2_length_eq; rewrite ?upd_length, ?repeat_length; lia.
      - intros d Hd. rewrite map2_length_eq in Hd by (rewrite upd_length, repeat_length; lia).
        rewrite nth_map2 with (da := 0) (db := 0) by (rewrite ?upd_length, ?repeat_length; lia).
        destruct (Nat.eq_dec a d); [subst; rewrite nth_upd_eq by (rewrite repeat_length; auto)|rewrite nth_upd_ne, nth_repeat by auto]; lia. }
    rewrite E. reflexivity.
  - split; [now apply valid_length|]. intros d Hd. pose proof (valid_nth _ _ d V Hd) as Vd. rewrite LNS in Hd.
    destruct (Nat.eq_dec a d).
    + subst d. rewrite !nth_upd_eq; auto; unfold h, t; rewrite ?upd_length, ?repeat_length; auto. lia.
    + rewrite !nth_upd_ne by auto. unfold h, t, NS in *. rewrite nth_upd_ne in Vd by auto.
      rewrite !nth_upd_ne, nth_repeat by auto. auto.
Qed.


Theorem pad_axis_periodize_two fuel junk junk' p (x : T) i ax a q :
  (forall d, (d < ndim x)%nat -> 0 <= nth d (shp x) 0) ->
  check_axes (Z.of_nat (ndim x)) ax = Ok [Z.of_nat a] -> (a < ndim x)%nat ->
  at_item F p i q -> ap_mode q = MPeriodize -> ap_after q = 0 -> nth a (shp x) 0 mod 2 = 1 ->
  ap_before q = 2 \/ nth a (shp x) 0 = 1 /\ 1 <= ap_before q /\ ap_before q mod 2 = 0 ->
  (forall d, (d < ndim x)%nat -> nth d (shp x) 0 + ap_before q + 1 <= Z.of_nat fuel) ->
  exists y y', pad_axis fuel junk p x i ax = Ok y /\ padder_forward fuel junk' (only F q) x ax = Ok y' /\
    shp y' = upd a (nth a (shp y) 0 + 1) (shp y) /\ forall j, valid (shp y) j -> at_ y j = at_ y' j.
Proof.
  intros Hsh Hax Ha Hat Hm Haf Hodd Hc Hfuel.
  assert (Hn1 : 1 <= nth a (shp x) 0).
  { assert (0 <= nth a (shp x) 0) by (apply Hsh; auto). destruct (Z.eq_dec (nth a (shp x) 0) 0) as [E|]; [rewrite E in Hodd; discriminate|lia]. }
  assert (Hb : 1 <= ap_before q) by lia.
  assert (Hev : ap_before q mod 2 = 0) by (destruct Hc as [->|[_ [_ Hc]]]; auto).
  destruct (pad_axis_periodize_gen fuel junk p x i ax a q) as [G _]; auto; try lia. destruct G as [y [Hy [Sy Ay]]].
  { intros y idx Pr N0. specialize (Hfuel a Ha).
    replace (ap_before q + nth a (shp x) 0 + ap_after q) with (ap_before q + nth a (shp x) 0) in N0 by lia.
    apply periodize_tight; auto; replace (ap_before q + nth a (shp x) 0 - ap_before q) with (nth a (shp x) 0) by lia; auto; lia. }
  assert (Es : step_after F q (nth a (shp x) 0) = ap_after q + 1).
  { unfold step_after. rewrite Hm. cbn [parity_slot]. destruct (Z.eqb_spec (ap_before q) 0); [lia|]. cbn [andb]. now rewrite Hodd. }
  destruct (forward_axis F fuel junk' (only F q) x ax a q ext_periodize) as [y' [Hy' [Sy' Ay']]]; auto; try lia.
  { apply params_only. } { rewrite Hm. reflexivity. }
  { intros d Hd. rewrite Es. specialize (Hfuel d Hd). destruct (Nat.eq_dec a d).
    - subst d. rewrite nth_upd_eq by auto. lia.
    - rewrite nth_upd_ne by auto. lia. }
  exists y, y'. split; auto. split; auto.
  assert (S2 : shp y' = upd a (nth a (shp y) 0 + 1) (shp y)).
  { rewrite Sy', Sy, Es, nth_upd_eq, upd_upd by auto. f_equal. lia. }
  split; auto. intros j V. rewrite Ay by auto. rewrite Ay'; auto. rewrite S2.
  apply valid_iff. pose proof (valid_length _ _ V) as L. rewrite upd_length. split; auto. intros d Hd.
  pose proof (valid_nth _ _ d V ltac:(lia)) as Vd. destruct (Nat.eq_dec a d); [subst d; rewrite nth_upd_eq by (rewrite Sy, upd_length; auto); lia|now rewrite nth_upd_ne by auto].
Qed.
Theorem pad_axis_periodize_one fuel junk p (x : T) i ax a q :
  (forall d, (d < ndim x)%nat -> 0 <= nth d (shp x) 0) ->
  check_axes (Z.of_nat (ndim x)) ax = Ok [Z.of_nat a] -> (a < ndim x)%nat ->
  at_item F p i q -> ap_mode q = MPeriodize -> 0 <= ap_before q -> ap_after q = 0 ->
  nth a (shp x) 0 = 1 -> ap_before q mod 2 = 1 -> ap_before q < 2 * Z.of_nat fuel ->
  pad_axis fuel junk p x i ax = Err RuntimeError.
Proof.
  intros Hsh Hax Ha Hat Hm Hb Haf Hn Hodd Hf.
  assert (B1 : ap_before q <> 0) by (intros E; rewrite E in Hodd; discriminate).
  destruct (pad_axis_periodize_gen fuel junk p x i ax a q) as [_ G]; auto; try lia. { now rewrite Hn. }
  apply G. intros y idx Pr N0. rewrite Hn in *.
  apply (periodize_tight_odd y idx a (ap_before q) (ap_before q + 1)); auto; replace (ap_before q + 1 - ap_before q) with 1 by lia; auto; lia.
Qed.
End PT.
