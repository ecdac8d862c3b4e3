(** Padder.forward with repeated axes (C126). *)
From Verif Require Export PadSeq.
From Verif Require Import PadFlip.
Open Scope Z_scope.

(** Modes whose padding depends only on what is already there, not on the room left (linear_ramp, periodize). *)
Definition step_free {F : ofield} (m : mode F) : bool :=
  match m with MPeriodize | MLinearRamp | MZeros | MEmpty | MFun _ | MUnknown => false | _ => true end.
(** Usable parameters for every entry of the axes list, repeated or not. *)
Definition repeat_fine {F : ofield} (p : padder F) (x : tensor F) (al : list nat) : Prop :=
  forall l1 a l2, last_axes p al = l1 ++ a :: l2 -> exists q, params p (length l2) = Some q /\ 0 <= ap_before q /\ 0 <= ap_after q /\
    ((ap_before q = 0 /\ ap_after q = 0) \/ (step_free (ap_mode q) = true /\ (1 <= nth a (shp x) 0 \/ empty_ok (ap_mode q) = true))).
(** A call whose axes may be repeated. *)
Record repeat_call {F : ofield} (fuel : nat) (p : padder F) (x : tensor F) (ax : axes_arg) (al : list nat) : Prop := {
  rp_nd : (0 < ndim x)%nat;
  rp_shape : forall d, (d < ndim x)%nat -> 0 <= nth d (shp x) 0;
  rp_axes : check_axes (Z.of_nat (ndim x)) ax = Ok (map Z.of_nat al);
  rp_lt : forall a, In a al -> (a < ndim x)%nat;
  rp_fuel : forall d, (d < ndim x)%nat -> nth d (out_shape p (shp x) al) 0 <= Z.of_nat fuel }.

Section R.
Variable F : ofield.
Notation T := (tensor F).

Lemma free_slot (m : mode F) n : step_free m = true -> parity_slot m n = 0.
Proof. now destruct m. Qed.
Lemma free_ext (m : mode F) pb pa cv ev sl : step_free m = true -> exists e, mode_ext m pb pa cv ev sl = Some e.
Proof. destruct m; try discriminate; cbn; eauto. Qed.
(** The fill functions of the free modes, with any room. *)
Lemma free_pads fuel (m : mode F) pb pa cv ev sl e (y : T) idx a head tail : step_free m = true ->
  mode_ext m pb pa cv ev sl = Some e ->
  wfi (shp y) idx a -> nth a idx sfull = srng head tail -> 0 <= head -> head <= tail ->
  1 <= tail - head \/ empty_ok m = true -> tail <= nth a (shp y) 0 -> nth a (shp y) 0 <= Z.of_nat fuel ->
  exists pf, pad_func_of fuel false m cv ev sl = Ok pf /\ pads F pf y idx a head tail e.
Proof.
  intros Fr He W Hi H1 H2 H3 H4 Hf.
  assert (He' : mode_ext m head (nth a (shp y) 0 - tail) cv ev sl = Some e) by (revert Fr He; destruct m; try discriminate; auto).
  apply (mode_pads F fuel m head (nth a (shp y) 0 - tail) cv ev sl e y idx a head tail); auto; try lia.
  rewrite free_slot by auto. lia.
Qed.

Section Loop.
Variable NS : list Z.
Notation nd := (length NS).
(** The room that is left is that of the axes still to come. *)
Fixpoint room (p : padder F) (h t : list Z) (rest : list nat) : Prop :=
  match rest with
  | [] => forall d, (d < nd)%nat -> nth d h 0 = 0 /\ nth d t 0 = nth d NS 0
  | a :: rest' => exists q, params p (length rest') = Some q /\ 0 <= ap_before q /\ 0 <= ap_after q /\
      ap_before q <= nth a h 0 /\ nth a t 0 + ap_after q <= nth a NS 0 /\
      room p (upd a (nth a h 0 - ap_before q) h) (upd a (nth a t 0 + ap_after q) t) rest'
  end.
Definition free_entry (p : padder F) (s : T) (rest : list nat) : Prop :=
  forall l1 a l2 q, rest = l1 ++ a :: l2 -> params p (length l2) = Some q ->
    (ap_before q = 0 /\ ap_after q = 0) \/ (step_free (ap_mode q) = true /\ (1 <= nth a (shp s) 0 \/ empty_ok (ap_mode q) = true)).

Lemma free_step (q : axis_params F) a (s : T) : 0 <= ap_before q -> 0 <= ap_after q ->
  ((ap_before q = 0 /\ ap_after q = 0) \/ (step_free (ap_mode q) = true /\ (1 <= nth a (shp s) 0 \/ empty_ok (ap_mode q) = true))) ->
  exists s', spec_axis q a s = Some s' /\ (forall b, (b < length (shp s))%nat -> nth b (shp s) 0 <= nth b (shp s') 0) /\ length (shp s') = length (shp s).
Proof.
  intros H1 H2 H3. destruct (spec_axis_some F q a s) as [s' Hs'].
  - split; auto. split; auto. destruct H3 as [[E1 E2]|[Fr N]]; [left; rewrite E1, E2; reflexivity|]. right. right. split; auto. now apply free_ext.
  - exists s'. split; auto. split; [|eapply spec_axis_length; eauto]. intros b Hb. destruct (Nat.eq_dec b a) as [->|N].
    + eapply spec_axis_grows; eauto.
    + rewrite (spec_axis_shape F _ _ _ _ b Hs') by auto. lia.
Qed.
Lemma repeat_loop fuel p axes : forall rest pre idx h t (s y : T),
  axes = map Z.of_nat (pre ++ rest) -> (forall a, In a rest -> (a < nd)%nat) ->
  Inv F NS idx h t s y -> idxnow idx h t rest -> room p h t rest -> free_entry p s rest ->
  (forall a, In a rest -> nth a NS 0 <= Z.of_nat fuel) ->
  exists y' s', fill_loop fuel p y axes (negs (length rest)) (Idx idx) = Ok y' /\ spec_axes p s rest = Some s' /\ teq y' s'.
Proof.
  induction rest as [|a rest IH]; intros pre idx h t s y Hax Hlt I Hix Hr Fe Hfuel.
  { exists y, s. split; [reflexivity|]. split; [reflexivity|]. destruct I as (X & Sy & Ls & Hs & Hy). cbn [room] in Hr.
    assert (ES : shp y = shp s).
    { rewrite Sy. apply list_ext with (d := 0); auto. intros d Hd. destruct (Hr d Hd) as [R1 R2]. rewrite Hs, R1, R2 by auto. lia. }
    split; auto. intros j V. rewrite Sy in V. destruct X as (_ & Lh & Lt & _). pose proof (valid_length _ _ V) as Lj.
    rewrite Hy.
    - f_equal. apply list_ext with (d := 0); [rewrite map2_length_eq; lia|]. rewrite map2_length_eq by lia. intros d Hd.
      rewrite nth_map2 with (da := 0) (db := 0) by lia. destruct (Hr d) as [R1 _]; [lia|]. lia.
    - split; [lia|]. intros d Hd. destruct (Hr d Hd) as [-> ->]. pose proof (valid_nth _ _ d V Hd). lia. }
  destruct Hr as (q & Hq & P1 & P2 & R1 & R2 & Hr). pose proof (Hlt a (or_introl eq_refl)) as Ha.
  destruct (params_get _ _ _ _ Hq) as [G1 [G2 _]].
  subst axes. assert (Hax' : map Z.of_nat (pre ++ a :: rest) = map Z.of_nat ((pre ++ [a]) ++ rest)) by (now rewrite <- app_assoc).
  pose proof I as (X & Sy & Ls & Hss & Hy). pose proof X as (L & L1 & L2 & Hrr).
  destruct (free_step q a s P1 P2 (Fe [] a rest q eq_refl Hq)) as (s1 & Hs1 & Gs & Ls1).
  assert (Fe1 : free_entry p s1 rest).
  { intros l1 b l2 q' -> Hq'. destruct (Fe (a :: l1) b l2 q' eq_refl Hq') as [Z|[Fr [N|N]]]; [now left| |right; auto].
    right. split; auto. left. assert (nth b (shp s) 0 <= nth b (shp s1) 0); [|lia]. apply Gs. rewrite Ls. apply Hlt. right. apply in_app_iff. right. now left. }
  cbn [spec_axes]. rewrite Hq, Hs1.
  cbn [negs length fill_loop]. rewrite pyidx_app_axis. cbn [bind]. rewrite G1. cbn [bind fst snd].
  destruct ((ap_before q =? 0) && (ap_after q =? 0)) eqn:Hz.
  - apply spec_axis_zero in Hs1; auto. subst s1. apply andb_prop in Hz as [Z1 Z2]. apply Z.eqb_eq in Z1, Z2.
    rewrite Z1, Z2, Z.sub_0_r, Z.add_0_r, !upd_nth in Hr.
    apply (IH (pre ++ [a]) idx h t s y); auto.
    + intros b Hb. apply Hlt. now right.
    + intros b Hb. apply Hix. now right.
    + intros b Hb. apply Hfuel. now right.
  - assert (Hndim : ndim y = nd) by (unfold ndim; now rewrite Sy). rewrite Hndim, axis_nat_ok by auto. rewrite ?of_nat_neg. cbn [bind].
    destruct (Fe [] a rest q eq_refl Hq) as [[Z1 Z2]|[Fr Ne]]; [rewrite Z1, Z2 in Hz; discriminate|].
    destruct (free_ext (ap_mode q) (ap_before q) (ap_after q) (ap_const q) (ap_end q) (ap_stat q) Fr) as [e He].
    assert (E1 : s1 = pad1 e a (ap_before q) (ap_after q) s).
    { unfold spec_axis in Hs1. rewrite Hz in Hs1. destruct (negb _); [discriminate|]. destruct (_ && _); [discriminate|].
      revert Hs1 He Fr. clear. destruct (ap_mode q); intros H He Fr; try discriminate; cbn [mode_ext] in *; injection He as <-; injection H as <-; cbn [parity_slot]; rewrite Z.add_0_r; reflexivity. }
    destruct (mode_params_ok F p (ap_mode q) (length rest) q e Hq eq_refl He) as (cv & ev & sl & Hmp & He').
    pose proof (Hrr a Ha) as Hra. rewrite Hss in Ne by auto.
    destruct (free_pads fuel (ap_mode q) (ap_before q) (ap_after q) cv ev sl e y idx a (nth a h 0) (nth a t 0)) as [pf [Hpf Hpads]]; auto; try lia.
    { rewrite Sy. eapply idxrep_wfi; eauto. } { apply Hix. now left. } { rewrite Sy. lia. } { rewrite Sy. apply Hfuel. now left. }
    destruct (inv_step F NS idx h t s y a e pf (ap_before q) (ap_after q) I Ha Hpads) as [y1 [Hy1 I1]]; try lia.
    { eapply mode_ext_extl; eauto. }
    assert (FV : fill_value_1d fuel false p y (- Z.of_nat (S (length rest))) a (Idx idx) =
      Ok (y1, Idx (upd a (srng (nth a h 0 - ap_before q) (nth a t 0 + ap_after q)) idx))).
    { unfold fill_value_1d. rewrite G1. cbn [bind fst snd]. rewrite Hz, G2. cbn [bind].
      rewrite mode_match_fill; [|intros Q; rewrite Q in Fr; discriminate|destruct (ap_mode q); try reflexivity; discriminate].
      rewrite Hmp. cbn [bind]. rewrite Hpf. cbn [bind]. rewrite Hy1. cbn [bind].
      rewrite (head_tail_nth idx a (nth a h 0) (nth a t 0)) by (try (apply Hix; now left); lia). cbn [bind]. unfold modify_idx.
      assert (Ep : is_periodize (ap_mode q) = false) by (destruct (ap_mode q); try reflexivity; discriminate). rewrite Ep, Z.add_0_r. reflexivity. }
    rewrite FV. cbn [bind fst snd]. subst s1.
    apply (IH (pre ++ [a]) _ (upd a (nth a h 0 - ap_before q) h) (upd a (nth a t 0 + ap_after q) t) _ y1 Hax'); [|exact I1| |exact Hr|exact Fe1|].
    + intros b Hb. apply Hlt. now right.
    + intros b Hb. destruct (Nat.eq_dec a b) as [->|N]; [rewrite !nth_upd_eq by lia; reflexivity|]. rewrite !nth_upd_ne by auto. apply Hix. now right.
    + intros b Hb. apply Hfuel. now right.
Qed.
End Loop.

(** *** The room made by forward *)
Lemma before_add (p : padder F) : forall rest v a b d, (a < length v)%nat ->
  nth d (widths_before p rest (upd a (nth a v 0 + b) v)) 0 = nth d (widths_before p rest v) 0 + (if Nat.eqb d a then b else 0).
Proof.
  induction rest as [|c rest IH]; intros v a b d Ha; cbn [widths_before].
  - destruct (Nat.eqb_spec d a) as [->|N]; [rewrite nth_upd_eq by auto; lia|rewrite nth_upd_ne by auto; lia].
  - destruct (params p (length rest)) as [q|]; [|now apply IH].
    rewrite <- (IH (upd c (nth c v 0 + ap_before q) v) a b d) by (now rewrite upd_length). f_equal. f_equal.
    destruct (Nat.eq_dec c a) as [->|N].
    + rewrite !nth_upd_eq, !upd_upd by auto. f_equal. lia.
    + rewrite !nth_upd_ne by auto. apply upd_comm; auto.
Qed.
Lemma after_add (p : padder F) sh : forall rest v a b d, (a < length v)%nat ->
  nth d (widths_after p sh rest (upd a (nth a v 0 + b) v)) 0 = nth d (widths_after p sh rest v) 0 + (if Nat.eqb d a then b else 0).
Proof.
  induction rest as [|c rest IH]; intros v a b d Ha; cbn [widths_after].
  - destruct (Nat.eqb_spec d a) as [->|N]; [rewrite nth_upd_eq by auto; lia|rewrite nth_upd_ne by auto; lia].
  - destruct (params p (length rest)) as [q|]; [|now apply IH]. destruct (_ && _); [now apply IH|].
    set (w := ap_after q + _).
    rewrite <- (IH (upd c (nth c v 0 + w) v) a b d) by (now rewrite upd_length). f_equal. f_equal.
    destruct (Nat.eq_dec c a) as [->|N].
    + rewrite !nth_upd_eq, !upd_upd by auto. f_equal. lia.
    + rewrite !nth_upd_ne by auto. apply upd_comm; auto.
Qed.
Lemma before_nonneg (p : padder F) : forall rest v d, (forall r q, (r < length rest)%nat -> params p r = Some q -> 0 <= ap_before q) ->
  nth d v 0 <= nth d (widths_before p rest v) 0.
Proof.
  induction rest as [|c rest IH]; intros v d H; cbn [widths_before]; [lia|].
  assert (H' : forall r q, (r < length rest)%nat -> params p r = Some q -> 0 <= ap_before q) by (intros r q Hr; apply H; cbn; lia).
  destruct (params p (length rest)) as [q|] eqn:Hq; [|now apply IH].
  assert (Pq : 0 <= ap_before q) by (apply (H (length rest)); cbn; auto; lia).
  destruct (Nat.ltb_spec c (length v)).
  - rewrite before_add by auto. specialize (IH v d H'). destruct (Nat.eqb d c); lia.
  - rewrite upd_over by auto. now apply IH.
Qed.
Lemma after_nonneg (p : padder F) sh : forall rest v d,
  (forall r q, (r < length rest)%nat -> params p r = Some q -> 0 <= ap_after q /\ (ap_before q = 0 /\ ap_after q = 0 \/ step_free (ap_mode q) = true)) ->
  nth d v 0 <= nth d (widths_after p sh rest v) 0.
Proof.
  induction rest as [|c rest IH]; intros v d H; cbn [widths_after]; [lia|].
  assert (H' : forall r q, (r < length rest)%nat -> params p r = Some q -> 0 <= ap_after q /\ (ap_before q = 0 /\ ap_after q = 0 \/ step_free (ap_mode q) = true)) by (intros r q Hr; apply H; cbn; lia).
  destruct (params p (length rest)) as [q|] eqn:Hq; [|now apply IH].
  destruct (H (length rest) q) as [Pq Pz]; [cbn; lia|auto|]. destruct ((ap_before q =? 0) && (ap_after q =? 0)) eqn:Ez; [now apply IH|].
  destruct Pz as [[Z1 Z2]|Fr]; [rewrite Z1, Z2 in Ez; discriminate|]. rewrite free_slot by auto.
  destruct (Nat.ltb_spec c (length v)).
  - rewrite after_add by auto. specialize (IH v d H'). destruct (Nat.eqb d c); lia.
  - rewrite upd_over by auto. now apply IH.
Qed.
(** [h] and [t] are determined up to their entries. *)
Lemma room_ext NS (p : padder F) : forall rest h t h' t', length h = length h' -> length t = length t' ->
  (forall d, nth d h 0 = nth d h' 0) -> (forall d, nth d t 0 = nth d t' 0) -> room NS p h t rest -> room NS p h' t' rest.
Proof.
  intros rest h t h' t' L1 L2 E1 E2. assert (h = h') by (apply list_ext with (d := 0); auto). assert (t = t') by (apply list_ext with (d := 0); auto). now subst.
Qed.
Lemma room_intro NS (p : padder F) sh : forall rest h t, (forall a, In a rest -> (a < length NS)%nat) ->
  (forall r, (r < length rest)%nat -> exists q, params p r = Some q /\ 0 <= ap_before q /\ 0 <= ap_after q /\ (ap_before q = 0 /\ ap_after q = 0 \/ step_free (ap_mode q) = true)) ->
  length h = length NS -> length t = length NS ->
  (forall d, (d < length NS)%nat -> nth d h 0 = nth d (widths_before p rest (repeat 0 (length NS))) 0 /\
     nth d NS 0 = nth d t 0 + nth d (widths_after p sh rest (repeat 0 (length NS))) 0) ->
  room NS p h t rest.
Proof.
  induction rest as [|a rest IH]; intros h t Hlt Hq Lh Lt H; cbn [room].
  - intros d Hd. destruct (H d Hd) as [H1 H2]. cbn in H1, H2. rewrite nth_repeat in H1, H2. lia.
  - destruct (Hq (length rest)) as (q & Pq & P1 & P2 & P3); [cbn; lia|]. exists q. split; auto. split; auto. split; auto.
    assert (Ha : (a < length NS)%nat) by (apply Hlt; now left).
    assert (Hq' : forall r, (r < length rest)%nat -> exists q, params p r = Some q /\ 0 <= ap_before q /\ 0 <= ap_after q /\ (ap_before q = 0 /\ ap_after q = 0 \/ step_free (ap_mode q) = true)) by (intros r Hr; apply Hq; cbn; lia).
    assert (N1 : forall d, 0 <= nth d (widths_before p rest (repeat 0 (length NS))) 0).
    { intros d. rewrite <- (nth_repeat 0 (length NS) d) at 1. apply before_nonneg. intros r q' Hr Pr. destruct (Hq' r Hr) as (q'' & Pr' & ? & _). congruence. }
    assert (N2 : forall d, 0 <= nth d (widths_after p sh rest (repeat 0 (length NS))) 0).
    { intros d. rewrite <- (nth_repeat 0 (length NS) d) at 1. apply after_nonneg. intros r q' Hr Pr. destruct (Hq' r Hr) as (q'' & Pr' & ? & ? & ?). replace q' with q'' by congruence. auto. }
    cbn [widths_before widths_after] in H. rewrite Pq in H.
    assert (E : forall d, (d < length NS)%nat -> nth d h 0 = nth d (widths_before p rest (repeat 0 (length NS))) 0 + (if Nat.eqb d a then ap_before q else 0) /\
      nth d NS 0 = nth d t 0 + (nth d (widths_after p sh rest (repeat 0 (length NS))) 0 + (if Nat.eqb d a then ap_after q else 0))).
    { intros d Hd. destruct (H d Hd) as [H1 H2]. rewrite before_add in H1 by (now rewrite repeat_length). split; auto.
      destruct ((ap_before q =? 0) && (ap_after q =? 0)) eqn:Ez.
      - apply andb_prop in Ez as [_ Ez]. apply Z.eqb_eq in Ez. rewrite Ez. destruct (Nat.eqb d a); lia.
      - destruct P3 as [[Z1 Z2]|Fr]; [rewrite Z1, Z2 in Ez; discriminate|]. rewrite free_slot in H2 by auto. rewrite Z.add_0_r in H2.
        rewrite after_add in H2 by (now rewrite repeat_length). exact H2. }
    destruct (E a Ha) as [Ea1 Ea2]. rewrite Nat.eqb_refl in Ea1, Ea2. specialize (N1 a) as N1a. specialize (N2 a) as N2a.
    split; [lia|]. split; [lia|]. apply IH; auto.
    + intros b Hb. apply Hlt. now right.
    + now rewrite upd_length.
    + now rewrite upd_length.
    + intros d Hd. destruct (E d Hd) as [E1 E2]. destruct (Nat.eqb_spec d a) as [->|N].
      * rewrite !nth_upd_eq by lia. lia.
      * rewrite !nth_upd_ne by auto. lia.
Qed.

Theorem repeat_forward fuel junk p (x : T) ax al : repeat_call fuel p x ax al -> repeat_fine p x al ->
  exists y s, padder_forward fuel junk p x ax = Ok y /\ pad_spec p x al = Some s /\ teq y s /\ shp y = out_shape p (shp x) al.
Proof.
  intros [Hnd Hsh Hax Hlt Hfuel] Hf. unfold padder_forward. unfold assertb. rewrite (proj2 (Nat.ltb_lt _ _) Hnd). cbn [bind].
  rewrite Hax. cbn [bind]. unfold pad_spec. unfold repeat_fine in Hf. set (rest := last_axes p al) in *.
  destruct (last_axes_suffix F p al) as [pre Hpre]. fold rest in Hpre.
  assert (Hlen : (if 0 <? p_ndim p then Z.min (Z.of_nat (length (map Z.of_nat al))) (p_ndim p)
                  else Z.of_nat (length (map Z.of_nat al))) = Z.of_nat (length rest)).
  { rewrite map_length. unfold rest, last_axes. destruct (Z.ltb_spec 0 (p_ndim p)); auto. rewrite skipn_length. lia. }
  assert (Hltr : forall a, In a rest -> (a < ndim x)%nat) by (intros a Ha; apply Hlt; eapply last_axes_in; eauto).
  assert (Hp : forall r, (r < length rest)%nat -> exists q, params p r = Some q /\ 0 <= ap_before q /\ 0 <= ap_after q /\ (ap_before q = 0 /\ ap_after q = 0 \/ step_free (ap_mode q) = true)).
  { intros r Hr. destruct (nth_split rest 0%nat (n := length rest - S r)) as (l1 & l2 & E & L); [lia|].
    destruct (Hf l1 _ l2 E) as (q & Q1 & Q2 & Q3 & Q4). exists q. split; [|tauto].
    replace r with (length l2); auto. apply (f_equal (@length nat)) in E. rewrite app_length in E. cbn [length] in E. lia. }
  set (z := repeat 0 (ndim x)) in *. assert (Lz : length z = ndim x) by apply repeat_length.
  set (h := widths_before p rest z). set (w := widths_after p (shp x) rest z).
  set (t := map2 Z.add h (shp x)). set (NS := map2 Z.add t w).
  assert (Lh : length h = ndim x) by (unfold h; now rewrite widths_before_length).
  assert (Lw : length w = ndim x) by (unfold w; now rewrite widths_after_length).
  assert (Lt : length t = ndim x) by (unfold t; rewrite map2_length_eq; auto).
  assert (LNS : length NS = ndim x) by (unfold NS; rewrite map2_length_eq; auto; lia).
  assert (EOS : out_shape p (shp x) al = NS) by reflexivity. rewrite EOS in *.
  assert (Ht : forall d, (d < ndim x)%nat -> nth d t 0 = nth d h 0 + nth d (shp x) 0) by (intros; unfold t; apply nth_map2; lia || auto).
  assert (HNS : forall d, (d < ndim x)%nat -> nth d NS 0 = nth d h 0 + nth d (shp x) 0 + nth d w 0).
  { intros. unfold NS. rewrite nth_map2 with (da := 0) (db := 0) by lia. now rewrite Ht. }
  assert (N1 : forall d, 0 <= nth d h 0).
  { intros d. rewrite <- (nth_repeat 0 (ndim x) d) at 1. apply before_nonneg. intros r q' Hr Pr. destruct (Hp r Hr) as (q'' & Pr' & ? & _). congruence. }
  assert (N2 : forall d, 0 <= nth d w 0).
  { intros d. rewrite <- (nth_repeat 0 (ndim x) d) at 1. apply after_nonneg. intros r q' Hr Pr. destruct (Hp r Hr) as (q'' & Pr' & ? & ? & ?). replace q' with q'' by congruence. auto. }
  assert (Fe : forall s : T, shp s = shp x -> free_entry p s rest).
  { intros s Es l1 a l2 q E Hq. destruct (Hf l1 a l2 E) as (q' & Hq' & _ & _ & H). rewrite Es. replace q with q' by congruence. exact H. }
  assert (Rm : room NS p h t rest).
  { apply (room_intro NS p (shp x)); auto; try lia. - intros a Ha. rewrite LNS. auto. - intros d Hd. rewrite LNS in *. split; [reflexivity|]. rewrite HNS, Ht by lia. fold z. fold w. lia. }
  assert (X : idxrep NS (map2 srng h t) h t).
  { apply idxrep_srng; try lia. intros d Hd. rewrite LNS in Hd. specialize (N1 d). specialize (N2 d). specialize (Hsh d Hd). rewrite HNS, Ht by auto. lia. }
  assert (Main : forall y0 : T, shp y0 = NS -> (forall j, reg NS h t j -> at_ y0 j = at_ x (map2 Z.sub j h)) ->
    exists y' s', fill_loop fuel p y0 (map Z.of_nat al) (negs (length rest)) (Idx (map2 srng h t)) = Ok y' /\ spec_axes p x rest = Some s' /\ teq y' s').
  { intros y0 Sy0 A0. apply (repeat_loop NS fuel p (map Z.of_nat al) rest pre (map2 srng h t) h t x y0); auto.
    - now rewrite Hpre.
    - intros a Ha. rewrite LNS. auto.
    - split; auto. split; auto. split; auto. split; auto. intros d Hd. rewrite LNS in Hd. rewrite Ht by auto. lia.
    - intros a Ha. rewrite nth_map2 with (da := 0) (db := 0); auto; rewrite ?Lh, ?Lt; auto. }
  destruct (tset_block NS (tempty NS junk) x (map2 srng h t) h t) as [y0 [Hy0 [Sy0 [A0 _]]]]; auto.
  { intros d Hd. rewrite LNS in Hd. rewrite Ht by auto. lia. }
  destruct (Main y0 Sy0 A0) as (y & s & E1 & E2 & E3).
  assert (Ey : shp y = NS).
  { destruct E3 as [-> _]. clear - E2 Rm Hltr LNS Hp Lh Lt Ht Hsh Fe HNS.
    assert (G : forall rest h t (s s' : T), (forall a, In a rest -> (a < length NS)%nat) -> length h = length NS -> length t = length NS -> length (shp s) = length NS ->
      (forall d, (d < length NS)%nat -> nth d (shp s) 0 = nth d t 0 - nth d h 0) -> room NS p h t rest -> free_entry p s rest -> spec_axes p s rest = Some s' -> shp s' = NS).
    { clearbody NS. clear. induction rest as [|a rest IH]; intros h t s s' Hlt Lh Lt Ls Hs R Fe E.
      - cbn in E. injection E as <-. apply list_ext with (d := 0); auto. rewrite Ls. intros d Hd. cbn [room] in R. destruct (R d Hd) as [R1 R2]. rewrite Hs by auto. lia.
      - destruct R as (q & Hq & P1 & P2 & R1 & R2 & R). cbn [spec_axes] in E. rewrite Hq in E. destruct (spec_axis q a s) as [s1|] eqn:E1; [|discriminate].
        destruct (free_step q a s P1 P2 (Fe [] a rest q eq_refl Hq)) as (s1' & E1' & Gs & Ls1). rewrite E1 in E1'. injection E1' as <-.
        assert (Ha : (a < length NS)%nat) by (apply Hlt; now left).
        apply (IH (upd a (nth a h 0 - ap_before q) h) (upd a (nth a t 0 + ap_after q) t) s1 s'); auto.
        + intros b Hb. apply Hlt. now right.
        + now rewrite upd_length.
        + now rewrite upd_length.
        + lia.
        + intros d Hd. destruct (Nat.eq_dec d a) as [->|N].
          * rewrite !nth_upd_eq by lia. destruct ((ap_before q =? 0) && (ap_after q =? 0)) eqn:Ez.
            -- apply spec_axis_zero in E1; auto. subst s1. apply andb_prop in Ez as [Z1 Z2]. apply Z.eqb_eq in Z1, Z2. rewrite Hs by auto. lia.
            -- destruct (Fe [] a rest q eq_refl Hq) as [[Z1 Z2]|[Fr Ne]]; [rewrite Z1, Z2 in Ez; discriminate|].
               unfold spec_axis in E1. rewrite Ez in E1. destruct (negb _); [discriminate|]. destruct (_ && _); [discriminate|].
               rewrite <- (Hs a Ha) in * || idtac. specialize (Hs a Ha).
               revert E1 Fr. destruct (ap_mode q); intros E1 Fr; try discriminate; injection E1 as <-; unfold pad1; cbn [shp parity_slot]; rewrite nth_upd_eq by lia; lia.
          * rewrite !nth_upd_ne by auto. rewrite (spec_axis_shape F _ _ _ _ d E1) by auto. auto.
        + intros l1 b l2 q' -> Hq'. destruct (Fe (a :: l1) b l2 q' eq_refl Hq') as [Z|[Fr [N|N]]]; [now left| |right; auto].
          right. split; auto. left. assert (nth b (shp s) 0 <= nth b (shp s1) 0); [|lia]. apply Gs. rewrite Ls. apply Hlt. right. apply in_app_iff. right. now left. }
    apply (G rest h t x s); auto.
    - intros a Ha. rewrite LNS. auto.
    - lia. - lia.
    - intros d Hd. rewrite LNS in Hd. rewrite Ht by auto. lia. }
  destruct (list_eq_dec Nat.eq_dec al []) as [Eal|Enil].
  { assert (Em : map Z.of_nat al = []) by now rewrite Eal. rewrite Em. assert (Er : rest = []).
    { rewrite Eal in Hpre. symmetry in Hpre. now apply app_eq_nil in Hpre. }
    exists x, x. rewrite Er. split; [reflexivity|]. split; [reflexivity|]. split; [apply teq_refl|].
    rewrite Er in E2. cbn in E2. injection E2 as <-. destruct E3 as [<- _]. exact Ey. }
  assert (Ematch : forall B (u v : B), match map Z.of_nat al with [] => u | _ => v end = v) by (intros; destruct al; auto; congruence).
  rewrite Ematch. cbv zeta. rewrite Hlen, neg_range_negs.
  rewrite (width_loop_ok F p (shp x) (map Z.of_nat al) rest pre); auto; try (now rewrite Hpre).
  2:{ intros r Hr E. destruct (Hp r Hr) as (q & Q & _). congruence. }
  cbn [bind]. fold h w t NS. destruct (list_eqb (shp x) NS) eqn:Eeq.
  - apply list_eqb_eq in Eeq. assert (Z0 : forall l1 a l2 q, rest = l1 ++ a :: l2 -> params p (length l2) = Some q -> (ap_before q =? 0) && (ap_after q =? 0) = true).
    { intros l1 a l2 q E Hq.
      assert (Za : nth a h 0 = 0 /\ nth a w 0 = 0).
      { assert (Ha : (a < ndim x)%nat) by (apply Hltr; rewrite E; apply in_app_iff; right; now left). pose proof (HNS a Ha) as Q. rewrite <- Eeq in Q. specialize (N1 a). specialize (N2 a). lia. }
      assert (Ha : (a < ndim x)%nat) by (apply Hltr; rewrite E; apply in_app_iff; right; now left).
      assert (Hp2 : forall r q', (r < length l2)%nat -> params p r = Some q' -> 0 <= ap_before q' /\ 0 <= ap_after q' /\ (ap_before q' = 0 /\ ap_after q' = 0 \/ step_free (ap_mode q') = true)).
      { intros r q' Hr Pr. destruct (Hp r) as (q'' & Pr' & H); [rewrite E, app_length; cbn; lia|]. replace q' with q'' by congruence. exact H. }
      destruct (Hp (length l2)) as (q2 & Hq2 & B1 & B2 & B3); [rewrite E, app_length; cbn; lia|]. replace q2 with q in * by congruence. clear q2 Hq2.
      assert (G1 : forall l1 v, (a < length v)%nat -> (forall r q', (r < length (l1 ++ a :: l2))%nat -> params p r = Some q' -> 0 <= ap_before q') -> nth a v 0 + ap_before q <= nth a (widths_before p (l1 ++ a :: l2) v) 0).
      { clear - Hq. induction l1 as [|c l1 IH]; intros v La H; cbn [app widths_before].
        - rewrite Hq. rewrite before_add by auto. rewrite Nat.eqb_refl. assert (nth a v 0 <= nth a (widths_before p l2 v) 0); [|lia].
          apply before_nonneg. intros r q' Hr. apply H. cbn. lia.
        - assert (H' : forall r q', (r < length (l1 ++ a :: l2))%nat -> params p r = Some q' -> 0 <= ap_before q') by (intros r q' Hr; apply H; cbn [app length]; lia).
          destruct (params p (length (l1 ++ a :: l2))) as [q'|] eqn:Pq; [|now apply IH]. destruct (Nat.ltb_spec c (length v)).
          + rewrite before_add by auto. specialize (IH v La H'). assert (0 <= ap_before q') by (apply (H (length (l1 ++ a :: l2))); cbn [app length]; auto; lia). destruct (Nat.eqb a c); lia.
          + rewrite upd_over by auto. now apply IH. }
      assert (B10 : ap_before q <= 0).
      { destruct Za as [Za _]. unfold h in Za. rewrite E in Za. specialize (G1 l1 z). rewrite Za in G1. assert (nth a z 0 = 0) by apply nth_repeat. assert (nth a z 0 + ap_before q <= 0); [|lia]. apply G1; [lia|].
        intros r q' Hr Pr. rewrite <- E in Hr. destruct (Hp r Hr) as (q'' & Pr' & ? & _). congruence. }
      assert (G2 : forall l1 v, (a < length v)%nat -> (forall r q', (r < length (l1 ++ a :: l2))%nat -> params p r = Some q' -> 0 <= ap_after q' /\ (ap_before q' = 0 /\ ap_after q' = 0 \/ step_free (ap_mode q') = true)) -> nth a v 0 + ap_after q <= nth a (widths_after p (shp x) (l1 ++ a :: l2) v) 0).
      { clear - Hq. induction l1 as [|c l1 IH]; intros v La H; cbn [app widths_after].
        - rewrite Hq. assert (N : nth a v 0 <= nth a (widths_after p (shp x) l2 v) 0) by (apply after_nonneg; intros r q' Hr; apply H; cbn; lia).
          destruct (H (length l2) q) as [_ B]; [cbn; lia|auto|]. destruct ((ap_before q =? 0) && (ap_after q =? 0)) eqn:Ez.
          + apply andb_prop in Ez as [_ Ez]. apply Z.eqb_eq in Ez. lia.
          + destruct B as [[Z1 Z2]|Fr]; [rewrite Z1, Z2 in Ez; discriminate|]. rewrite after_add by auto. rewrite Nat.eqb_refl, free_slot by auto. lia.
        - assert (H' : forall r q', (r < length (l1 ++ a :: l2))%nat -> params p r = Some q' -> 0 <= ap_after q' /\ (ap_before q' = 0 /\ ap_after q' = 0 \/ step_free (ap_mode q') = true)) by (intros r q' Hr; apply H; cbn [app length]; lia).
          destruct (params p (length (l1 ++ a :: l2))) as [q'|] eqn:Pq; [|now apply IH].
          destruct ((ap_before q' =? 0) && (ap_after q' =? 0)) eqn:Ez; [now apply IH|]. destruct (H (length (l1 ++ a :: l2)) q') as [B0 B]; [cbn [app length]; lia|auto|].
          destruct B as [[Z1 Z2]|Fr]; [rewrite Z1, Z2 in Ez; discriminate|]. destruct (Nat.ltb_spec c (length v)).
          + rewrite after_add by auto. rewrite free_slot by auto. specialize (IH v La H'). destruct (Nat.eqb a c); lia.
          + rewrite upd_over by auto. now apply IH. }
      assert (B20 : ap_after q <= 0).
      { destruct Za as [_ Za]. unfold w in Za. rewrite E in Za. specialize (G2 l1 z). rewrite Za in G2. assert (nth a z 0 = 0) by apply nth_repeat. assert (nth a z 0 + ap_after q <= 0); [|lia]. apply G2; [lia|].
        intros r q' Hr Pr. rewrite <- E in Hr. destruct (Hp r Hr) as (q'' & Pr' & ? & ? & ?). replace q' with q'' by congruence. auto. }
      apply andb_true_intro. split; apply Z.eqb_eq; lia. }
    pose proof (spec_axes_same F p NS x Eeq rest s Z0 E2) as Es. subst s. exists x, x. split; auto. split; auto. split; [apply teq_refl|auto].
  - rewrite Hy0. cbn [bind]. exists y, s. auto.
Qed.

(** *** The same one call at a time *)
Lemma no_empty_zero (q : axis_params F) a : ap_before q = 0 /\ ap_after q = 0 \/ is_empty_mode F (ap_mode q) = false -> no_empty_mode F (only F q) [a].
Proof.
  intros H. unfold no_empty_mode. rewrite last_axes_single. simpl. split; auto. intros q' E Z. rewrite params_only in E. injection E as <-.
  destruct H as [[Z1 Z2]|H]; auto. rewrite Z1, Z2 in Z. discriminate.
Qed.
Lemma one_by_one_any fuel junk (p : padder F) : forall rest (x x' s : T),
  (forall a, In a rest -> (a < length (shp x))%nat) ->
  (forall d, (d < length (shp x))%nat -> 0 <= nth d (shp x) 0) ->
  (forall r q, (r < length rest)%nat -> params p r = Some q -> ap_before q = 0 /\ ap_after q = 0 \/ is_empty_mode F (ap_mode q) = false) ->
  teq x x' -> spec_axes p x rest = Some s ->
  (forall d, (d < length (shp x))%nat -> nth d (shp s) 0 <= Z.of_nat fuel) ->
  exists y, one_by_one fuel junk p x' rest = Ok y /\ teq y s.
Proof.
  induction rest as [|a r IH]; intros x x' s Hlt Hx Hem E Hs Hfuel; simpl in *.
  - inv Hs. exists x'. split; auto. now apply teq_sym.
  - destruct (params p (length r)) as [q|] eqn:Hq; [|discriminate].
    destruct (spec_axis q a x) as [x1|] eqn:Hx1; [|discriminate].
    assert (Ha : (a < length (shp x))%nat) by auto.
    pose proof (spec_axis_length F _ _ _ _ Hx1) as L1.
    destruct (spec_axis_teq F q a x x' x1 Ha E Hx1) as [x1' [Hx1' E1]].
    pose proof E as [Es _]. pose proof E1 as [Es1 _].
    pose proof (Hem (length r) q (Nat.lt_succ_diag_r _) Hq) as Hemq.
    destruct (forward_correct F fuel junk (only F q) x' x1' (AxInt (Z.of_nat a)) [a]) as [y1 [Hy1 [Sy1 [_ T1]]]].
    + unfold ndim. rewrite <- Es. lia.
    + unfold ndim. rewrite <- Es. auto.
    + apply check_axes_int_nat. unfold ndim. rewrite <- Es. auto.
    + intros b [<-|[]]. unfold ndim. rewrite <- Es. auto.
    + constructor; [simpl; tauto|constructor].
    + now apply (pad_spec_only F).
    + intros d Hd.
      assert (Eo : nth d (out_shape (only F q) (shp x') [a]) 0 = nth d (shp x1') 0).
      { unfold ndim in Hd. rewrite (out_shape_single F (only F q) (shp x') a q); [|now rewrite <- Es|apply params_only].
        destruct (Nat.eq_dec d a).
        - subst d. rewrite nth_upd_eq by (now rewrite <- Es). unfold spec_axis in Hx1'. unfold step_after.
          destruct (negb _); [discriminate|]. destruct ((ap_before q =? 0) && (ap_after q =? 0)) eqn:Ez; [bdestr; inv Hx1'; lia|].
          destruct ((nth a (shp x') 0 <=? 0) && negb (empty_ok (ap_mode q))); [discriminate|].
          assert (Ha' : (a < length (shp x'))%nat) by (now rewrite <- Es).
          destruct Hemq as [[Y1 Y2]|Hemq]; [rewrite Y1, Y2 in Ez; discriminate|]. revert Hx1' Hemq. clear - Ha'. destruct (ap_mode q); simpl mode_ext; intros; try discriminate; injection Hx1' as <-;
            unfold pad1; cbn [shp]; rewrite nth_upd_eq by auto; cbn [parity_slot]; lia.
        - rewrite nth_upd_ne by auto. symmetry. eapply spec_axis_shape; eauto. }
      rewrite Eo, <- Es1. unfold ndim in Hd. rewrite <- Es in Hd.
      assert (nth d (shp x1) 0 <= nth d (shp s) 0).
      { eapply spec_axes_grows; [|exact Hs]. intros b Hb. rewrite L1. auto. }
      specialize (Hfuel d Hd). lia.
    + rewrite Hy1. cbn [bind]. apply (IH x1 y1 s); auto.
      * intros b Hb. rewrite L1. auto.
      * apply (PadSeq.spec_axis_nonneg F q a x x1); auto.
      * intros k q' Hk. apply Hem. lia.
      * eapply teq_trans; [exact E1|]. apply teq_sym. apply T1. now apply no_empty_zero.
      * intros d Hd. apply Hfuel. now rewrite <- L1.
Qed.

Theorem repeat_one_by_one fuel junk junk' p (x : T) ax al : repeat_call fuel p x ax al -> repeat_fine p x al ->
  exists y y', padder_forward fuel junk p x ax = Ok y /\ one_by_one fuel junk' p x (last_axes p al) = Ok y' /\ teq y y' /\ shp y = out_shape p (shp x) al.
Proof.
  intros C Hf. destruct (repeat_forward fuel junk p x ax al C Hf) as (y & s & Y1 & Y2 & Y3 & Y4). pose proof C as [Hnd Hsh Hax Hlt Hfuel].
  destruct (one_by_one_any fuel junk' p (last_axes p al) x x s) as (y' & Z1 & Z2).
  - intros a Ha. apply Hlt. eapply last_axes_in; eauto.
  - exact Hsh.
  - intros r q Hr Hq. destruct (nth_split (last_axes p al) 0%nat (n := length (last_axes p al) - S r)) as (l1 & l2 & E & L); [lia|].
    destruct (Hf l1 _ l2 E) as (q' & Q1 & _ & _ & Q4).
    replace (length l2) with r in Q1 by (apply (f_equal (@length nat)) in E; rewrite app_length in E; cbn [length] in E; lia).
    replace q with q' by congruence. destruct Q4 as [Q4|[Q4 _]]; [now left|]. right. destruct (ap_mode q'); try reflexivity; discriminate.
  - apply teq_refl.
  - exact Y2.
  - destruct Y3 as [Es _]. rewrite <- Es, Y4. exact Hfuel.
  - exists y, y'. split; auto. split; auto. split; auto. eapply teq_trans; [exact Y3|]. now apply teq_sym.
Qed.
End R.
