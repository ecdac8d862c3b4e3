(** Filters with the copying padding modes in closed form, any number of axes (C96, C97). *)
From Verif Require Export EdgeHV PoolFlip.
Open Scope Z_scope.

(** The pixel seen from j at offset o: on axis a_r the coordinate j + o_r - k_r/2, extended beyond the
    border by the mode m_r. *)
Fixpoint look {F : ofield} (al : list nat) (ms : list (mode F)) (ks sh : list Z) (j o : list Z) : list Z :=
  match al, ms, ks, o with
  | a :: al', m :: ms', k :: ks', t :: o' => upd a (spot m (nth a sh 0) (nth a j 0 + t - k / 2)) (look al' ms' ks' sh j o')
  | _, _, _, _ => j
  end.
(** x' is x shifted cyclically by s along axis a. *)
Definition shifted {F : ofield} (a : nat) (s : Z) (x x' : tensor F) : Prop :=
  shp x' = shp x /\ forall i, valid (shp x) i -> at_ x' i = at_ x (upd a ((nth a i 0 + s) mod nth a (shp x) 0) i).

Section FC.
Variable F : ofield.
Add Field Ffc : (f_field F).
Notation T := (tensor F).

Lemma look_length al : forall (ms : list (mode F)) ks sh j o, length (look al ms ks sh j o) = length j.
Proof. induction al as [|a al IH]; intros [|m ms] [|k ks] sh j [|t o]; simpl; auto. now rewrite upd_length. Qed.
Lemma look_notin a al : forall (ms : list (mode F)) ks sh j o, ~ In a al -> nth a (look al ms ks sh j o) 0 = nth a j 0.
Proof.
  induction al as [|b al IH]; intros [|m ms] [|k ks] sh j [|t o] H; simpl; auto.
  rewrite nth_upd_ne by (intros ->; apply H; now left). apply IH. intros E; apply H; now right.
Qed.
Lemma look_nth al : forall (ms : list (mode F)) ks sh j o r, NoDup al -> (forall a, In a al -> (a < length j)%nat) ->
  length ms = length al -> length ks = length al -> length o = length al -> (r < length al)%nat ->
  nth (nth r al 0%nat) (look al ms ks sh j o) 0 = spot (nth r ms MUnknown) (nth (nth r al 0%nat) sh 0) (nth (nth r al 0%nat) j 0 + nth r o 0 - nth r ks 0 / 2).
Proof.
  induction al as [|a al IH]; intros [|m ms] [|k ks] sh j [|t o] r Hn Hl Hm Hk Ho Hr; simpl in *; try lia; try discriminate.
  inversion Hn as [|? ? Hn1 Hn2]. subst. destruct r as [|r].
  - rewrite nth_upd_eq; auto. rewrite look_length. apply Hl. auto.
  - rewrite nth_upd_ne. 2: { intros ->. apply Hn1, nth_In. lia. } apply IH; auto; lia.
Qed.

Lemma ones_nth (kers : list (list F)) n r : nth r (map2 eff_stride kers (repeat 1 n)) 1 = 1.
Proof.
  revert n r. induction kers as [|k kers IH]; intros [|n] [|r]; cbn; auto. destruct k; reflexivity.
Qed.

Theorem filter_copying fuel junk (f : pool F) (x : T) ax al kers p ms :
  built (length al) kers (repeat 1 (length al)) (Some p) f ->
  same_call F fuel p x ax al ms kers (repeat 1 (length al)) -> (forall m, In m ms -> copying m) ->
  exists y, snd (sep_forward fuel junk f x ax) = Ok y /\ shp y = shp x /\
    forall j, valid (shp x) j -> at_ y j = bsum (map klen (map eff_kernel kers)) (fun o =>
      fmul (weight (map eff_kernel kers) o) (at_ x (look al ms (map klen (map eff_kernel kers)) (shp x) j o))).
Proof.
  intros B SC Cm. destruct (built_par F _ _ _ _ _ B) as [PP [Pd [E1 [E2 _]]]]. pose proof PP as [L1 [L2 [_ L4]]].
  pose proof SC as [OA N0 P0 P1 SS PF FM FU]. pose proof OA as [O1 O2 O3].
  assert (Lm : length ms = length al) by (apply (expand_length _ _ _ (pf_mode _ _ _ PF))).
  assert (Cn : forall r, (r < length al)%nat -> copying (nth r ms MUnknown)) by (intros r Hr; apply Cm, nth_In; lia).
  destruct (sep_forward_same F fuel junk f x ax al kers _ p ms PP E1 E2 Pd SC) as [ws [xp [y [W1 [W2 [PC [AF [NE [W6 [W7 [W8 [[Ty1 Ty2] W10]]]]]]]]]]]].
  destruct (same_pad_call F fuel p x ax al ms kers _ ws SC W1 L1 W2) as [_ [_ [_ [FL [FN FS]]]]].
  destruct (with_width_par F (length al) p ms ws al PF W1 eq_refl O3) as [LA Q].
  assert (Wb : forall r, (r < length al)%nat -> 0 <= fst (nth r ws (0,0)) /\ 0 <= snd (nth r ws (0,0))).
  { intros r Hr. destruct (same_width_bounds (klen (nth r kers [])) (nth r (repeat 1 (length al)) 1) (nth (nth r al 0%nat) (shp x) 0) (nth r ws (0, 0))); auto; try (unfold klen; lia). }
  destruct (forward_copy F fuel junk (with_width p ws) x ax al PC) as [xp' [X1 [X2 X3]]].
  { rewrite LA. intros a Ha. destruct (In_pos a al 0%nat Ha) as [r [Hr <-]]. destruct (Q r Hr) as [q [Q1 [Q2 [Q3 Q4]]]]. exists q. split; auto.
    rewrite Q2, Q3, Q4. split; [|destruct (Wb r Hr); split; [lia|split; [lia|apply P1, nth_In; auto]]].
    intros n t. rewrite spot_src by auto. discriminate. }
  rewrite W6 in X1. injection X1 as <-. rewrite LA in X3.
  assert (Sy : shp y = shp x).
  { apply list_ext with (d := 0).
    - rewrite Ty1. cbn [correlate shp]. rewrite pooled_length, W7. exact FL.
    - intros d Hd. destruct (in_dec Nat.eq_dec d al) as [Hi|Hi].
      + destruct (In_pos d al 0%nat Hi) as [r [Hr <-]]. destruct (nth r kers []) as [|c0 k0] eqn:Ek.
        * rewrite Ty1. cbn [correlate shp]. rewrite pooled_nth; auto; rewrite ?map_length, ?map2_length; auto; try lia.
          2: { intros b Hb. rewrite W7, FL. auto. }
          rewrite (eff_nth F) by lia. rewrite ones_nth, Ek. cbn [eff_kernel]. change (klen [@f1 F]) with 1. rewrite Z.div_1_r.
          rewrite W7, FS by auto. cbv zeta. specialize (W2 r Hr). rewrite Ek in W2. change (klen (@nil F)) with 0 in W2.
          pose proof (same_width_bounds _ _ _ _ (SS r Hr) (Z.le_refl 0) W2) as Bw.
          assert (Ew : (fst (nth r ws (0, 0)) =? 0) && (snd (nth r ws (0, 0)) =? 0) = true) by (apply andb_true_iff; rewrite !Z.eqb_eq; lia).
          rewrite Ew. lia.
        * apply (W10 r (nth (nth r al 0%nat) (shp x) 0)); auto.
          { rewrite Ek. discriminate. }
          { intros E. destruct (copying_fills F (nth r ms MUnknown) (Cn r Hr)). congruence. }
          { rewrite nth_repeat. unfold is_ceil_div. lia. }
      + rewrite Ty1. cbn [correlate shp]. rewrite pooled_notin by auto. rewrite W7. apply FN; auto.
        rewrite Ty1 in Hd. cbn [correlate shp] in Hd. rewrite pooled_length, W7, FL in Hd. auto. }
  exists y. rewrite W8. split; [reflexivity|]. split; [exact Sy|]. intros j Vj. rewrite Ty2 by (now rewrite Sy). cbn [correlate at_].
  apply bsum_ext. intros o Vo. f_equal.
  assert (Ln : length (map eff_kernel kers) = length al) by (rewrite map_length; auto).
  assert (Lss : length (map2 eff_stride kers (repeat 1 (length al))) = length al) by (rewrite map2_length, repeat_length; lia).
  assert (Lo : length o = length al) by (rewrite <- Ln, <- (map_length klen (map eff_kernel kers)); eapply valid_length; eauto).
  assert (Lj : length j = ndim x) by (unfold ndim; eapply valid_length; eauto).
  assert (Vp : valid (shp xp) (place al (map2 eff_stride kers (repeat 1 (length al))) j o)).
  { apply (place_valid F al (map eff_kernel kers)); auto.
    - intros b Hb. rewrite W7, FL. auto.
    - intros r Hr. rewrite ones_nth. lia.
    - assert (E : shp y = pooled al (map eff_kernel kers) (map2 eff_stride kers (repeat 1 (length al))) (shp xp)) by exact Ty1. rewrite <- E, Sy. auto. }
  rewrite X3 by auto. f_equal. apply list_ext with (d := 0).
  { unfold src_index. rewrite map_length, seq_length, look_length. symmetry. exact Lj. }
  unfold src_index. rewrite map_length, seq_length. intros d Hd. rewrite nth_map_seq by auto.
  destruct (in_dec Nat.eq_dec d al) as [Hi|Hi].
  - destruct (In_pos d al 0%nat Hi) as [r [Hr <-]]. rewrite look_nth; auto; rewrite ?map_length; auto; [|intros; rewrite Lj; auto].
    rewrite place_nth; auto; [|intros; rewrite Lj; auto]. rewrite ones_nth, Z.mul_1_r.
    destruct (Q r Hr) as [q [Q1 [Q2 [Q3 Q4]]]]. rewrite Q1. unfold src_axis. rewrite Q2, Q3, Q4, spot_src by auto.
    rewrite (klen_nth F) by lia. rewrite (eff_nth F) by lia.
    assert (Vn : 0 <= nth (nth r al 0%nat) j 0 < nth (nth r al 0%nat) (shp x) 0) by (apply valid_nth; auto).
    pose proof (valid_nth _ _ r Vo ltac:(rewrite !map_length; lia)) as Bo. rewrite (klen_nth F), (eff_nth F) in Bo by (rewrite ?map_length; lia).
    specialize (W2 r Hr). rewrite nth_repeat in W2. destruct (nth r kers []) as [|c0 k0] eqn:Ek; cbn [eff_kernel] in *.
    + change (klen (@nil F)) with 0 in W2. pose proof (same_width_bounds 0 1 _ _ ltac:(lia) (Z.le_refl 0) W2) as Bw. change (klen [@f1 F]) with 1 in *.
      assert (Ew : (fst (nth r ws (0, 0)) =? 0) && (snd (nth r ws (0, 0)) =? 0) = true) by (apply andb_true_iff; rewrite !Z.eqb_eq; lia).
      rewrite Ew. change (1 / 2) with 0. rewrite spot_inside; auto; lia.
    + assert (K1 : 1 <= klen (c0 :: k0)) by (unfold klen; simpl length; lia). pose proof (width_one _ _ _ K1 W2) as Ew. rewrite Ew. cbn [fst snd].
      destruct ((klen (c0 :: k0) / 2 =? 0) && ((klen (c0 :: k0) - 1) / 2 =? 0)) eqn:Ez; [|f_equal; lia].
      bdestr. assert (klen (c0 :: k0) = 1). { pose proof (Z.div_mod (klen (c0 :: k0)) 2). pose proof (Z.mod_pos_bound (klen (c0 :: k0)) 2). lia. }
      rewrite spot_inside; auto; lia.
  - rewrite axis_par_notin by auto. cbn [src_axis]. rewrite place_notin, look_notin; auto.
Qed.

(** A circular axis: filtering commutes with cyclic shifts. *)
Lemma look_shift al (ms : list (mode F)) ks sh j o a s : NoDup al -> (forall b, In b al -> (b < length j)%nat) ->
  length ms = length al -> length ks = length al -> length o = length al -> (a < length j)%nat -> 1 <= nth a sh 0 ->
  (forall r, (r < length al)%nat -> nth r al 0%nat = a -> nth r ms MUnknown = MCircular) ->
  upd a ((nth a (look al ms ks sh j o) 0 + s) mod nth a sh 0) (look al ms ks sh j o) =
  look al ms ks sh (upd a ((nth a j 0 + s) mod nth a sh 0) j) o.
Proof.
  intros Nd Hal Lm Lk Lo Ha Hn Hc. apply list_ext with (d := 0); [now rewrite upd_length, !look_length, upd_length|].
  intros d _. destruct (Nat.eq_dec d a) as [->|Hda].
  - rewrite nth_upd_eq by (rewrite look_length; auto). destruct (in_dec Nat.eq_dec a al) as [Hi|Hi].
    + destruct (In_pos a al 0%nat Hi) as [r [Hr Er]]. pose proof (Hc r Hr Er) as Em.
      pose proof (look_nth al ms ks sh j o r Nd Hal Lm Lk Lo Hr) as A1.
      pose proof (look_nth al ms ks sh (upd a ((nth a j 0 + s) mod nth a sh 0) j) o r Nd ltac:(intros; rewrite upd_length; auto) Lm Lk Lo Hr) as A2.
      rewrite Er in A1, A2. rewrite A1, A2, Em. cbn [spot]. rewrite nth_upd_eq by auto.
      rewrite Z.add_mod_idemp_l by lia. replace ((nth a j 0 + s) mod nth a sh 0 + nth r o 0 - nth r ks 0 / 2) with ((nth a j 0 + s) mod nth a sh 0 + (nth r o 0 - nth r ks 0 / 2)) by lia.
      rewrite Z.add_mod_idemp_l by lia. f_equal. lia.
    + rewrite !look_notin by auto. now rewrite nth_upd_eq by auto.
  - rewrite nth_upd_ne by auto. destruct (in_dec Nat.eq_dec d al) as [Hi|Hi].
    + destruct (In_pos d al 0%nat Hi) as [r [Hr <-]].
      rewrite !look_nth; auto; [|intros; rewrite upd_length; auto]. rewrite nth_upd_ne by auto. reflexivity.
    + rewrite !look_notin by auto. now rewrite nth_upd_ne by auto.
Qed.
Lemma spot_valid al (ms : list (mode F)) ks sh j o : NoDup al -> (forall b, In b al -> (b < length sh)%nat) ->
  length ms = length al -> length ks = length al -> length o = length al -> (forall b, In b al -> 1 <= nth b sh 0) ->
  (forall m, In m ms -> copying m) -> valid sh j -> valid sh (look al ms ks sh j o).
Proof.
  intros Nd Hal Lm Lk Lo Hn Hc V. pose proof (valid_length _ _ V) as L. apply valid_iff. split; [now rewrite look_length|].
  intros d Hd. destruct (in_dec Nat.eq_dec d al) as [Hi|Hi].
  - destruct (In_pos d al 0%nat Hi) as [r [Hr <-]]. rewrite look_nth; auto; [|intros; rewrite L; auto].
    apply spot_bounds; [apply Hc, nth_In; lia|auto].
  - rewrite look_notin by auto. apply valid_nth; auto.
Qed.
Theorem filter_shift fuel junk junk' (f : pool F) (x x' : T) ax al kers p ms a s :
  built (length al) kers (repeat 1 (length al)) (Some p) f ->
  same_call F fuel p x ax al ms kers (repeat 1 (length al)) -> (forall m, In m ms -> copying m) ->
  (a < ndim x)%nat -> (forall r, (r < length al)%nat -> nth r al 0%nat = a -> nth r ms MUnknown = MCircular) ->
  shifted a s x x' ->
  exists y y', snd (sep_forward fuel junk f x ax) = Ok y /\ snd (sep_forward fuel junk' f x' ax) = Ok y' /\ shifted a s y y'.
Proof.
  intros B SC Cm Ha Hc [Sx Ax]. pose proof SC as [OA N0 P0 P1 SS PF FM FU]. pose proof OA as [O1 O2 O3].
  assert (SC' : same_call F fuel p x' ax al ms kers (repeat 1 (length al))).
  { constructor; auto; unfold ndim in *; rewrite ?Sx; auto. constructor; unfold ndim; rewrite ?Sx; auto. }
  destruct (built_par F _ _ _ _ _ B) as [[L1 _] _].
  destruct (filter_copying fuel junk f x ax al kers p ms B SC Cm) as [y [Y1 [Y2 Y3]]].
  destruct (filter_copying fuel junk' f x' ax al kers p ms B SC' Cm) as [y' [Y1' [Y2' Y3']]].
  exists y, y'. split; auto. split; auto. split; [congruence|]. rewrite Y2. intros j V.
  pose proof (valid_nth _ _ a V Ha) as Va. pose proof (valid_length _ _ V) as Lj.
  assert (Lm : length ms = length al) by (apply (expand_length _ _ _ (pf_mode _ _ _ PF))).
  assert (Vs : valid (shp x) (upd a ((nth a j 0 + s) mod nth a (shp x) 0) j)).
  { apply (valid_upd_back (shp x) j a _ (nth a (shp x) 0)); [now rewrite upd_nth|apply Z.mod_pos_bound; lia]. }
  rewrite Y3' by (now rewrite Sx). rewrite Y3 by auto. apply bsum_ext. intros o Vo. f_equal. rewrite Sx.
  assert (Lk : length (map klen (map eff_kernel kers)) = length al) by (now rewrite !map_length).
  assert (Lo : length o = length al) by (rewrite <- Lk; eapply valid_length; eauto).
  rewrite Ax. 2: { apply spot_valid; auto. }
  f_equal. apply look_shift; auto; try (intros; rewrite Lj; auto). lia.
Qed.
End FC.
