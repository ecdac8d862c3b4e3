(** Filters with periodize padding are filters with circular padding of the image whose odd axes have their last
    slice repeated (C129). *)
From Verif Require Export FilterCopy PoolExact ReduceFlip.
Open Scope Z_scope.

(** x' is x with the last slice along every odd axis of A repeated once. *)
Definition evened {F : ofield} (A : list nat) (x x' : tensor F) : Prop :=
  ndim x' = ndim x /\
  (forall d, (d < ndim x)%nat -> nth d (shp x') 0 = nth d (shp x) 0 + (if memb d A then nth d (shp x) 0 mod 2 else 0)) /\
  forall i, valid (shp x') i -> at_ x' i = at_ x (map2 (fun n k => Z.min (n - 1) k) (shp x) i).

(** The length of a filtered axis. *)
Definition even_up (k n : Z) : Z := n + (if 2 <=? k then n mod 2 else 0).
(** The pixel that periodize padding shows at offset t of an axis of length n. *)
Definition pspot (n t : Z) : Z := Z.min (n - 1) (t mod (n + n mod 2)).

Fixpoint glance (al : list nat) (ks sh : list Z) (j o : list Z) : list Z :=
  match al, ks, o with
  | a :: al', k :: ks', t :: o' => upd a (pspot (nth a sh 0) (nth a j 0 + t - k / 2)) (glance al' ks' sh j o')
  | _, _, _ => j
  end.

Section FP.
Variable F : ofield.
Add Field Ffp : (f_field F).
Notation T := (tensor F).

Lemma glance_length al : forall ks sh j o, length (glance al ks sh j o) = length j.
Proof. induction al as [|a al IH]; intros [|k ks] sh j [|t o]; simpl; auto. now rewrite upd_length. Qed.
Lemma glance_notin a al : forall ks sh j o, ~ In a al -> nth a (glance al ks sh j o) 0 = nth a j 0.
Proof.
  induction al as [|b al IH]; intros [|k ks] sh j [|t o] H; simpl; auto.
  rewrite nth_upd_ne by (intros ->; apply H; now left). apply IH. intros E; apply H; now right.
Qed.
Lemma glance_nth al : forall ks sh j o r, NoDup al -> (forall a, In a al -> (a < length j)%nat) ->
  length ks = length al -> length o = length al -> (r < length al)%nat ->
  nth (nth r al 0%nat) (glance al ks sh j o) 0 = pspot (nth (nth r al 0%nat) sh 0) (nth (nth r al 0%nat) j 0 + nth r o 0 - nth r ks 0 / 2).
Proof.
  induction al as [|a al IH]; intros [|k ks] sh j [|t o] r Hn Hl Hk Ho Hr; simpl in *; try lia; try discriminate.
  inversion Hn as [|? ? Hn1 Hn2]. subst. destruct r as [|r].
  - rewrite nth_upd_eq; auto. rewrite glance_length. apply Hl. auto.
  - rewrite nth_upd_ne. 2: { intros ->. apply Hn1, nth_In. lia. } apply IH; auto; lia.
Qed.
Lemma pspot_src n t : 1 <= n -> src_coord (F := F) MPeriodize n t = Some (pspot n t).
Proof.
  intros Hn. cbn [src_coord]. cbv zeta. f_equal. unfold pspot. pose proof (Z.mod_pos_bound n 2). pose proof (Z.mod_pos_bound t (n + n mod 2)).
  destruct (Z.ltb_spec (t mod (n + n mod 2)) n); lia.
Qed.
Lemma pspot_bounds n t : 1 <= n -> 0 <= pspot n t < n.
Proof. intros Hn. unfold pspot. pose proof (Z.mod_pos_bound n 2). pose proof (Z.mod_pos_bound t (n + n mod 2)). lia. Qed.
Lemma pspot_inside n t : 0 <= t < n -> pspot n t = t.
Proof. intros H. unfold pspot. pose proof (Z.mod_pos_bound n 2). rewrite Z.mod_small; lia. Qed.

Theorem filter_periodize fuel junk (f : pool F) (x : T) ax al kers p :
  built (length al) kers (repeat 1 (length al)) (Some p) f ->
  same_call F fuel p x ax al (repeat MPeriodize (length al)) kers (repeat 1 (length al)) ->
  exists y, snd (sep_forward fuel junk f x ax) = Ok y /\ ndim y = ndim x /\
    (forall r, (r < length al)%nat -> nth (nth r al 0%nat) (shp y) 0 = even_up (klen (nth r kers [])) (nth (nth r al 0%nat) (shp x) 0)) /\
    (forall d, ~ In d al -> nth d (shp y) 0 = nth d (shp x) 0) /\
    forall j, valid (shp y) j -> at_ y j = bsum (map klen (map eff_kernel kers)) (fun o =>
      fmul (weight (map eff_kernel kers) o) (at_ x (glance al (map klen (map eff_kernel kers)) (shp x) j o))).
Proof.
  intros B SC. destruct (built_par F _ _ _ _ _ B) as [PP [Pd [E1 [E2 _]]]]. pose proof PP as [L1 [L2 [_ L4]]].
  pose proof SC as [OA N0 P0 P1 SS PF FM FU]. pose proof OA as [O1 O2 O3].
  set (ms := repeat MPeriodize (length al)) in *.
  assert (Lm : length ms = length al) by (apply repeat_length).
  assert (Cn : forall r, (r < length al)%nat -> nth r ms MUnknown = MPeriodize).
  { intros r Hr. assert (G : In (nth r ms MUnknown) ms) by (apply nth_In; lia). unfold ms in G at 2. now apply repeat_spec in G. }
  destruct (sep_forward_same F fuel junk f x ax al kers _ p ms PP E1 E2 Pd SC) as [ws [xp [y [W1 [W2 [PC [AF [NE [W6 [W7 [W8 [[Ty1 Ty2] W10]]]]]]]]]]]].
  destruct (same_pad_call F fuel p x ax al ms kers _ ws SC W1 L1 W2) as [_ [_ [_ [FL [FN FS]]]]].
  destruct (with_width_par F (length al) p ms ws al PF W1 eq_refl O3) as [LA Q].
  assert (Wb : forall r, (r < length al)%nat -> 0 <= fst (nth r ws (0,0)) /\ 0 <= snd (nth r ws (0,0))).
  { intros r Hr. destruct (same_width_bounds (klen (nth r kers [])) (nth r (repeat 1 (length al)) 1) (nth (nth r al 0%nat) (shp x) 0) (nth r ws (0, 0))); auto; try (unfold klen; lia). }
  destruct (forward_copy F fuel junk (with_width p ws) x ax al PC) as [xp' [X1 [X2 X3]]].
  { rewrite LA. intros a Ha. destruct (In_pos a al 0%nat Ha) as [r [Hr <-]]. destruct (Q r Hr) as [q [Q1 [Q2 [Q3 Q4]]]]. exists q. split; auto.
    rewrite Q2, Q3, Q4, Cn by auto. split; [|destruct (Wb r Hr); split; [lia|split; [lia|apply P1, nth_In; auto]]].
    intros n t. cbn [src_coord]. discriminate. }
  rewrite W6 in X1. injection X1 as <-. rewrite LA in X3.
  destruct (pool_same_exact F fuel junk f x ax al kers _ p ms B SC) as [y' [Y1 [Y2 [Y3 Y4]]]].
  rewrite W8 in Y1. cbn [snd] in Y1. injection Y1 as <-.
  assert (Sy : forall r, (r < length al)%nat -> nth (nth r al 0%nat) (shp y) 0 = even_up (klen (nth r kers [])) (nth (nth r al 0%nat) (shp x) 0)).
  { intros r Hr. unfold even_up. destruct (nth r kers []) as [|c0 k0] eqn:Ek.
    - change (klen (@nil F)) with 0. cbn [Z.leb Z.compare]. rewrite Z.add_0_r. apply Y4. intros r' Hr' E. assert (r' = r); [|now subst].
      eapply NoDup_nth in E; eauto.
    - destruct (Y3 r (nth (nth r al 0%nat) (shp x) 0) Hr) as [G1 G2]; [rewrite Ek; discriminate|rewrite nth_repeat; unfold is_ceil_div; lia|].
      rewrite Ek, nth_repeat, Cn in G1, G2 by auto. unfold grows in *. rewrite Zmod_odd.
      destruct (Z.leb_spec 2 (klen (c0 :: k0))); destruct (Z.odd (nth (nth r al 0%nat) (shp x) 0)).
      + apply G1. auto.
      + rewrite Z.add_0_r. apply G2. intros [_ [? _]]. discriminate.
      + rewrite Z.add_0_r. apply G2. intros [_ [_ [_ ?]]]. lia.
      + rewrite Z.add_0_r. apply G2. intros [_ [? _]]. discriminate. }
  assert (Sn : forall d, ~ In d al -> nth d (shp y) 0 = nth d (shp x) 0).
  { intros d Hd. apply Y4. intros r Hr E. exfalso. apply Hd. subst. apply nth_In; auto. }
  exists y. rewrite W8. split; [reflexivity|]. split; [exact Y2|]. split; [exact Sy|]. split; [exact Sn|]. intros j Vj. rewrite Ty2 by auto. cbn [correlate at_].
  apply bsum_ext. intros o Vo. f_equal.
  assert (Ln : length (map eff_kernel kers) = length al) by (rewrite map_length; auto).
  assert (Lss : length (map2 eff_stride kers (repeat 1 (length al))) = length al) by (rewrite map2_length, repeat_length; lia).
  assert (Lo : length o = length al) by (rewrite <- Ln, <- (map_length klen (map eff_kernel kers)); eapply valid_length; eauto).
  assert (Lj : length j = ndim x) by (rewrite <- Y2; unfold ndim; eapply valid_length; eauto).
  assert (Vp : valid (shp xp) (place al (map2 eff_stride kers (repeat 1 (length al))) j o)).
  { apply (place_valid F al (map eff_kernel kers)); auto.
    - intros b Hb. rewrite W7, FL. auto.
    - intros r Hr. rewrite ones_nth. lia.
    - assert (E : shp y = pooled al (map eff_kernel kers) (map2 eff_stride kers (repeat 1 (length al))) (shp xp)) by exact Ty1. now rewrite <- E. }
  rewrite X3 by auto. f_equal. apply list_ext with (d := 0).
  { unfold src_index. rewrite map_length, seq_length, glance_length. symmetry. exact Lj. }
  unfold src_index. rewrite map_length, seq_length. intros d Hd. rewrite nth_map_seq by auto.
  destruct (in_dec Nat.eq_dec d al) as [Hi|Hi].
  - destruct (In_pos d al 0%nat Hi) as [r [Hr <-]]. rewrite glance_nth; auto; rewrite ?map_length; auto; [|intros; rewrite Lj; auto].
    rewrite place_nth; auto; [|intros; rewrite Lj; auto]. rewrite ones_nth, Z.mul_1_r.
    destruct (Q r Hr) as [q [Q1 [Q2 [Q3 Q4]]]]. rewrite Q1. unfold src_axis. rewrite Q2, Q3, Q4, Cn, pspot_src by auto.
    rewrite (klen_nth F) by lia. rewrite (eff_nth F) by lia.
    assert (Vn : 0 <= nth (nth r al 0%nat) j 0 < nth (nth r al 0%nat) (shp y) 0) by (apply valid_nth; auto; fold (ndim y); rewrite Y2; auto).
    rewrite Sy in Vn by auto.
    pose proof (valid_nth _ _ r Vo ltac:(rewrite !map_length; lia)) as Bo. rewrite (klen_nth F), (eff_nth F) in Bo by (rewrite ?map_length; lia).
    specialize (W2 r Hr). rewrite nth_repeat in W2. destruct (nth r kers []) as [|c0 k0] eqn:Ek; cbn [eff_kernel] in *.
    + change (klen (@nil F)) with 0 in W2. pose proof (same_width_bounds 0 1 _ _ ltac:(lia) (Z.le_refl 0) W2) as Bw. change (klen [@f1 F]) with 1 in *.
      change (klen (@nil F)) with 0 in Vn. unfold even_up in Vn. cbn [Z.leb Z.compare] in Vn.
      assert (Ew : (fst (nth r ws (0, 0)) =? 0) && (snd (nth r ws (0, 0)) =? 0) = true) by (apply andb_true_iff; rewrite !Z.eqb_eq; lia).
      rewrite Ew. change (1 / 2) with 0. rewrite pspot_inside; auto; lia.
    + assert (K1 : 1 <= klen (c0 :: k0)) by (unfold klen; simpl length; lia). pose proof (width_one _ _ _ K1 W2) as Ew. rewrite Ew. cbn [fst snd].
      destruct ((klen (c0 :: k0) / 2 =? 0) && ((klen (c0 :: k0) - 1) / 2 =? 0)) eqn:Ez; [|f_equal; lia].
      bdestr. assert (K : klen (c0 :: k0) = 1). { pose proof (Z.div_mod (klen (c0 :: k0)) 2). pose proof (Z.mod_pos_bound (klen (c0 :: k0)) 2). lia. }
      rewrite K in Vn. unfold even_up in Vn. cbn [Z.leb Z.compare Pos.compare Pos.compare_cont] in Vn.
      rewrite pspot_inside; auto; lia.
  - rewrite glance_notin by auto. rewrite axis_par_notin by auto. cbn [src_axis]. apply place_notin; auto.
Qed.

(** Whenever the axes in A are exactly those with kernels of two or more elements. *)
Theorem filter_as_circular fuel junk fuel' junk' (f f' : pool F) (x x' : T) ax ax' al kers p p' A :
  built (length al) kers (repeat 1 (length al)) (Some p) f -> built (length al) kers (repeat 1 (length al)) (Some p') f' ->
  same_call F fuel p x ax al (repeat MPeriodize (length al)) kers (repeat 1 (length al)) ->
  same_call F fuel' p' x' ax' al (repeat MCircular (length al)) kers (repeat 1 (length al)) ->
  (forall a, In a A -> In a al) -> (forall r, (r < length al)%nat -> (In (nth r al 0%nat) A <-> 2 <= klen (nth r kers []))) ->
  evened A x x' ->
  exists y y', snd (sep_forward fuel junk f x ax) = Ok y /\ snd (sep_forward fuel' junk' f' x' ax') = Ok y' /\ teq y y' /\ shp y' = shp x'.
Proof.
  intros B B' SC SC' HA HK [Nx [Sx Vx]].
  destruct (built_par F _ _ _ _ _ B) as [[L1 _] _].
  destruct (filter_periodize fuel junk f x ax al kers p B SC) as [y [Y1 [Y2 [Y3 [Y4 Y5]]]]].
  destruct (filter_copying F fuel' junk' f' x' ax' al kers p' _ B' SC') as [y' [Z1 [Z2 Z3]]].
  { intros m Hm. apply repeat_spec in Hm. subst. now left. }
  pose proof SC as [[O1 O2 O3] N0 P0 P1 SS PF FM FU].
  exists y, y'. split; auto. split; auto.
  assert (MA : forall r, (r < length al)%nat -> memb (nth r al 0%nat) A = (2 <=? klen (nth r kers []))).
  { intros r Hr. specialize (HK r Hr). unfold memb. destruct (Z.leb_spec 2 (klen (nth r kers []))).
    - apply existsb_exists. exists (nth r al 0%nat). split; [apply HK; lia|apply Nat.eqb_refl].
    - apply not_true_iff_false. intros E. apply existsb_exists in E as (b & Hb & E). apply Nat.eqb_eq in E. subst b. apply HK in Hb. lia. }
  assert (MN : forall d, ~ In d al -> memb d A = false).
  { intros d Hd. apply not_true_iff_false. intros E. apply existsb_exists in E as (b & Hb & E). apply Nat.eqb_eq in E. subst b. auto. }
  assert (Es : shp y = shp x').
  { apply list_ext with (d := 0). { fold (ndim y) (ndim x'). congruence. }
    intros d Hd. fold (ndim y) in Hd. rewrite Y2 in Hd. rewrite Sx by auto. destruct (in_dec Nat.eq_dec d al) as [Hi|Hi].
    - destruct (In_pos d al 0%nat Hi) as [r [Hr <-]]. rewrite Y3, MA by auto. reflexivity.
    - rewrite Y4, MN by auto. lia. }
  split; [|exact Z2]. split; [congruence|]. intros j Vj. rewrite Es in Vj.
  rewrite Y5 by congruence. rewrite Z3 by auto. apply bsum_ext. intros o Vo. f_equal.
  assert (Ln : length (map eff_kernel kers) = length al) by (rewrite map_length; auto).
  assert (Lo : length o = length al) by (rewrite <- Ln, <- (map_length klen (map eff_kernel kers)); eapply valid_length; eauto).
  assert (Lj : length j = ndim x) by (rewrite <- Nx; unfold ndim; eapply valid_length; eauto).
  assert (Lx : length (shp x) = ndim x) by reflexivity.
  assert (Cn : forall r, (r < length al)%nat -> nth r (repeat MCircular (length al)) MUnknown = MCircular (F := F)).
  { intros r Hr. assert (G : In (nth r (repeat (MCircular (F := F)) (length al)) MUnknown) (repeat MCircular (length al))) by (apply nth_In; rewrite repeat_length; lia).
    now apply repeat_spec in G. }
  assert (Vl : forall r, (r < length al)%nat -> 0 < nth (nth r al 0%nat) (shp x') 0).
  { intros r Hr. rewrite Sx by (apply O2, nth_In; auto). specialize (P1 (nth r al 0%nat) (nth_In _ _ Hr)).
    pose proof (Z.mod_pos_bound (nth (nth r al 0%nat) (shp x) 0) 2). destruct (memb _ _); lia. }
  rewrite Vx.
  2: { apply valid_iff. rewrite look_length. split; [fold (ndim x'); congruence|]. intros d Hd. fold (ndim x') in Hd. rewrite Nx in Hd.
    destruct (in_dec Nat.eq_dec d al) as [Hi|Hi].
    - destruct (In_pos d al 0%nat Hi) as [r [Hr <-]]. rewrite look_nth; auto; rewrite ?map_length, ?repeat_length; auto; [|intros; rewrite Lj; auto].
      rewrite Cn by auto. cbn [spot]. apply Z.mod_pos_bound. auto.
    - rewrite look_notin by auto. apply valid_nth; auto. fold (ndim x'). congruence. }
  f_equal. apply list_ext with (d := 0).
  { rewrite glance_length, map2_length, look_length. rewrite Lj, Lx. lia. }
  rewrite glance_length, Lj. intros d Hd. rewrite nth_map2 with (da := 0) (db := 0) by (rewrite ?look_length; lia).
  pose proof (valid_nth _ _ d Vj ltac:(fold (ndim x'); congruence)) as Vd. rewrite Sx in Vd by auto.
  destruct (in_dec Nat.eq_dec d al) as [Hi|Hi].
  - destruct (In_pos d al 0%nat Hi) as [r [Hr <-]]. rewrite MA in Vd by auto.
    rewrite glance_nth; auto; rewrite ?map_length; auto; [|intros; rewrite Lj; auto].
    rewrite look_nth; auto; rewrite ?map_length, ?repeat_length; auto; [|intros; rewrite Lj; auto].
    rewrite Cn by auto. cbn [spot]. rewrite Sx, MA by auto. unfold pspot.
    rewrite (klen_nth F) by lia. rewrite (eff_nth F) by lia.
    pose proof (valid_nth _ _ r Vo ltac:(rewrite !map_length; lia)) as Bo. rewrite (klen_nth F), (eff_nth F) in Bo by (rewrite ?map_length; lia).
    destruct (Z.leb_spec 2 (klen (nth r kers []))) as [H2|H2]; auto. rewrite Z.add_0_r in *.
    assert (Ek : klen (eff_kernel (nth r kers [])) = 1).
    { destruct (nth r kers []) as [|c0 k0]; [reflexivity|]. cbn [eff_kernel]. unfold klen in *. simpl length in *. lia. }
    rewrite Ek in *. change (1 / 2) with 0. rewrite Z.sub_0_r. assert (nth r o 0 = 0) by lia. rewrite H, Z.add_0_r.
    pose proof (Z.mod_pos_bound (nth (nth r al 0%nat) (shp x) 0) 2). rewrite !Z.mod_small by lia. reflexivity.
  - rewrite glance_notin, look_notin by auto. rewrite MN in Vd by auto. lia.
Qed.
End FP.
