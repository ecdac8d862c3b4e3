(** Pooling and mirror images. *)
From Verif Require Export PadFlip PoolPropLemmas.
Open Scope Z_scope.

(** The kernels kers' are those of kers, that of axis a read backwards. *)
Definition reversed_on {A} (a : nat) (al : list nat) (kers kers' : list (list A)) : Prop :=
  forall r, (r < length al)%nat -> nth r kers' [] = if Nat.eqb (nth r al 0%nat) a then rev (nth r kers []) else nth r kers [].
(** Spec s' has the pairs of s for n axes, those of axis a exchanged. *)
Definition swapped_on {A} (a : nat) (al : list nat) (s s' : nds (A * A)) : Prop :=
  exists l l', expand (length al) s = Some l /\ expand (length al) s' = Some l' /\
    forall r d, (r < length al)%nat -> nth r l' d = if Nat.eqb (nth r al 0%nat) a then swap (nth r l d) else nth r l d.
(** p' has the modes of p and its values, those of axis a exchanged. *)
Record mirror_values {F : ofield} (a : nat) (al : list nat) (p p' : padder F) : Prop := {
  mv_mode : expand (length al) (p_mode p') = expand (length al) (p_mode p);
  mv_const : swapped_on a al (p_const p) (p_const p');
  mv_end : swapped_on a al (p_end p) (p_end p');
  mv_stat : swapped_on a al (p_stat p) (p_stat p') }.

Section PoolFlip.
Variable F : ofield.
Add Field Fpflip : (f_field F).
Notation T := (tensor F).

(** *** sums *)
Lemma fsumn_head n (f : Z -> F) : fsumn (S n) f = fadd (f 0) (fsumn n (fun k => f (k + 1))).
Proof.
  induction n as [|n IH]; [cbn; ring|]. cbn [fsumn] in *. rewrite IH. replace (Z.of_nat n + 1) with (Z.of_nat (S n)) by lia. ring.
Qed.
Lemma fsumn_rev n : forall f : Z -> F, fsumn n f = fsumn n (fun k => f (Z.of_nat n - 1 - k)).
Proof.
  induction n as [|n IH]; intros f; [reflexivity|]. rewrite (fsumn_head n (fun k => f (Z.of_nat (S n) - 1 - k))). cbn [fsumn]. rewrite (IH f).
  rewrite (fsumn_ext F n (fun k => f (Z.of_nat (S n) - 1 - (k + 1))) (fun k => f (Z.of_nat n - 1 - k))) by (intros; f_equal; lia).
  replace (Z.of_nat (S n) - 1 - 0) with (Z.of_nat n) by lia. ring.
Qed.
Lemma fsum_rev n (f : Z -> F) : 0 <= n -> fsum n f = fsum n (fun k => f (n - 1 - k)).
Proof. intros H. unfold fsum. rewrite fsumn_rev. apply fsumn_ext. intros. f_equal. lia. Qed.
Lemma bsum_flip ns : forall r (f : list Z -> F), (forall n, In n ns -> 0 <= n) ->
  bsum ns f = bsum ns (fun o => f (upd r (nth r ns 0 - 1 - nth r o 0) o)).
Proof.
  induction ns as [|n ns IH]; intros r f H; [destruct r; reflexivity|]. cbn [bsum]. destruct r as [|r].
  - rewrite fsum_rev by (apply H; now left). reflexivity.
  - apply fsum_ext. intros k _. rewrite (IH r (fun o => f (k :: o))) by (intros; apply H; now right). reflexivity.
Qed.

Lemma weight_flip kers kers' r : forall o, length kers' = length kers -> valid (map klen kers) o -> (r < length kers)%nat ->
  (forall t, (t < length kers)%nat -> nth t kers' [] = if Nat.eqb t r then rev (nth t kers []) else nth t kers []) ->
  weight kers' (upd r (klen (nth r kers []) - 1 - nth r o 0) o) = weight kers o :> F.
Proof.
  revert kers' r. induction kers as [|k kers IH]; intros kers' r o L V Hr H; [simpl in Hr; lia|].
  destruct kers' as [|k' kers']; [discriminate|]. inv V. destruct r as [|r]; cbn [upd weight nth].
  - pose proof (H 0%nat ltac:(simpl; lia)) as E0. cbn in E0. subst k'.
    assert (E : kers' = kers).
    { apply nth_ext with (d := []) (d' := []); auto. intros t Ht. apply (H (S t)). simpl in *; lia. }
    subst kers'. f_equal. unfold klen in *. rewrite rev_nth by lia. f_equal. lia.
  - pose proof (H 0%nat ltac:(simpl; lia)) as E0. cbn in E0. subst k'. f_equal.
    apply IH; auto; [simpl in Hr; lia|]. intros t Ht. apply (H (S t)). simpl; lia.
Qed.

Lemma eff_rev (k : list F) : eff_kernel (rev k) = rev (eff_kernel k).
Proof. destruct k as [|c k]; [reflexivity|]. cbn [eff_kernel]. destruct (rev (c :: k)) eqn:E; auto. apply (f_equal (@length F)) in E. rewrite rev_length in E. discriminate. Qed.
Lemma eff_nth (kers : list (list F)) r : (r < length kers)%nat -> nth r (map eff_kernel kers) [] = eff_kernel (nth r kers []).
Proof. intros H. rewrite (nth_indep _ [] (eff_kernel [])) by (now rewrite map_length). apply map_nth. Qed.
Lemma klen_nth (kers : list (list F)) r : (r < length kers)%nat -> nth r (map klen kers) 0 = klen (nth r kers []).
Proof. intros H. rewrite (nth_indep _ 0 (klen (@nil F))) by (now rewrite map_length). apply map_nth. Qed.
Lemma klen_rev (k : list F) : klen (rev k) = klen k.
Proof. unfold klen. now rewrite rev_length. Qed.
Lemma rev_nil_iff {A} (k : list A) : rev k = [] <-> k = [].
Proof. split; [|now intros ->]. intros H. apply (f_equal (@rev A)) in H. now rewrite rev_involutive in H. Qed.

Section Corr.
Variables (a : nat) (al : list nat) (kers kers' : list (list F)) (sts : list Z).
Hypothesis Nd : NoDup al.
Hypothesis Lk : length kers = length al.
Hypothesis Lk' : length kers' = length al.
Hypothesis Ls : length sts = length al.
Hypothesis Rv : reversed_on a al kers kers'.

Lemma rev_klen : map klen (map eff_kernel kers') = map klen (map eff_kernel kers).
Proof.
  apply nth_ext with (d := 0) (d' := 0); rewrite !map_length; [lia|]. intros r Hr.
  rewrite !klen_nth, !eff_nth by (rewrite ?map_length; lia). rewrite Rv by lia. destruct (Nat.eqb _ _); auto. now rewrite eff_rev, klen_rev.
Qed.
Lemma rev_sts : map2 eff_stride kers' sts = map2 eff_stride kers sts.
Proof.
  apply nth_ext with (d := 1) (d' := 1); rewrite !map2_length; [lia|]. intros r Hr.
  rewrite !nth_map2 with (da := []) (db := 1) by lia. rewrite Rv by lia. destruct (Nat.eqb _ _); auto.
  destruct (nth r kers []) as [|c k] eqn:E; [reflexivity|]. cbn [eff_stride]. unfold eff_stride. destruct (rev (c :: k)) eqn:E2; auto.
  apply (proj1 (rev_nil_iff _)) in E2. discriminate.
Qed.

(** The correlation of the mirrored image with the reversed kernels. *)
Lemma corr_flip (x x' : T) osh j : flipped a x x' -> (a < ndim x)%nat -> (forall b, In b al -> (b < ndim x)%nat) -> length osh = ndim x ->
  (forall r, (r < length al)%nat -> nth r kers [] <> [] -> 1 <= nth r sts 1) ->
  osh = pooled al (map eff_kernel kers) (map2 eff_stride kers sts) (shp x) ->
  (forall r, (r < length al)%nat -> nth r al 0%nat = a -> nth r kers [] <> [] -> (nth a (shp x) 0 - klen (nth r kers [])) mod nth r sts 1 = 0) ->
  valid osh j ->
  correlation al kers' sts x' j = correlation al kers sts x (upd a (nth a osh 0 - 1 - nth a j 0) j).
Proof.
  intros [Sx Fx] Ha Hal Lo Hs Eo Hd V. unfold correlation. rewrite rev_klen, rev_sts.
  set (ks := map eff_kernel kers) in *. set (ss := map2 eff_stride kers sts) in *.
  assert (Lks : length ks = length al) by (unfold ks; rewrite map_length; lia).
  assert (Lss : length ss = length al) by (unfold ss; rewrite map2_length; lia).
  assert (Lj : length j = ndim x) by (rewrite <- Lo; eapply valid_length; eauto).
  assert (Spos : forall r, (r < length al)%nat -> 1 <= nth r ss 1).
  { intros r Hr. unfold ss. rewrite nth_map2 with (da := []) (db := 1) by lia. specialize (Hs r Hr). destruct (nth r kers []); cbn [eff_stride]; [lia|]. apply Hs. discriminate. }
  assert (PV : forall o, valid (map klen ks) o -> valid (shp x) (place al ss j o)).
  { intros o Vo. apply (place_valid F al ks ss (shp x) j o); auto. now rewrite <- Eo. }
  destruct (in_dec Nat.eq_dec a al) as [Hi|Hi].
  - destruct (In_pos a al 0%nat Hi) as [r [Hr Er]].
    rewrite (bsum_flip (map klen ks) r) by (intros n Hn; apply in_map_iff in Hn; destruct Hn as [k [<- _]]; unfold klen; lia).
    apply bsum_ext. intros o Vo. rewrite klen_nth by lia.
    assert (Loo : length o = length al) by (rewrite <- Lks, <- (map_length klen ks); eapply valid_length; eauto).
    pose proof (valid_nth _ _ r Vo ltac:(rewrite map_length; lia)) as Bo. rewrite klen_nth in Bo by lia.
    set (o' := upd r (klen (nth r ks []) - 1 - nth r o 0) o).
    assert (Vo' : valid (map klen ks) o').
    { unfold o'. rewrite <- (klen_nth ks r) by lia. apply valid_flip. auto. }
    f_equal.
    + unfold o'. apply weight_flip; auto; try lia.
      { rewrite map_length. lia. }
      intros t Ht. assert (EN : nth t ks [] = eff_kernel (nth t kers [])) by (unfold ks; apply eff_nth; lia).
      rewrite EN, (eff_nth kers') by lia. rewrite Rv by lia.
      destruct (Nat.eqb_spec t r) as [->|Ht2].
      * rewrite Er, Nat.eqb_refl. now rewrite eff_rev.
      * destruct (Nat.eqb_spec (nth t al 0%nat) a) as [E|E]; [|reflexivity].
        exfalso. apply Ht2. apply (NoDup_nth al 0%nat); auto; lia.
    + rewrite Fx by auto. f_equal. apply list_ext with (d := 0); [now rewrite !upd_length, !place_length, upd_length|].
      intros d _. destruct (Nat.eq_dec d a) as [->|Hda].
      * rewrite nth_upd_eq by (rewrite place_length; lia). rewrite <- Er. rewrite !place_nth; auto; rewrite ?upd_length; unfold ndim in *; rewrite ?Lj; auto.
        2: { unfold o'. rewrite upd_length. auto. }
        rewrite Er. rewrite nth_upd_eq by lia. unfold o'. rewrite nth_upd_eq by lia.
        rewrite Eo, <- Er. rewrite pooled_nth; auto. rewrite Er.
        assert (Em : (nth a (shp x) 0 - klen (nth r ks [])) mod nth r ss 1 = 0).
        { unfold ks, ss. rewrite eff_nth by lia. rewrite nth_map2 with (da := []) (db := 1) by lia. specialize (Hd r Hr Er).
          destruct (nth r kers []) as [|c0 k0]; cbn [eff_kernel eff_stride]; [apply Z.mod_1_r|]. apply Hd. discriminate. }
        pose proof (Z.div_mod (nth a (shp x) 0 - klen (nth r ks [])) (nth r ss 1) ltac:(specialize (Spos r Hr); lia)). nia.
      * rewrite nth_upd_ne by auto. destruct (in_dec Nat.eq_dec d al) as [Hdi|Hdi].
        { destruct (In_pos d al 0%nat Hdi) as [t [Ht Et]]. assert (t <> r) by (intros ->; congruence). rewrite <- Et.
          rewrite !place_nth; auto; rewrite ?upd_length; unfold ndim in *; rewrite ?Lj; auto.
          2: { unfold o'. rewrite upd_length. auto. }
          rewrite Et. rewrite nth_upd_ne by auto. unfold o'. rewrite nth_upd_ne by auto. reflexivity. }
        { rewrite !place_notin by auto. now rewrite nth_upd_ne by auto. }
  - apply bsum_ext. intros o Vo. f_equal.
    + f_equal. unfold ks. apply nth_ext with (d := []) (d' := []); rewrite !map_length; [lia|]. intros t Ht. rewrite !eff_nth by lia. rewrite Rv by lia.
      destruct (Nat.eqb_spec (nth t al 0%nat) a) as [E|E]; auto. exfalso. apply Hi. rewrite <- E. apply nth_In. lia.
    + rewrite Fx by auto. f_equal.
      assert (Loo : length o = length al) by (rewrite <- Lks, <- (map_length klen ks); eapply valid_length; eauto).
      apply list_ext with (d := 0); [now rewrite !upd_length, !place_length, upd_length|]. intros d _.
      destruct (Nat.eq_dec d a) as [->|Hda].
      * rewrite nth_upd_eq by (rewrite place_length; lia). rewrite !place_notin by auto. rewrite nth_upd_eq by lia. rewrite Eo, pooled_notin by auto. reflexivity.
      * rewrite nth_upd_ne by auto. destruct (in_dec Nat.eq_dec d al) as [Hdi|Hdi].
        { destruct (In_pos d al 0%nat Hdi) as [t [Ht Et]]. rewrite <- Et.
          rewrite !place_nth; auto; rewrite ?upd_length; unfold ndim in *; rewrite ?Lj; auto. rewrite Et. rewrite nth_upd_ne by auto. reflexivity. }
        { rewrite !place_notin by auto. now rewrite nth_upd_ne by auto. }
Qed.
End Corr.

Lemma flip_on_axes a (x x' : T) ax al : flipped a x x' -> on_axes x ax al -> on_axes x' ax al.
Proof. intros [S _] [O1 O2 O3]. unfold ndim in *. split; unfold ndim; rewrite ?S; auto. Qed.
Lemma corr_mirror a al (kers kers' : list (list F)) sts (x x' y y' : T) : NoDup al -> length kers = length al -> length kers' = length al -> length sts = length al ->
  reversed_on a al kers kers' -> flipped a x x' -> (a < ndim x)%nat -> (forall b, In b al -> (b < ndim x)%nat) ->
  (forall r, (r < length al)%nat -> nth r kers [] <> [] -> 1 <= nth r sts 1) ->
  (forall r, (r < length al)%nat -> nth r al 0%nat = a -> nth r kers [] <> [] -> (nth a (shp x) 0 - klen (nth r kers [])) mod nth r sts 1 = 0) ->
  teq y (correlate al (map eff_kernel kers) (map2 eff_stride kers sts) x) ->
  teq y' (correlate al (map eff_kernel kers') (map2 eff_stride kers' sts) x') -> flipped a y y'.
Proof.
  intros Nd Lk Lk' Ls Rv Fl Ha Hal Hs Hd [Y1 Y2] [Y1' Y2'].
  assert (E : shp (correlate al (map eff_kernel kers') (map2 eff_stride kers' sts) x') = shp (correlate al (map eff_kernel kers) (map2 eff_stride kers sts) x)).
  { cbn [correlate shp]. destruct Fl as [-> _]. rewrite (rev_sts a al kers kers' sts) by auto.
    assert (E : map klen (map eff_kernel kers') = map klen (map eff_kernel kers)) by (eapply rev_klen; eauto). apply list_ext with (d := 0); [now rewrite !pooled_length|]. intros d _.
    destruct (in_dec Nat.eq_dec d al) as [Hi|Hi]; [|now rewrite !pooled_notin by auto]. destruct (In_pos d al 0%nat Hi) as [r [Hr <-]].
    rewrite !pooled_nth; auto; rewrite ?map_length, ?map2_length; auto; try lia.
    f_equal. f_equal. f_equal. rewrite <- !klen_nth by (rewrite map_length; lia). now rewrite E. }
  split; [now rewrite Y1', E|]. intros j Vj. rewrite Y2' by (now rewrite Y1', E, <- Y1). rewrite Y2 by (now apply valid_flip).
  rewrite Y1 in *. change (at_ (correlate al (map eff_kernel kers') (map2 eff_stride kers' sts) x') j) with (correlation al kers' sts x' j).
  apply (corr_flip a al kers kers' sts Nd Lk Lk' Ls Rv x x'); auto. cbn [correlate shp]. now rewrite pooled_length.
Qed.

Theorem pool_valid_mirror fuel junk junk' (m m' : pool F) a (x x' : T) ax al kers kers' sts : on_axes x ax al ->
  built (length al) kers sts None m -> built (length al) kers' sts None m' ->
  (forall r, (r < length al)%nat -> klen (nth r kers []) <= nth (nth r al 0%nat) (shp x) 0) ->
  (forall r, (r < length al)%nat -> nth r al 0%nat = a -> nth r kers [] <> [] -> (nth a (shp x) 0 - klen (nth r kers [])) mod nth r sts 1 = 0) ->
  (a < ndim x)%nat -> reversed_on a al kers kers' -> flipped a x x' ->
  exists y y', snd (sep_forward fuel junk m x ax) = Ok y /\ snd (sep_forward fuel junk' m' x' ax) = Ok y' /\ flipped a y y'.
Proof.
  intros OA B B' Hf Hd Ha Rv Fl. pose proof (flip_on_axes a x x' ax al Fl OA) as OA'.
  destruct (built_par F _ _ _ _ _ B) as [PP [Pd _]]. destruct (built_par F _ _ _ _ _ B') as [PP' [Pd' _]].
  assert (Hf' : forall r, (r < length al)%nat -> klen (nth r kers' []) <= nth (nth r al 0%nat) (shp x') 0).
  { intros r Hr. rewrite Rv by auto. destruct Fl as [-> _]. specialize (Hf r Hr). destruct (Nat.eqb _ _); rewrite ?klen_rev; auto. }
  destruct (sep_forward_valid F fuel junk m x ax al kers sts OA PP Pd Hf) as [y [Y1 Y2]].
  destruct (sep_forward_valid F fuel junk' m' x' ax al kers' sts OA' PP' Pd' Hf') as [y' [Y1' Y2']].
  exists y, y'. rewrite Y1, Y1'. split; auto. split; auto.
  pose proof PP as [L1 [L2 [_ L4]]]. pose proof PP' as [L1' _]. destruct OA as [O1 O2 O3].
  apply (corr_mirror a al kers kers' sts x x'); auto. intros r Hr Hk. destruct (L4 r Hr) as [_ [_ [_ Q]]]. auto.
Qed.

(** *** with a same padder *)
Lemma swap_items {A} a al (s s' : nds (A * A)) r : swapped_on a al s s' -> (r < length al)%nat ->
  exists v, item s (length al - 1 - r) = Some v /\ item s' (length al - 1 - r) = Some (if Nat.eqb (nth r al 0%nat) a then swap v else v).
Proof.
  intros [l [l' [E [E' H]]]] Hr. assert (L : length l = length al) by (eapply expand_length; eauto).
  destruct l as [|v0 l0]; [simpl in L; lia|]. set (l := v0 :: l0) in *. exists (nth r l v0).
  rewrite (item_expand _ s l r v0 E Hr), (item_expand _ s' l' r v0 E' Hr). rewrite H by auto. auto.
Qed.
Lemma mirror_values_padder a al (p p' : padder F) ms ws : NoDup al -> padder_for (length al) p ms -> mirror_values a al p p' -> length ws = length al ->
  (forall r, (r < length al)%nat -> nth r al 0%nat = a -> fst (nth r ws (0, 0)) = snd (nth r ws (0, 0))) ->
  mirror_padder a (with_width p ws) (with_width p' ws) al.
Proof.
  intros Nd PF [M1 M2 M3 M4] Lw Hw.
  assert (LA : forall q : padder F, last_axes (with_width q ws) al = al).
  { intros q. unfold last_axes. simpl p_ndim. destruct (Z.ltb_spec 0 (Z.of_nat (length ws))); auto.
    rewrite Nat2Z.id. replace (length al - length ws)%nat with 0%nat by lia. reflexivity. }
  split; [now rewrite !LA|]. rewrite LA. intros d q Hq.
  destruct (in_dec Nat.eq_dec d al) as [Hi|Hi]; [|rewrite axis_par_notin in Hq by auto; discriminate].
  destruct (In_pos d al 0%nat Hi) as [r [Hr Er]]. destruct (nth_split al 0%nat (n := r) Hr) as [l1 [l2 [E El]]]. rewrite Er in E.
  assert (Hna : ~ In d l1). { rewrite E in Nd. apply NoDup_remove_2 in Nd. rewrite in_app_iff in Nd. tauto. }
  assert (L2 : length l2 = (length al - 1 - r)%nat). { rewrite E, app_length. simpl. lia. }
  destruct (swap_items a al _ _ r M2 Hr) as [cv [C1 C2]]. destruct (swap_items a al _ _ r M3 Hr) as [ev [V1 V2]].
  destruct (swap_items a al _ _ r M4 Hr) as [sl [S1 S2]]. rewrite Er in C2, V2, S2.
  assert (Ew : expand (length al) (NList ws) = Some ws) by (simpl; now rewrite Lw, Nat.eqb_refl).
  assert (Q : forall q0 : padder F, params (with_width q0 ws) (length l2) =
     match item (p_mode q0) (length al - 1 - r), item (p_const q0) (length al - 1 - r), item (p_end q0) (length al - 1 - r), item (p_stat q0) (length al - 1 - r) with
     | Some m, Some cv, Some ev, Some sl => Some (mkAP (fst (nth r ws (0, 0))) (snd (nth r ws (0, 0))) m cv ev sl) | _, _, _, _ => None end).
  { intros q0. rewrite L2. unfold params. change (p_width (with_width q0 ws)) with (NList ws). rewrite (item_expand _ _ _ r (0, 0) Ew Hr).
    destruct (nth r ws (0, 0)). reflexivity. }
  rewrite E in Hq |- *. rewrite axis_par_in in Hq |- * by auto. rewrite Q in Hq |- *.
  pose proof (pf_mode _ _ _ PF) as E1. pose proof E1 as E1'. rewrite <- M1 in E1'.
  rewrite (item_expand _ _ _ r MUnknown E1 Hr) in Hq. rewrite (item_expand _ _ _ r MUnknown E1' Hr).
  rewrite C1, V1, S1 in Hq. rewrite C2, V2, S2. injection Hq as <-. f_equal.
  destruct (Nat.eqb_spec d a) as [->|]; auto. unfold swap_par. cbn [ap_before ap_after ap_mode ap_const ap_end ap_stat].
  now rewrite Hw by auto.
Qed.

Theorem pool_same_mirror fuel junk junk' (m m' : pool F) a (x x' : T) ax al kers kers' sts p p' ms :
  built (length al) kers sts (Some p) m -> built (length al) kers' sts (Some p') m' ->
  same_call F fuel p x ax al ms kers sts -> mirror_values a al p p' -> reversed_on a al kers kers' ->
  (forall r c, (r < length al)%nat -> nth r al 0%nat = a -> nth r kers [] <> [] -> is_ceil_div (nth a (shp x) 0) (nth r sts 1) c ->
     let t := (c - 1) * nth r sts 1 + klen (nth r kers []) - nth a (shp x) 0 in 0 <= t /\ t mod 2 = 0) ->
  (forall r, (r < length al)%nat -> nth r al 0%nat = a -> nth r ms MUnknown = MPeriodize -> nth a (shp x) 0 mod 2 = 0) ->
  (a < ndim x)%nat -> flipped a x x' ->
  exists y y', snd (sep_forward fuel junk m x ax) = Ok y /\ snd (sep_forward fuel junk' m' x' ax) = Ok y' /\ flipped a y y'.
Proof.
  intros B B' SC MV Rv Ht Hp Ha Fl.
  destruct (built_par F _ _ _ _ _ B) as [PP [Pd [E1 [E2 _]]]]. destruct (built_par F _ _ _ _ _ B') as [PP' [Pd' [E1' [E2' _]]]].
  pose proof PP as [L1 [L2 [_ L4]]]. pose proof PP' as [L1' _]. pose proof Fl as [Sx _].
  pose proof SC as [OA N0 P0 P1 SS PF FM FU].
  assert (KL : forall r, (r < length al)%nat -> klen (nth r kers' []) = klen (nth r kers [])).
  { intros r Hr. rewrite Rv by auto. destruct (Nat.eqb _ _); auto. apply klen_rev. }
  assert (PF' : padder_for (length al) p' ms).
  { destruct MV as [M1 [c [c' [_ [C _]]]] [e [e' [_ [V _]]]] [s [s' [_ [S _]]]]]. constructor; rewrite ?M1, ?C, ?V, ?S; try discriminate. apply (pf_mode _ _ _ PF). }
  assert (SC' : same_call F fuel p' x' ax al ms kers' sts).
  { constructor; unfold ndim in *; rewrite ?Sx; auto.
    - eapply flip_on_axes; eauto.
    - intros d k Hd [->|[ker [Hk ->]]]; [now apply FU; auto|]. destruct (In_nth kers' ker [] Hk) as [r [Hr <-]].
      apply FU; auto. right. exists (nth r kers []). split; [apply nth_In; lia|]. apply KL. lia. }
  destruct (sep_forward_same F fuel junk m x ax al kers sts p ms PP E1 E2 Pd SC) as [ws [xp [y [W1 [W2 [PC [AF [NE [W6 [W7 [W8 [Ty _]]]]]]]]]]]].
  destruct (sep_forward_same F fuel junk' m' x' ax al kers' sts p' ms PP' E1' E2' Pd' SC') as [ws' [xp' [y' [W1' [W2' [PC' [AF' [NE' [W6' [W7' [W8' [Ty' _]]]]]]]]]]]].
  assert (Ew : ws' = ws).
  { apply nth_ext with (d := (0, 0)) (d' := (0, 0)); [lia|]. intros r Hr. rewrite W1' in Hr. specialize (W2' r Hr). rewrite KL, Sx in W2' by auto.
    eapply same_width_unique; eauto. }
  subst ws'.
  destruct (same_pad_call F fuel p x ax al ms kers sts ws SC W1 L1 W2) as [_ [_ [_ [FL [FN FS]]]]].
  assert (Sym : forall r, (r < length al)%nat -> nth r al 0%nat = a -> fst (nth r ws (0, 0)) = snd (nth r ws (0, 0)) /\
     (nth r kers [] <> [] -> exists c, is_ceil_div (nth a (shp x) 0) (nth r sts 1) c /\
        fst (nth r ws (0, 0)) + nth a (shp x) 0 + snd (nth r ws (0, 0)) - klen (nth r kers []) = (c - 1) * nth r sts 1)).
  { intros r Hr Er. pose proof (W2 r Hr) as W. rewrite Er in W. destruct W as [c [C1 [C2 C3]]].
    destruct (nth r kers []) as [|c0 k0] eqn:Ek.
    - split; [|congruence]. change (klen (@nil F)) with 0 in C2. pose proof (SS r Hr). unfold is_ceil_div in C1. lia.
    - specialize (Ht r c Hr Er). rewrite Ek in Ht. destruct (Ht ltac:(discriminate) C1) as [T1 T2]. cbv zeta in T1, T2.
      split; [|intros _; exists c; split; auto; lia]. 
      set (t := (c - 1) * nth r sts 1 + klen (c0 :: k0) - nth a (shp x) 0) in *.
      rewrite Z.max_r in C2 by lia. pose proof (Z.div_mod t 2). lia. }
  pose proof OA as [O1 O2 O3].
  assert (MP : mirror_padder a (with_width p ws) (with_width p' ws) al) by (eapply mirror_values_padder; eauto; intros; now apply Sym).
  destruct (with_width_par F (length al) p ms ws al PF W1 eq_refl O3) as [LA Q].
  assert (QP : forall d q, axis_par (with_width p ws) (last_axes (with_width p ws) al) d = Some q ->
     exists r, (r < length al)%nat /\ nth r al 0%nat = d /\ ap_mode q = nth r ms MUnknown).
  { intros d q Hq. rewrite LA in Hq. destruct (in_dec Nat.eq_dec d al) as [Hi|Hi]; [|rewrite axis_par_notin in Hq by auto; discriminate].
    destruct (In_pos d al 0%nat Hi) as [r [Hr <-]]. destruct (Q r Hr) as [q' [Q1 [_ [_ Q4]]]]. rewrite Q1 in Hq. injection Hq as <-. eauto. }
  assert (Lm : length ms = length al) by (apply (expand_length _ _ _ (pf_mode _ _ _ PF))).
  destruct (padding_mirror F fuel junk junk' (with_width p ws) (with_width p' ws) a x x' ax al PC AF) as [z [z' [Z1 [Z2 Fz]]]]; auto.
  { intros d q Hq. destruct (QP d q Hq) as [r [Hr [_ ->]]]. apply fills_not_empty, FM, nth_In. lia. }
  { intros q Hq Hm. destruct (QP a q Hq) as [r [Hr [Er Em]]]. rewrite Em in Hm. eauto. }
  rewrite W6 in Z1. injection Z1 as <-. rewrite W6' in Z2. injection Z2 as <-.
  exists y, y'. rewrite W8, W8'. split; auto. split; auto.
  assert (Nx : ndim xp = ndim x) by (unfold ndim; rewrite W7; exact FL).
  apply (corr_mirror a al kers kers' sts xp xp'); auto.
  - now rewrite Nx.
  - intros b Hb. rewrite Nx. auto.
  - intros r Hr Er Hk. pose proof (Sym r Hr Er) as [_ S2]. destruct (S2 Hk) as [c [C1 C2]].
    pose proof (FS r Hr) as E. rewrite <- W7, Er in E. cbv zeta in E.
    assert (E' : nth a (shp xp) 0 = fst (nth r ws (0, 0)) + nth a (shp x) 0 + snd (nth r ws (0, 0))).
    { rewrite E. destruct (_ && _) eqn:Ez; [bdestr; lia|]. destruct (nth r ms MUnknown) eqn:Em; cbn [is_periodize]; try lia. rewrite (Hp r Hr Er Em). lia. }
    rewrite E', C2. apply Z.mod_mul. pose proof (SS r Hr). lia.
Qed.

(** A stride-1 module whose kernel along a is a palindrome of odd length. *)
Theorem filter_mirror fuel junk junk' (m : pool F) a (x x' : T) ax al kers p ms :
  built (length al) kers (repeat 1 (length al)) (Some p) m ->
  same_call F fuel p x ax al ms kers (repeat 1 (length al)) -> mirror_values a al p p ->
  (forall r, (r < length al)%nat -> nth r al 0%nat = a -> rev (nth r kers []) = nth r kers [] /\
     (nth r kers [] = [] \/ klen (nth r kers []) mod 2 = 1) /\
     (nth r ms MUnknown = MPeriodize -> nth a (shp x) 0 mod 2 = 0)) ->
  (a < ndim x)%nat -> flipped a x x' ->
  exists y y', snd (sep_forward fuel junk m x ax) = Ok y /\ snd (sep_forward fuel junk' m x' ax) = Ok y' /\ flipped a y y'.
Proof.
  intros B SC MV H Ha Fl. apply (pool_same_mirror fuel junk junk' m m a x x' ax al kers kers (repeat 1 (length al)) p p ms); auto.
  - intros r Hr. destruct (Nat.eqb_spec (nth r al 0%nat) a) as [E|E]; auto. symmetry. now apply H.
  - intros r c Hr Er Hk Hc. destruct (H r Hr Er) as [_ [[K|K] _]]; [contradiction|]. rewrite nth_repeat in *. unfold is_ceil_div in Hc.
    cbv zeta. assert (c = nth a (shp x) 0) by lia. subst c.
    pose proof (Z.div_mod (klen (nth r kers [])) 2 ltac:(lia)). split.
    + destruct (nth r kers []); [congruence|]. unfold klen. simpl length. lia.
    + replace ((nth a (shp x) 0 - 1) * 1 + klen (nth r kers []) - nth a (shp x) 0) with (klen (nth r kers []) / 2 * 2) by lia. now apply Z.mod_mul.
  - intros r Hr Er. now apply H.
Qed.
Lemma rev_repeat {A} (v : A) n : rev (repeat v n) = repeat v n.
Proof.
  apply nth_ext with (d := v) (d' := v); rewrite ?rev_length; auto. intros k Hk. rewrite repeat_length in Hk.
  rewrite rev_nth by (rewrite repeat_length; lia). now rewrite !nth_repeat.
Qed.
Lemma avg_palindrome k (ker : list F) : avg_kernel_1d k = Ok ker -> rev ker = ker.
Proof. unfold avg_kernel_1d. destruct (k <? 0); [discriminate|]. intros H. injection H as <-. apply rev_repeat. Qed.
End PoolFlip.
