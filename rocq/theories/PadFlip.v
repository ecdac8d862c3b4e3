(** Padding and mirror images. *)
From Coq Require Import Permutation.
From Verif Require Export PadLinear.
From Verif Require Import StatsProofs ReduceProofs.
Open Scope Z_scope.

(** x' is x read backwards along axis a. *)
Definition flipped {F : ofield} (a : nat) (x x' : tensor F) : Prop :=
  shp x' = shp x /\ forall i, valid (shp x) i -> at_ x' i = at_ x (upd a (nth a (shp x) 0 - 1 - nth a i 0) i).
Definition swap {A} (p : A * A) : A * A := (snd p, fst p).
(** The parameters of an axis with before and after exchanged. *)
Definition swap_par {F : ofield} (q : axis_params F) : axis_params F :=
  mkAP (ap_after q) (ap_before q) (ap_mode q) (swap (ap_const q)) (swap (ap_end q)) (swap (ap_stat q)).
(** p' pads the axes al as p does, with before and after exchanged on axis a. *)
Definition mirror_padder {F : ofield} (a : nat) (p p' : padder F) (al : list nat) : Prop :=
  last_axes p' al = last_axes p al /\
  forall d q, axis_par p (last_axes p al) d = Some q ->
    axis_par p' (last_axes p al) d = Some (if Nat.eqb d a then swap_par q else q).

Section Flip.
Variable F : ofield.
Add Field Fflip : (f_field F).
Notation T := (tensor F).

Lemma upd_over {A} n (v : A) l : (length l <= n)%nat -> upd n v l = l.
Proof. revert n. induction l as [|b l IH]; intros [|n] H; simpl in *; auto; try lia. f_equal. apply IH. lia. Qed.
Lemma valid_flip s i a : valid s i -> valid s (upd a (nth a s 0 - 1 - nth a i 0) i).
Proof.
  intros V. pose proof (valid_length _ _ V) as L. destruct (Nat.lt_ge_cases a (length s)) as [H|H]; [|now rewrite upd_over by lia].
  pose proof (valid_nth _ _ a V H). apply (valid_upd_back s i a _ (nth a s 0)); [now rewrite upd_nth|lia].
Qed.
Lemma stat_perm s (l l' : list F) : l <> [] -> Permutation l l' -> stat_fun s l = stat_fun s l'.
Proof.
  intros Hl P. assert (Hl' : l' <> []) by (intros ->; apply Permutation_sym, Permutation_nil in P; auto).
  pose proof (lsort_perm F l) as P1. pose proof (lsort_sorted F l) as S1. pose proof (lsort_perm F l') as P2. pose proof (lsort_sorted F l') as S2.
  assert (E : lsort l = lsort l') by (apply (lsort_unique F); auto; now transitivity l').
  destruct s; cbn [stat_fun].
  - unfold lmean. now rewrite (lsum_perm F l l'), (Permutation_length P).
  - unfold lmedian. now rewrite E, (Permutation_length P).
  - rewrite (max_last F l (lsort l)), (max_last F l' (lsort l')), E; auto.
  - rewrite (min_first F l (lsort l)), (min_first F l' (lsort l')), E; auto.
Qed.

Lemma rev_map_zrange {A} (f : Z -> A) w : rev (map f (zrange w)) = map (fun k => f (w - 1 - k)) (zrange w).
Proof.
  apply nth_ext with (d := f 0) (d' := f 0); [now rewrite rev_length, !map_length|].
  intros k Hk. rewrite rev_length, map_length, zrange_length in Hk.
  rewrite rev_nth by (now rewrite map_length, zrange_length). rewrite map_length, zrange_length.
  rewrite map_nth. rewrite (nth_indep _ (f 0) ((fun k => f (w - 1 - k)) 0)) by (now rewrite map_length, zrange_length).
  rewrite (map_nth (fun k => f (w - 1 - k))). rewrite !nth_zrange by lia. f_equal. lia.
Qed.
Lemma stat_rev s (f g : Z -> F) w : 1 <= w -> (forall k, 0 <= k < w -> g k = f (w - 1 - k)) ->
  stat_fun s (map g (zrange w)) = stat_fun s (map f (zrange w)).
Proof.
  intros Hw H. rewrite (map_ext_in g (fun k => f (w - 1 - k))) by (intros k Hk; apply H; now apply In_zrange).
  rewrite <- rev_map_zrange. symmetry. apply stat_perm; [now apply map_zrange_ne|apply Permutation_rev].
Qed.

(** n - 1 - t modulo p, from t modulo p. *)
Lemma mirror_mod p n t : 0 < p -> n <= p -> 1 <= n -> let m := t mod p in
  (m < n -> (n - 1 - t) mod p = n - 1 - m /\ (n - 1 - t) / p = - (t / p)) /\
  (n <= m -> (n - 1 - t) mod p = p + n - 1 - m /\ (n - 1 - t) / p = - (t / p) - 1).
Proof.
  intros Hp Hn H1 m. subst m. pose proof (Z.div_mod t p ltac:(lia)) as D. pose proof (Z.mod_pos_bound t p Hp) as B. split; intros H.
  - split; symmetry; [apply Z.mod_unique with (- (t / p))|apply Z.div_unique with (n - 1 - t mod p)]; lia.
  - split; symmetry; [apply Z.mod_unique with (- (t / p) - 1)|apply Z.div_unique with (p + n - 1 - t mod p)]; lia.
Qed.

Lemma ext_mirror (m : mode F) pb pa cv ev sl e e' n f t : mode_ext m pb pa cv ev sl = Some e ->
  mode_ext m pa pb (swap cv) (swap ev) (swap sl) = Some e' -> 0 <= n -> 1 <= n \/ m = MConstant -> (m = MPeriodize -> n mod 2 = 0) ->
  e' n (fun u => f (n - 1 - u)) (n - 1 - t) = e n f t.
Proof.
  intros He He' N0 Hn Hp.
  assert (L : 1 <= n -> forall w, 1 <= clip_window n w <= n) by (intros ? [w|]; unfold clip_window; lia).
  destruct m; cbn [mode_ext] in He, He'; try discriminate; injection He as <-; injection He' as <-;
    try (destruct Hn as [Hn|Hn]; [|discriminate]).
  - unfold ext_replicate. f_equal. lia.
  - unfold ext_smooth. destruct (Z.eqb_spec n 1) as [->|N1]; [reflexivity|]. repeat zcase; try lia.
    + replace (n - 1 - 0) with (n - 1) by lia. replace (n - 1 - 1) with (n - 2) by lia.
      replace (t - (n - 1)) with (- (n - 1 - t)) by lia. rewrite fofZ_opp. ring.
    + f_equal. lia.
    + replace (n - 1 - (n - 1)) with 0 by lia. replace (n - 1 - (n - 2)) with 1 by lia. replace (n - 1 - t - (n - 1)) with (- t) by lia.
      rewrite fofZ_opp. ring.
  - unfold ext_circular. pose proof (mirror_mod n n t ltac:(lia) ltac:(lia) Hn) as [A _]. pose proof (Z.mod_pos_bound t n ltac:(lia)).
    destruct A as [A _]; [lia|]. rewrite A. f_equal. lia.
  - specialize (Hp eq_refl). unfold ext_periodize, ext_circular. rewrite Hp. replace (n + 0) with n by lia.
    pose proof (mirror_mod n n t ltac:(lia) ltac:(lia) Hn) as [A _]. pose proof (Z.mod_pos_bound t n ltac:(lia)).
    destruct A as [A _]; [lia|]. rewrite A. repeat zcase; try lia. f_equal. lia.
  - unfold ext_symmetric. pose proof (mirror_mod (2 * n) n t ltac:(lia) ltac:(lia) Hn) as [A B]. pose proof (Z.mod_pos_bound t (2 * n) ltac:(lia)).
    cbv zeta. destruct (Z.ltb_spec (t mod (2 * n)) n).
    + destruct A as [A _]; [lia|]. rewrite A. zcase; [|lia]. f_equal. lia.
    + destruct B as [B _]; [lia|]. rewrite B. zcase; [lia|]. f_equal. lia.
  - unfold ext_reflect. destruct (Z.eqb_spec n 1) as [->|N1]; [reflexivity|].
    pose proof (mirror_mod (2 * n - 2) n t ltac:(lia) ltac:(lia) Hn) as [A B]. pose proof (Z.mod_pos_bound t (2 * n - 2) ltac:(lia)).
    cbv zeta. destruct (Z.ltb_spec (t mod (2 * n - 2)) n).
    + destruct A as [A _]; [lia|]. rewrite A. zcase; [|lia]. f_equal. lia.
    + destruct B as [B _]; [lia|]. rewrite B. zcase; [lia|]. f_equal. lia.
  - unfold ext_antisymmetric. pose proof (mirror_mod (2 * n) n t ltac:(lia) ltac:(lia) Hn) as [A B]. pose proof (Z.mod_pos_bound t (2 * n) ltac:(lia)).
    cbv zeta. destruct (Z.ltb_spec (t mod (2 * n)) n).
    + destruct A as [A _]; [lia|]. rewrite A. zcase; [|lia]. f_equal. lia.
    + destruct B as [B _]; [lia|]. rewrite B. zcase; [lia|]. f_equal. f_equal. lia.
  - unfold ext_odd_reflect. destruct (Z.eqb_spec n 1) as [->|N1]; [reflexivity|].
    pose proof (mirror_mod (2 * n - 2) n t ltac:(lia) ltac:(lia) Hn) as [A B]. pose proof (Z.mod_pos_bound t (2 * n - 2) ltac:(lia)).
    cbv zeta. replace (n - 1 - (n - 1)) with 0 by lia. replace (n - 1 - 0) with (n - 1) by lia. destruct (Z.ltb_spec (t mod (2 * n - 2)) n).
    + destruct A as [A ->]; [lia|]. rewrite A. zcase; [|lia]. replace (n - 1 - (n - 1 - t mod (2 * n - 2))) with (t mod (2 * n - 2)) by lia.
      rewrite fofZ_opp. ring.
    + destruct B as [B ->]; [lia|]. rewrite B. zcase; [lia|].
      replace (n - 1 - (2 * n - 2 - (2 * n - 2 + n - 1 - t mod (2 * n - 2)))) with (2 * n - 2 - t mod (2 * n - 2)) by lia.
      rewrite fofZ_sub, fofZ_opp. change (fofZ 1) with (f1 : F). ring.
  - unfold ext_odd_symmetric. pose proof (mirror_mod (2 * n) n t ltac:(lia) ltac:(lia) Hn) as [A B]. pose proof (Z.mod_pos_bound t (2 * n) ltac:(lia)).
    cbv zeta. replace (n - 1 - (n - 1)) with 0 by lia. replace (n - 1 - 0) with (n - 1) by lia. destruct (Z.ltb_spec (t mod (2 * n)) n).
    + destruct A as [A ->]; [lia|]. rewrite A. zcase; [|lia]. replace (n - 1 - (n - 1 - t mod (2 * n))) with (t mod (2 * n)) by lia.
      rewrite fofZ_opp. ring.
    + destruct B as [B ->]; [lia|]. rewrite B. zcase; [lia|].
      replace (n - 1 - (2 * n - 1 - (2 * n + n - 1 - t mod (2 * n)))) with (2 * n - 1 - t mod (2 * n)) by lia.
      rewrite fofZ_sub, fofZ_opp. change (fofZ 1) with (f1 : F). ring.
  - unfold ext_stat, swap. cbn [fst snd]. cbv zeta. specialize (L Hn). repeat zcase; try lia.
    + symmetry. apply stat_rev; [apply L|]. intros k Hk. f_equal. lia.
    + f_equal. lia.
    + symmetry. apply stat_rev; [apply L|]. intros k Hk. f_equal. lia.
  - unfold ext_constant, swap. cbn [fst snd]. repeat zcase; try lia; auto. f_equal. lia.
  - unfold ext_linear_ramp, swap. cbn [fst snd]. repeat zcase; try lia.
    + replace (n - 1 - 0) with (n - 1) by lia. replace (t - (n - 1)) with (- (n - 1 - t)) by lia. reflexivity.
    + f_equal. lia.
    + replace (n - 1 - (n - 1)) with 0 by lia. replace (n - 1 - t - (n - 1)) with (- t) by lia. reflexivity.
Qed.

Lemma mode_ext_swap (m : mode F) pb pa cv ev sl e : mode_ext m pb pa cv ev sl = Some e ->
  exists e', mode_ext m pa pb (swap cv) (swap ev) (swap sl) = Some e'.
Proof. destruct m; cbn [mode_ext]; try discriminate; eauto. Qed.

Lemma pad1_mirror (q : axis_params F) e e' a pb pa (x x' : T) : (a < length (shp x))%nat -> flipped a x x' ->
  mode_ext (ap_mode q) (ap_before q) (ap_after q) (ap_const q) (ap_end q) (ap_stat q) = Some e ->
  mode_ext (ap_mode q) (ap_after q) (ap_before q) (swap (ap_const q)) (swap (ap_end q)) (swap (ap_stat q)) = Some e' ->
  0 <= nth a (shp x) 0 -> 1 <= nth a (shp x) 0 \/ ap_mode q = MConstant -> (ap_mode q = MPeriodize -> nth a (shp x) 0 mod 2 = 0) ->
  flipped a (pad1 e a pb pa x) (pad1 e' a pa pb x').
Proof.
  intros Ha [S1 E] He He' N0 Hn Hp. unfold pad1, flipped. cbn [shp at_]. rewrite S1. set (n := nth a (shp x) 0) in *. split; [f_equal; lia|].
  intros j V. assert (La : length j = length (shp x)) by (apply valid_length in V; rewrite upd_length in V; lia).
  rewrite !nth_upd_eq by (try rewrite La; auto).
  replace (pb + n + pa - 1 - nth a j 0 - pb) with (n - 1 - (nth a j 0 - pa)) by lia.
  rewrite <- (ext_mirror _ _ _ _ _ _ _ _ n _ _ He He' N0 Hn Hp). replace (n - 1 - (n - 1 - (nth a j 0 - pa))) with (nth a j 0 - pa) by lia.
  apply (mode_ext_extl F _ _ _ _ _ _ _ _ He').
  { destruct Hn as [Hn|Hn]; auto. right. now rewrite Hn. }
  intros u Hu. assert (V' : valid (shp x) (upd a u j)) by (eapply valid_upd_back; eauto).
  rewrite E by auto. fold n. rewrite nth_upd_eq by (rewrite La; auto). now rewrite !upd_upd.
Qed.
Lemma pad1_other (q : axis_params F) e a d pb pa (x x' : T) : (a < length (shp x))%nat -> (d < length (shp x))%nat -> d <> a -> flipped a x x' ->
  mode_ext (ap_mode q) (ap_before q) (ap_after q) (ap_const q) (ap_end q) (ap_stat q) = Some e ->
  1 <= nth d (shp x) 0 \/ ap_mode q = MConstant -> flipped a (pad1 e d pb pa x) (pad1 e d pb pa x').
Proof.
  intros Ha Hd N [S1 E] He Hn. unfold pad1, flipped. cbn [shp at_]. rewrite S1. split; [reflexivity|].
  intros j V. rewrite (nth_upd_ne d a) by auto. rewrite (nth_upd_ne a d) by auto.
  apply (mode_ext_extl F _ _ _ _ _ _ _ _ He).
  { destruct Hn as [Hn|Hn]; auto. right. now rewrite Hn. }
  intros u Hu. rewrite E by (eapply valid_upd_back; eauto). rewrite (nth_upd_ne d a) by auto. now rewrite upd_comm by auto.
Qed.

Lemma spec_axis_mirror (q : axis_params F) a (x x' s : T) : (a < length (shp x))%nat -> flipped a x x' -> 0 <= nth a (shp x) 0 ->
  is_empty_mode F (ap_mode q) = false -> (ap_mode q = MPeriodize -> nth a (shp x) 0 mod 2 = 0) -> spec_axis q a x = Some s ->
  exists s', spec_axis (swap_par q) a x' = Some s' /\ flipped a s s'.
Proof.
  intros Ha Fl N0 Ne Hp H. pose proof Fl as [S1 _]. unfold spec_axis in *. cbn [swap_par ap_before ap_after ap_mode ap_const ap_end ap_stat].
  rewrite (andb_comm (0 <=? ap_after q)), (andb_comm (ap_after q =? 0)), S1.
  destruct (negb _); [discriminate|]. destruct (_ && _); [inv H; eauto|].
  destruct ((nth a (shp x) 0 <=? 0) && negb (empty_ok (ap_mode q))) eqn:En; [discriminate|].
  assert (Hn : 1 <= nth a (shp x) 0 \/ ap_mode q = MConstant).
  { apply andb_false_iff in En. destruct En as [En|En]; [left; apply Z.leb_gt in En; lia|].
    apply negb_false_iff in En. destruct (ap_mode q); try discriminate; auto. }
  assert (G : forall e, mode_ext (ap_mode q) (ap_before q) (ap_after q) (ap_const q) (ap_end q) (ap_stat q) = Some e ->
    exists s', match mode_ext (ap_mode q) (ap_after q) (ap_before q) (swap (ap_const q)) (swap (ap_end q)) (swap (ap_stat q)) with
      | Some e' => Some (pad1 e' a (ap_after q) (ap_before q + parity_slot (ap_mode q) (nth a (shp x) 0)) x')
      | None => None end = Some s' /\ flipped a (pad1 e a (ap_before q) (ap_after q + parity_slot (ap_mode q) (nth a (shp x) 0)) x) s').
  { intros e He. destruct (mode_ext_swap _ _ _ _ _ _ _ He) as [e' He']. rewrite He'. eexists. split; [reflexivity|].
    assert (P0 : parity_slot (ap_mode q) (nth a (shp x) 0) = 0) by (destruct (ap_mode q); auto; now apply Hp).
    rewrite P0, !Z.add_0_r. eapply pad1_mirror; eauto. }
  destruct (mode_ext (ap_mode q) (ap_before q) (ap_after q) (ap_const q) (ap_end q) (ap_stat q)) as [e|] eqn:He;
    [|destruct (ap_mode q); discriminate].
  destruct (G e eq_refl) as [s' [G1 G2]]. exists s'.
  destruct (ap_mode q) eqn:Em; cbn [is_empty_mode] in Ne; try discriminate; cbn [mode_ext] in He; try discriminate; injection He as <-;
    injection H as <-; exact (conj G1 G2).
Qed.
Lemma spec_axis_mirror_other (q : axis_params F) a d (x x' s : T) : (a < length (shp x))%nat -> (d < length (shp x))%nat -> d <> a -> flipped a x x' ->
  spec_axis q d x = Some s -> exists s', spec_axis q d x' = Some s' /\ flipped a s s'.
Proof.
  intros Ha Hd N Fl H. pose proof Fl as [S1 _].
  destruct (spec_axis_cases F q d x s H) as [[-> G]|[e [pa [He [B1 [B2 [B3 [_ [Hn [-> G]]]]]]]]]].
  - exists x'. auto.
  - eexists. split; [apply G; auto|]. eapply pad1_other; eauto.
Qed.

Lemma spec_axis_nonneg (q : axis_params F) a (x s : T) : (a < length (shp x))%nat -> 0 <= nth a (shp x) 0 -> spec_axis q a x = Some s -> 0 <= nth a (shp s) 0.
Proof.
  intros Ha N0 H. destruct (spec_axis_cases F q a x s H) as [[-> _]|[e [pa [_ [B1 [B2 [_ [_ [_ [-> _]]]]]]]]]]; auto.
  unfold pad1. cbn [shp]. rewrite nth_upd_eq by auto. lia.
Qed.
Lemma spec_axes_mirror (p p' : padder F) a : forall rest (x x' s : T), NoDup rest ->
  (forall d, In d rest -> (d < length (shp x))%nat) -> (a < length (shp x))%nat -> 0 <= nth a (shp x) 0 ->
  (forall d q, axis_par p rest d = Some q -> axis_par p' rest d = Some (if Nat.eqb d a then swap_par q else q) /\
     is_empty_mode F (ap_mode q) = false /\ (d = a -> ap_mode q = MPeriodize -> nth a (shp x) 0 mod 2 = 0)) ->
  flipped a x x' -> spec_axes p x rest = Some s ->
  exists s', spec_axes p' x' rest = Some s' /\ flipped a s s'.
Proof.
  induction rest as [|c rest IH]; intros x x' s Hn Hl Ha N0 H Fl Hs; cbn [spec_axes] in *.
  - inv Hs. eauto.
  - inv Hn. destruct (params p (length rest)) as [q|] eqn:Hq; [|discriminate].
    destruct (spec_axis q c x) as [x1|] eqn:Hx; [|discriminate].
    pose proof (H c q) as Hc. simpl in Hc. rewrite Nat.eqb_refl in Hc. destruct (Hc Hq) as (P' & Ne & Hp). rewrite P'.
    assert (St : exists x1', spec_axis (if Nat.eqb c a then swap_par q else q) c x' = Some x1' /\ flipped a x1 x1').
    { destruct (Nat.eqb_spec c a) as [->|N]; [eapply spec_axis_mirror; eauto|].
      eapply spec_axis_mirror_other; eauto. apply Hl. now left. }
    destruct St as (x1' & E1 & Fl1). rewrite E1.
    apply (IH x1 x1'); auto.
    + intros d Hd. rewrite (spec_axis_length F _ _ _ _ Hx). apply Hl. now right.
    + rewrite (spec_axis_length F _ _ _ _ Hx). auto.
    + destruct (Nat.eqb_spec c a) as [->|N]; [eapply spec_axis_nonneg; eauto|]. now rewrite (spec_axis_shape F _ _ _ _ _ Hx) by auto.
    + intros d q' Hd. assert (d <> c). { intros ->. rewrite axis_par_notin in Hd by auto. discriminate. }
      specialize (H d q'). simpl in H. destruct (Nat.eqb_spec d c); [contradiction|]. specialize (H Hd).
      destruct H as (H1' & H2' & H3'). repeat split; auto. intros -> Hm. rewrite (spec_axis_shape F _ _ _ _ _ Hx) by auto. auto.
Qed.

(** out_shape of the mirrored padder. *)
Lemma mirror_call fuel (p p' : padder F) a (x x' : T) ax al : pad_call fuel p x ax al -> mirror_padder a p p' al -> shp x' = shp x ->
  (forall d q, axis_par p (last_axes p al) d = Some q -> d = a -> ap_mode q = MPeriodize -> nth a (shp x) 0 mod 2 = 0) ->
  (forall d, In d (last_axes p al) -> exists q, axis_par p (last_axes p al) d = Some q) ->
  pad_call fuel p' x' ax al.
Proof.
  intros PC [L M] S1 Hp Ex. pose proof PC as [C1 C2 C3 C4 C5 C6]. constructor; unfold ndim in *; rewrite ?S1; auto.
  intros d Hd. specialize (C6 d Hd). rewrite (out_shape_par F p) in C6 by auto. rewrite (out_shape_par F p') by auto. rewrite L.
  destruct (axis_par p (last_axes p al) d) as [q|] eqn:E.
  - rewrite (M d q E). destruct (Nat.eqb_spec d a) as [->|N]; auto. unfold step_after in *. cbn [swap_par ap_before ap_after ap_mode].
    rewrite (andb_comm (ap_after q =? 0)). destruct (_ && _) eqn:Ez; [bdestr; lia|].
    assert (P0 : parity_slot (ap_mode q) (nth a (shp x) 0) = 0) by (specialize (Hp a q E eq_refl); destruct (ap_mode q); auto; now apply Hp).
    lia.
  - destruct (in_dec Nat.eq_dec d (last_axes p al)) as [I|I]; [destruct (Ex d I); congruence|].
    rewrite axis_par_notin by auto. auto.
Qed.

Theorem padding_mirror fuel junk junk' (p p' : padder F) a (x x' : T) ax al : pad_call fuel p x ax al -> all_fine F p x al ->
  (forall d q, axis_par p (last_axes p al) d = Some q -> is_empty_mode F (ap_mode q) = false) ->
  (forall q, axis_par p (last_axes p al) a = Some q -> ap_mode q = MPeriodize -> nth a (shp x) 0 mod 2 = 0) ->
  (a < ndim x)%nat -> mirror_padder a p p' al -> flipped a x x' ->
  exists y y', padder_forward fuel junk p x ax = Ok y /\ padder_forward fuel junk' p' x' ax = Ok y' /\ flipped a y y'.
Proof.
  intros PC AF NE Hp Ha MP Fl. pose proof MP as [L M]. pose proof Fl as [S1 _].
  destruct (pad_spec_some F p x al (pc_nodup _ _ _ _ _ PC) AF) as [s Hs].
  assert (ND : NoDup (last_axes p al)) by (apply last_axes_nodup, (pc_nodup _ _ _ _ _ PC)).
  destruct (spec_axes_mirror p p' a (last_axes p al) x x' s) as [s' [Hs' Fl']]; auto.
  { intros d Hd. apply (pc_lt _ _ _ _ _ PC). eapply last_axes_in; eauto. }
  { apply (pc_shape _ _ _ _ _ PC). auto. }
  { intros d q Hq. split; [now apply M|]. split; [eapply NE; eauto|]. intros ->. now apply Hp. }
  assert (PC' : pad_call fuel p' x' ax al).
  { apply (mirror_call fuel p p' a x x' ax al); auto.
    - intros d q Hq -> Hm. eapply Hp; eauto.
    - intros d Hd. destruct (AF d Hd) as [q [Hq _]]. eauto. }
  assert (NE1 : no_empty_mode F p al) by (apply no_empty_by_par; auto; intros d q _ Hq; eapply NE; eauto).
  assert (NE2 : no_empty_mode F p' al).
  { apply no_empty_by_par; [now rewrite L|]. rewrite L. intros d q Hd Hq. destruct (AF d Hd) as [q0 [Hq0 _]]. rewrite (M d q0 Hq0) in Hq.
    injection Hq as <-. pose proof (NE d q0 Hq0). destruct (Nat.eqb d a); auto. }
  destruct (forward_call F fuel junk p x s ax al PC Hs) as [y [Y1 [_ [_ Y2]]]].
  assert (Hs2 : pad_spec p' x' al = Some s') by (unfold pad_spec; now rewrite L).
  destruct (forward_call F fuel junk' p' x' s' ax al PC' Hs2) as [y' [Z1 [_ [_ Z2]]]].
  exists y, y'. split; [auto|]. split; [auto|]. destruct (Y2 NE1) as [A1 A2], (Z2 NE2) as [B1 B2], Fl' as [E1 E2].
  split; [congruence|]. intros i V. rewrite B2 by (rewrite B1, E1, <- A1; auto). rewrite E2 by (rewrite <- A1; auto). rewrite A2; rewrite A1 in *; auto.
  apply valid_flip. auto.
Qed.
End Flip.
