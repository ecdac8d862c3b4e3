(** Sums and means over axes and the mse of images whose entries along one axis are put in another order (C128). *)
From Coq Require Import Permutation.
From Verif Require Export ReduceFlip FilterCopy.
Open Scope Z_scope.

(** p puts the numbers 0, ..., n-1 in another order; q undoes it. *)
Definition reorders (n : Z) (p q : Z -> Z) : Prop :=
  forall t, 0 <= t < n -> (0 <= p t < n /\ q (p t) = t) /\ (0 <= q t < n /\ p (q t) = t).
(** x' is x with the coordinate t along axis a taken from p t. *)
Definition reordered {F : ofield} (a : nat) (p : Z -> Z) (x x' : tensor F) : Prop :=
  shp x' = shp x /\ forall i, valid (shp x) i -> at_ x' i = at_ x (upd a (p (nth a i 0)) i).
(** The same for a result with the axes al removed: nothing changes if a was one of them. *)
Definition reordered_out {F : ofield} (al : list nat) (a : nat) (p : Z -> Z) (y y' : tensor F) : Prop :=
  (In a al -> teq y y') /\ (~ In a al -> reordered (rank al a) p y y').

Definition take_from (a : nat) (p : Z -> Z) (i : list Z) : list Z := upd a (p (nth a i 0)) i.
Definition take_out (al : list nat) (a : nat) (p : Z -> Z) (j : list Z) : list Z := if memb a al then j else take_from (rank al a) p j.

Lemma reorders_sym n p q : reorders n p q -> reorders n q p.
Proof. intros H t Ht. destruct (H t Ht). split; auto. Qed.
Lemma take_valid s a p q i : (a < length s)%nat -> reorders (nth a s 0) p q -> valid s i -> valid s (take_from a p i).
Proof.
  intros Ha R V. unfold take_from. apply (valid_upd_back s i a _ (nth a s 0)); [now rewrite upd_nth|]. apply R. apply valid_nth; auto.
Qed.
Lemma take_back s a p q i : (a < length s)%nat -> reorders (nth a s 0) p q -> valid s i -> take_from a q (take_from a p i) = i.
Proof.
  intros Ha R V. pose proof (valid_length _ _ V) as L. unfold take_from. rewrite nth_upd_eq by lia. rewrite upd_upd.
  destruct (R (nth a i 0)) as [[_ ->] _]; [apply valid_nth; auto|]. apply upd_nth.
Qed.
Lemma outside_take al a p i : (a < length i)%nat -> outside al (take_from a p i) = take_out al a p (outside al i).
Proof.
  intros Ha. unfold take_out. destruct (memb a al) eqn:M; [apply memb_in in M; now apply outside_upd_in|]. apply memb_out in M. unfold take_from.
  rewrite outside_upd_out by auto. destruct (outside_rank al a i) as [_ ->]; auto.
Qed.
Lemma out_valid s al a p q j : (a < length s)%nat -> reorders (nth a s 0) p q -> valid (outside al s) j -> valid (outside al s) (take_out al a p j).
Proof.
  intros Ha R V. unfold take_out. destruct (memb a al) eqn:M; auto. apply memb_out in M. destruct (outside_rank al a s) as [L E]; auto.
  apply (take_valid _ _ p q); auto. now rewrite E.
Qed.
Lemma out_back s al a p q j : (a < length s)%nat -> reorders (nth a s 0) p q -> valid (outside al s) j -> take_out al a q (take_out al a p j) = j.
Proof.
  intros Ha R V. unfold take_out. destruct (memb a al) eqn:M; auto. apply memb_out in M. destruct (outside_rank al a s) as [L E]; auto.
  apply (take_back (outside al s) _ p q); auto. now rewrite E.
Qed.
Lemma block_take s al a p q j L : (a < length s)%nat -> reorders (nth a s 0) p q -> valid (outside al s) j ->
  block_of s al j L -> block_of s al (take_out al a p j) (map (take_from a p) L).
Proof.
  intros Ha R Vj [N H]. split.
  - clear Vj. assert (HV : forall i, In i L -> valid s i) by (intros i Hi; apply H in Hi; tauto). clear H.
    induction L as [|i L IH]; cbn; [constructor|]. inversion N as [|? ? N1 N2]. subst. constructor; [|apply IH; auto; intros; apply HV; now right].
    intros Hi. apply in_map_iff in Hi. destruct Hi as [i' [E Hi']]. apply N1.
    rewrite <- (take_back s a p q i Ha R) by (apply HV; now left). rewrite <- E. rewrite (take_back s a p q i' Ha R) by (apply HV; now right). exact Hi'.
  - intros i. rewrite in_map_iff. split.
    + intros [i' [<- Hi']]. apply H in Hi'. destruct Hi' as [V <-]. split; [eapply take_valid; eauto|]. apply outside_take. apply valid_length in V. lia.
    + pose proof (reorders_sym _ _ _ R) as R'. intros [V E]. exists (take_from a q i). split; [eapply take_back; eauto|]. apply H. split; [eapply take_valid; eauto|].
      rewrite outside_take by (apply valid_length in V; lia). rewrite E. eapply out_back; eauto.
Qed.

Section RS.
Variable F : ofield.
Add Field Frsh : (f_field F).
Notation T := (tensor F).

Lemma shifted_reordered a s (x x' : T) : shifted a s x x' <-> reordered a (fun t => (t + s) mod nth a (shp x) 0) x x'.
Proof. split; intros [S V]; split; auto. Qed.
Lemma flipped_reordered a (x x' : T) : flipped a x x' <-> reordered a (fun t => nth a (shp x) 0 - 1 - t) x x'.
Proof. split; intros [S V]; split; auto. Qed.
Lemma shift_reorders n s : reorders n (fun t => (t + s) mod n) (fun t => (t - s) mod n).
Proof.
  intros t Ht. split; (split; [apply Z.mod_pos_bound; lia|]).
  - rewrite Zminus_mod_idemp_l. replace (t + s - s) with t by lia. apply Z.mod_small; auto.
  - rewrite Zplus_mod_idemp_l. replace (t - s + s) with t by lia. apply Z.mod_small; auto.
Qed.
Lemma mirror_reorders n : reorders n (fun t => n - 1 - t) (fun t => n - 1 - t).
Proof. intros t Ht. lia. Qed.

Lemma reordered_out_intro (s : list Z) al a p (y y' : T) : (a < length s)%nat -> shp y = outside al s -> shp y' = outside al s ->
  (forall j, valid (outside al s) j -> at_ y' j = at_ y (take_out al a p j)) -> reordered_out al a p y y'.
Proof.
  intros Ha S S' H. split; intros Hi.
  - split; [congruence|]. intros j Vj. rewrite H by congruence. unfold take_out. apply memb_in in Hi. now rewrite Hi.
  - split; [congruence|]. intros j Vj. rewrite H by congruence. unfold take_out. apply memb_out in Hi. now rewrite Hi.
Qed.
Lemma block_sum_take s al a p q (x x' : T) j L L' : shp x = s -> (a < length s)%nat -> reorders (nth a s 0) p q -> reordered a p x x' ->
  valid (outside al s) j -> block_of s al j L -> block_of s al (take_out al a p j) L' -> lsum (map (at_ x') L) = lsum (map (at_ x) L').
Proof.
  intros Hs Ha R [Sx Vx] Vj B B'. pose proof (block_take s al a p q j L Ha R Vj B) as Bf.
  transitivity (lsum (map (at_ x) (map (take_from a p) L))).
  - rewrite map_map. apply lsum_ext. intros i Hi. apply B in Hi. destruct Hi as [V _]. rewrite Vx by now rewrite Hs. reflexivity.
  - apply lsum_perm, Permutation_map. destruct Bf as [N1 H1]. destruct B' as [N2 H2]. apply NoDup_Permutation; auto. intros i. rewrite H1, H2. reflexivity.
Qed.
Theorem tsum_reordered (x x' : T) al a p q : (forall d, In d al -> (d < ndim x)%nat) -> NoDup al -> (a < ndim x)%nat ->
  reorders (nth a (shp x) 0) p q -> reordered a p x x' ->
  exists y y', tsum x (map Z.of_nat al) false = Ok y /\ tsum x' (map Z.of_nat al) false = Ok y' /\ reordered_out (reduced (ndim x) al) a p y y'.
Proof.
  intros H N Ha R Fl. pose proof Fl as [Sx _]. assert (Nx : ndim x' = ndim x) by (unfold ndim; now rewrite Sx).
  destruct (tsum_ok F x al false H N) as [y [Y1 [Y2 Y3]]]. destruct (tsum_ok F x' al false) as [y' [Y1' [Y2' Y3']]]; auto; [now rewrite Nx|]. rewrite Nx, Sx in *.
  exists y, y'. split; auto. split; auto. apply (reordered_out_intro (shp x)); auto. intros j Vj.
  rewrite (Y3' j _ (block_ok _ _ j)), (Y3 _ _ (block_ok _ _ (take_out (reduced (ndim x) al) a p j))).
  eapply block_sum_take; eauto; apply block_ok.
Qed.
Theorem tmean_reordered (x x' : T) al a p q : (forall d, In d al -> (d < ndim x)%nat) -> NoDup al -> (forall d, In d (reduced (ndim x) al) -> 0 < nth d (shp x) 0) ->
  (a < ndim x)%nat -> reorders (nth a (shp x) 0) p q -> reordered a p x x' ->
  exists y y', tmean x (map Z.of_nat al) false = Ok y /\ tmean x' (map Z.of_nat al) false = Ok y' /\ reordered_out (reduced (ndim x) al) a p y y'.
Proof.
  intros H N Hp Ha R Fl. pose proof Fl as [Sx _]. assert (Nx : ndim x' = ndim x) by (unfold ndim; now rewrite Sx).
  destruct (tmean_ok F x al false H N Hp) as [y [Y1 [Y2 Y3]]]. destruct (tmean_ok F x' al false) as [y' [Y1' [Y2' Y3']]]; auto; [now rewrite Nx|now rewrite Nx, Sx|]. unfold red_count in *. rewrite Nx, Sx in *.
  exists y, y'. split; auto. split; auto. apply (reordered_out_intro (shp x)); auto. intros j Vj.
  rewrite (Y3' j _ (block_ok _ _ j)), (Y3 _ _ (block_ok _ _ (take_out (reduced (ndim x) al) a p j))). f_equal.
  eapply block_sum_take; eauto; apply block_ok.
Qed.
(** The mse of two images reordered alike. *)
Theorem mse_reordered r (u v u' v' : T) ax al a p q : on_axes u ax al -> shp u = shp v -> (a < ndim u)%nat ->
  reorders (nth a (shp u) 0) p q -> reordered a p u u' -> reordered a p v v' ->
  match r with
  | RNone => exists d d', mse_forward r u v ax = Ok d /\ mse_forward r u' v' ax = Ok d' /\ reordered a p d d'
  | RSum => exists y y', mse_forward r u v ax = Ok y /\ mse_forward r u' v' ax = Ok y' /\ reordered_out (reduced (ndim u) al) a p y y'
  | RMean => (forall d, In d (reduced (ndim u) al) -> 0 < nth d (shp u) 0) ->
      exists y y', mse_forward r u v ax = Ok y /\ mse_forward r u' v' ax = Ok y' /\ reordered_out (reduced (ndim u) al) a p y y'
  | ROther => mse_forward r u v ax = Err ValueError /\ mse_forward r u' v' ax = Err ValueError
  end.
Proof.
  intros [A1 A2 A3] E Ha R [Su Vu] [Sv Vv]. unfold mse_forward, metric_forward. rewrite Su, Sv, E, seqb_refl. cbn [assertb bind].
  assert (Nu : ndim u' = ndim u) by (unfold ndim; congruence). rewrite Nu, A1. cbn [bind].
  destruct (mse_full_ok F u v E) as [d [D1 [D2 D3]]]. destruct (mse_full_ok F u' v') as [d' [D1' [D2' D3']]]; [congruence|]. rewrite D1, D1'. cbn [bind].
  assert (Fd : reordered a p d d').
  { split; [congruence|]. intros i Vi. rewrite D2 in *. rewrite D3' by congruence. fold (take_from a p i). rewrite D3 by (eapply take_valid; eauto).
    rewrite Vu by auto. rewrite Vv by congruence. reflexivity. }
  assert (Nd : ndim d = ndim u) by (unfold ndim; congruence).
  destruct r; cbn [metric_reduce].
  - intros Hp. rewrite <- Nd. apply (tmean_reordered d d' al a p q); auto; rewrite ?Nd, ?D2; auto; now rewrite E.
  - rewrite <- Nd. apply (tsum_reordered d d' al a p q); auto; rewrite ?Nd, ?D2; auto; now rewrite E.
  - eauto.
  - auto.
Qed.
End RS.
