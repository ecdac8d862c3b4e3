(** Sums and means over axes, the mse and mirror images. *)
From Coq Require Import Permutation.
From Verif Require Export MseProofs PoolFlip.
Open Scope Z_scope.

Definition memb (a : nat) (al : list nat) : bool := existsb (Nat.eqb a) al.
(** The position of axis a among the axes that are not in al. *)
Definition rank (al : list nat) (a : nat) : nat := length (filter (fun d => negb (memb d al)) (seq 0 a)).
(** y' is the result y seen in a mirror along axis a of the unreduced image: y itself if a is one of the
    reduced axes al. *)
Definition flipped_out {F : ofield} (al : list nat) (a : nat) (y y' : tensor F) : Prop :=
  (In a al -> teq y y') /\ (~ In a al -> flipped (rank al a) y y').

Lemma memb_in a al : memb a al = true <-> In a al.
Proof. unfold memb. rewrite existsb_exists. split; [intros [b [H E]]; apply Nat.eqb_eq in E; now subst|intros H; exists a; split; auto; apply Nat.eqb_refl]. Qed.
Lemma memb_out a al : memb a al = false <-> ~ In a al.
Proof. rewrite <- memb_in. destruct (memb a al); split; congruence. Qed.
Lemma outside_split al a i : (a < length i)%nat -> ~ In a al ->
  outside al i = map (fun d => nth d i 0) (filter (fun d => negb (memb d al)) (seq 0 a)) ++ nth a i 0 :: map (fun d => nth d i 0) (filter (fun d => negb (memb d al)) (seq (S a) (length i - S a))).
Proof.
  intros Ha Hn. unfold outside. change (fun d => negb (existsb (Nat.eqb d) al)) with (fun d => negb (memb d al)).
  replace (length i) with (a + S (length i - S a))%nat at 1 by lia. rewrite seq_app, filter_app, map_app. cbn [seq filter plus]. apply memb_out in Hn. rewrite Hn. reflexivity.
Qed.
Lemma outside_upd_in al a v i : In a al -> outside al (upd a v i) = outside al i.
Proof.
  intros H. unfold outside. rewrite upd_length. apply map_ext_in. intros d Hd. apply filter_In in Hd. destruct Hd as [_ Hd]. apply nth_upd_ne. intros ->.
  apply memb_in in H. unfold memb in H. rewrite H in Hd. discriminate.
Qed.
Lemma outside_rank al a i : (a < length i)%nat -> ~ In a al -> (rank al a < length (outside al i))%nat /\ nth (rank al a) (outside al i) 0 = nth a i 0.
Proof.
  intros Ha Hn. rewrite (outside_split al a i Ha Hn). unfold rank. rewrite app_length. cbn [length]. rewrite map_length. split; [lia|].
  rewrite app_nth2 by (rewrite map_length; lia). rewrite map_length, Nat.sub_diag. reflexivity.
Qed.
Lemma upd_app {A} (l : list A) b m v : upd (length l) v (l ++ b :: m) = l ++ v :: m.
Proof. induction l as [|c l IH]; cbn; [reflexivity|]. now rewrite IH. Qed.
Lemma outside_upd_out al a v i : (a < length i)%nat -> ~ In a al -> outside al (upd a v i) = upd (rank al a) v (outside al i).
Proof.
  intros Ha Hn. rewrite (outside_split al a (upd a v i)) by (rewrite ?upd_length; auto). rewrite (outside_split al a i Ha Hn).
  rewrite nth_upd_eq by auto. rewrite upd_length. unfold rank. rewrite <- (map_length (fun d => nth d i 0)).
  rewrite upd_app. f_equal; [|f_equal]; apply map_ext_in; intros d Hd; apply filter_In in Hd; destruct Hd as [Hd _]; apply in_seq in Hd; apply nth_upd_ne; lia.
Qed.
Definition flip (s : list Z) (a : nat) (i : list Z) : list Z := upd a (nth a s 0 - 1 - nth a i 0) i.
Lemma flip_flip s a i : flip s a (flip s a i) = i.
Proof.
  unfold flip. destruct (Nat.lt_ge_cases a (length i)) as [H|H].
  - rewrite nth_upd_eq by auto. rewrite upd_upd. replace (nth a s 0 - 1 - (nth a s 0 - 1 - nth a i 0)) with (nth a i 0) by lia. apply upd_nth.
  - rewrite !upd_over; auto. rewrite upd_over; auto.
Qed.
(** The index of the reduced image that corresponds to j. *)
Definition flip_out (s : list Z) (al : list nat) (a : nat) (j : list Z) : list Z := if memb a al then j else flip (outside al s) (rank al a) j.
Lemma outside_flip s al a i : length i = length s -> (a < length s)%nat -> outside al (flip s a i) = flip_out s al a (outside al i).
Proof.
  intros Hl Ha. unfold flip_out. destruct (memb a al) eqn:M; [apply memb_in in M; now apply outside_upd_in|]. apply memb_out in M. unfold flip.
  rewrite outside_upd_out by (auto; congruence). destruct (outside_rank al a s) as [_ ->]; auto. destruct (outside_rank al a i) as [_ ->]; auto; congruence.
Qed.
Lemma flip_out_invol s al a j : flip_out s al a (flip_out s al a j) = j.
Proof. unfold flip_out. destruct (memb a al); auto. apply flip_flip. Qed.
Lemma block_flip s al a j L : (a < length s)%nat -> block_of s al j L -> block_of s al (flip_out s al a j) (map (flip s a) L).
Proof.
  intros Ha [N H]. split.
  - apply FinFun.Injective_map_NoDup; auto. intros u v E. rewrite <- (flip_flip s a u), E. apply flip_flip.
  - intros i. rewrite in_map_iff. split.
    + intros [i' [<- Hi']]. apply H in Hi'. destruct Hi' as [V <-]. split; [now apply valid_flip|]. apply outside_flip; auto. now apply valid_length in V.
    + intros [V E]. exists (flip s a i). split; [apply flip_flip|]. apply H. split; [now apply valid_flip|].
      rewrite outside_flip by (auto; now apply valid_length in V). rewrite E. apply flip_out_invol.
Qed.

Section RF.
Variable F : ofield.
Add Field Frflip : (f_field F).
Notation T := (tensor F).

Lemma flipped_out_intro (s : list Z) al a (y y' : T) : (a < length s)%nat -> shp y = outside al s -> shp y' = outside al s ->
  (forall j, at_ y' j = at_ y (flip_out s al a j)) -> flipped_out al a y y'.
Proof.
  intros Ha S S' H. split; intros Hi.
  - split; [congruence|]. intros j Vj. rewrite H. unfold flip_out. apply memb_in in Hi. now rewrite Hi.
  - split; [congruence|]. intros j Vj. rewrite H, S. unfold flip_out. apply memb_out in Hi. now rewrite Hi.
Qed.
Lemma block_sum_flip s al a (x x' : T) j L L' : shp x = s -> (a < length s)%nat -> flipped a x x' ->
  block_of s al j L -> block_of s al (flip_out s al a j) L' -> lsum (map (at_ x') L) = lsum (map (at_ x) L').
Proof.
  intros Hs Ha [Sx Vx] B B'. pose proof (block_flip s al a j L Ha B) as Bf.
  transitivity (lsum (map (at_ x) (map (flip s a) L))).
  - rewrite map_map. apply lsum_ext. intros i Hi. apply B in Hi. destruct Hi as [V _]. rewrite Vx by now rewrite Hs. rewrite Hs. reflexivity.
  - apply lsum_perm, Permutation_map. destruct Bf as [N1 H1]. destruct B' as [N2 H2]. apply NoDup_Permutation; auto. intros i. rewrite H1, H2. reflexivity.
Qed.
(** sum and mean over distinct axes of an image and its mirror image *)
Theorem tsum_flip (x x' : T) al a : (forall d, In d al -> (d < ndim x)%nat) -> NoDup al -> (a < ndim x)%nat -> flipped a x x' ->
  exists y y', tsum x (map Z.of_nat al) false = Ok y /\ tsum x' (map Z.of_nat al) false = Ok y' /\ flipped_out (reduced (ndim x) al) a y y'.
Proof.
  intros H N Ha Fl. pose proof Fl as [Sx _]. assert (Nx : ndim x' = ndim x) by (unfold ndim; now rewrite Sx).
  destruct (tsum_ok F x al false H N) as [y [Y1 [Y2 Y3]]]. destruct (tsum_ok F x' al false) as [y' [Y1' [Y2' Y3']]]; auto; [now rewrite Nx|]. rewrite Nx, Sx in *.
  exists y, y'. split; auto. split; auto. apply (flipped_out_intro (shp x)); auto. intros j.
  rewrite (Y3' j _ (block_ok _ _ j)), (Y3 _ _ (block_ok _ _ (flip_out (shp x) (reduced (ndim x) al) a j))).
  eapply block_sum_flip; eauto; apply block_ok.
Qed.
Theorem tmean_flip (x x' : T) al a : (forall d, In d al -> (d < ndim x)%nat) -> NoDup al -> (forall d, In d (reduced (ndim x) al) -> 0 < nth d (shp x) 0) ->
  (a < ndim x)%nat -> flipped a x x' ->
  exists y y', tmean x (map Z.of_nat al) false = Ok y /\ tmean x' (map Z.of_nat al) false = Ok y' /\ flipped_out (reduced (ndim x) al) a y y'.
Proof.
  intros H N Hp Ha Fl. pose proof Fl as [Sx _]. assert (Nx : ndim x' = ndim x) by (unfold ndim; now rewrite Sx).
  destruct (tmean_ok F x al false H N Hp) as [y [Y1 [Y2 Y3]]]. destruct (tmean_ok F x' al false) as [y' [Y1' [Y2' Y3']]]; auto; [now rewrite Nx|now rewrite Nx, Sx|]. unfold red_count in *. rewrite Nx, Sx in *.
  exists y, y'. split; auto. split; auto. apply (flipped_out_intro (shp x)); auto. intros j.
  rewrite (Y3' j _ (block_ok _ _ j)), (Y3 _ _ (block_ok _ _ (flip_out (shp x) (reduced (ndim x) al) a j))). f_equal.
  eapply block_sum_flip; eauto; apply block_ok.
Qed.

(** The mse of mirror images. *)
Theorem mse_flip r (u v u' v' : T) ax al a : on_axes u ax al -> shp u = shp v -> (a < ndim u)%nat -> flipped a u u' -> flipped a v v' ->
  match r with
  | RNone => exists d d', mse_forward r u v ax = Ok d /\ mse_forward r u' v' ax = Ok d' /\ flipped a d d'
  | RSum => exists y y', mse_forward r u v ax = Ok y /\ mse_forward r u' v' ax = Ok y' /\ flipped_out (reduced (ndim u) al) a y y'
  | RMean => (forall d, In d (reduced (ndim u) al) -> 0 < nth d (shp u) 0) ->
      exists y y', mse_forward r u v ax = Ok y /\ mse_forward r u' v' ax = Ok y' /\ flipped_out (reduced (ndim u) al) a y y'
  | ROther => mse_forward r u v ax = Err ValueError /\ mse_forward r u' v' ax = Err ValueError
  end.
Proof.
  intros [A1 A2 A3] E Ha [Su Vu] [Sv Vv]. unfold mse_forward, metric_forward. rewrite Su, Sv, E, seqb_refl. cbn [assertb bind].
  assert (Nu : ndim u' = ndim u) by (unfold ndim; congruence). rewrite Nu, A1. cbn [bind].
  destruct (mse_full_ok F u v E) as [d [D1 [D2 D3]]]. destruct (mse_full_ok F u' v') as [d' [D1' [D2' D3']]]; [congruence|]. rewrite D1, D1'. cbn [bind].
  assert (Fd : flipped a d d').
  { split; [congruence|]. intros i Vi. rewrite D2 in *. rewrite D3' by congruence. rewrite D3 by now apply valid_flip. rewrite Vu by auto. rewrite Vv by congruence. rewrite <- E. reflexivity. }
  assert (Nd : ndim d = ndim u) by (unfold ndim; congruence).
  destruct r; cbn [metric_reduce].
  - intros Hp. rewrite <- Nd. apply tmean_flip; auto; rewrite Nd; auto. now rewrite D2, E.
  - rewrite <- Nd. apply tsum_flip; auto; rewrite Nd; auto.
  - eauto.
  - auto.
Qed.
End RF.
