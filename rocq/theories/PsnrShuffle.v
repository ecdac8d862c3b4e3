(** PSNR of images reordered alike (C128). *)
From Coq Require Import Reals Lra.
From Verif Require Export ReduceShuffle MetricLaws.
Open Scope Z_scope.

Notation TR := (tensor RF).
(** The tail of psnr_forward, after the mse. *)
Definition psnr_of (mx eps : R) (y : TR) : res TR :=
  log_mse <- tlog10 (if R_leb eps 0 then y else tmap (A := RF) (B := RF) (fun v => v + eps)%R y) ;;
  if R_leb mx 0 then Err ValueError
  else Ok (tmap (A := RF) (B := RF) (fun v => 20 * log10 mx - 10 * v)%R log_mse).
Lemma psnr_of_ok mx eps r u v ax : psnr_forward mx eps r u v ax = (y <- mse_forward r u v ax ;; psnr_of mx eps y).
Proof. reflexivity. Qed.

Lemma psnr_index mx eps (y y' : TR) (g h : list Z -> list Z) : shp y' = shp y ->
  (forall i, valid (shp y) i -> valid (shp y) (g i)) -> (forall i, valid (shp y) i -> valid (shp y) (h i) /\ g (h i) = i) ->
  (forall i, valid (shp y) i -> at_ y' i = at_ y (g i)) ->
  (psnr_of mx eps y = Err ValueError /\ psnr_of mx eps y' = Err ValueError) \/
  exists z z', psnr_of mx eps y = Ok z /\ psnr_of mx eps y' = Ok z' /\ shp z = shp y /\ shp z' = shp z /\ forall i, valid (shp z) i -> at_ z' i = at_ z (g i).
Proof.
  intros S Hg Hh E. unfold psnr_of. set (u := if R_leb eps 0 then y else _). set (v := if R_leb eps 0 then y' else _).
  assert (U : shp u = shp y /\ shp v = shp u /\ forall j, valid (shp u) j -> at_ v j = at_ u (g j)).
  { unfold u, v. destruct (R_leb eps 0); cbn [tmap shp at_]; split; auto. split; auto. intros j Hj. now rewrite E. }
  clearbody u v. destruct U as [U0 [U1 U2]]. unfold tlog10.
  assert (G : tany (tmap (fun w : RF => R_leb w 0) v) = tany (tmap (fun w : RF => R_leb w 0) u)).
  { unfold tany. cbn [tmap shp at_]. rewrite U1. apply eq_true_iff_eq. rewrite !existsb_exists. split; intros [i [Hi G]].
    - apply In_tindices in Hi. exists (g i). split; [apply In_tindices; rewrite U0 in *; auto|]. now rewrite <- U2.
    - apply In_tindices in Hi. rewrite U0 in Hi. destruct (Hh i Hi) as [H1 H2]. exists (h i). split; [apply In_tindices; now rewrite U0|].
      rewrite U2 by (now rewrite U0). now rewrite H2. }
  rewrite G. destruct (tany (tmap (fun w : RF => R_leb w 0) u)) eqn:Q; cbn [bind]; [now left|]. destruct (R_leb mx 0) eqn:M; [now left|].
  right. do 2 eexists. split; [reflexivity|]. split; [reflexivity|]. split; [now cbn|]. split; [now cbn|]. cbn [tmap shp at_]. intros j Hj. now rewrite U2 by auto.
Qed.

Theorem psnr_reordered mx eps r (u v u' v' : TR) ax al a p q : on_axes u ax al -> shp u = shp v -> (a < ndim u)%nat ->
  reorders (nth a (shp u) 0) p q -> reordered a p u u' -> reordered a p v v' -> r = RMean \/ r = RSum ->
  (r = RMean -> forall d, In d (reduced (ndim u) al) -> 0 < nth d (shp u) 0) ->
  (psnr_forward mx eps r u v ax = Err ValueError /\ psnr_forward mx eps r u' v' ax = Err ValueError) \/
  exists y y', psnr_forward mx eps r u v ax = Ok y /\ psnr_forward mx eps r u' v' ax = Ok y' /\ reordered_out (reduced (ndim u) al) a p y y'.
Proof.
  intros OA E Ha R Ru Rv Hr Hp. pose proof (mse_reordered RF r u v u' v' ax al a p q OA E Ha R Ru Rv) as M.
  assert (M' : exists y y', mse_forward r u v ax = Ok y /\ mse_forward r u' v' ax = Ok y' /\ reordered_out (reduced (ndim u) al) a p y y').
  { destruct Hr as [->| ->]; auto. }
  assert (Sh : forall y, mse_forward r u v ax = Ok y -> shp y = outside (reduced (ndim u) al) (shp u)).
  { intros y Hy. destruct Hr as [->| ->].
    - destruct (mse_mean RF u v ax al OA E (Hp eq_refl)) as [y0 [Y1 [Y2 _]]]. rewrite Y1 in Hy. injection Hy as <-. exact Y2.
    - destruct (mse_sum RF u v ax al OA E) as [y0 [Y1 [Y2 _]]]. rewrite Y1 in Hy. injection Hy as <-. exact Y2. }
  destruct M' as [y [y' [Y1 [Y2 [Y3 Y4]]]]]. specialize (Sh y Y1). rewrite !psnr_of_ok, Y1, Y2. cbn [bind].
  set (rl := reduced (ndim u) al) in *.
  destruct (psnr_index mx eps y y' (take_out rl a p) (take_out rl a q)) as [Q|[z [z' [Z1 [Z2 [Z3 [Z4 Z5]]]]]]]; auto.
  - destruct (in_dec Nat.eq_dec a rl) as [H|H]; [now destruct (Y3 H)|now destruct (Y4 H)].
  - rewrite Sh. intros i Vi. eapply out_valid; eauto.
  - rewrite Sh. intros i Vi. pose proof (reorders_sym _ _ _ R) as R'. split; [eapply out_valid; eauto|eapply out_back; eauto].
  - intros i Vi. unfold take_out. destruct (memb a rl) eqn:Me.
    + apply memb_in in Me. destruct (Y3 Me) as [S V]. symmetry. apply V. auto.
    + apply memb_out in Me. destruct (Y4 Me) as [S V]. apply V; auto.
  - right. exists z, z'. split; auto. split; auto. apply (reordered_out_intro RF (shp u)); auto; try congruence. intros j Vj. apply Z5. congruence.
Qed.
