(** MS_SSIM of identical images in one statement, and over the reals. *)
From Coq Require Import Reals Lra.
From Verif Require Export MsForward RField.
Open Scope Z_scope.

(** The settings of MS_SSIM with which no divisor vanishes. *)
Definition proper_settings {F : ofield} (s : ssim F) (al : list nat) (kers : list (list F)) (pd : option (padder F)) : Prop :=
  window F kers /\ proper_padder (length al) pd /\ ss_K1 s <> f0 /\ ss_K2 s <> f0.

Section MR.
Variable F : ofield.
Notation T := (tensor F).

Theorem ms_succeeds fuel junk (s : ssim F) (x y : T) cax rax al rl kers pd pow m : ms_call fuel s x y cax rax al rl kers pd -> (2 <= length (ms_weights m))%nat ->
  proper_settings s al kers pd -> large_enough (Z.of_nat (length (ms_weights m))) kers al (shp x) ->
  exists score, snd (ms_forward (sep_forward fuel junk) pow (avg_forward fuel junk true) m x y cax rax s) = Ok score.
Proof.
  intros MC H2 [W [PP [K1 K2]]] LE.
  assert (Hw : ms_weights m <> []) by (destruct (ms_weights m); [cbn in H2; lia|discriminate]).
  destruct (ms_size_any F fuel junk s x y cax rax al rl kers pd pow m MC Hw) as [I _].
  destruct (ms_size_ok F fuel junk s x y cax rax al rl kers pd pow m MC H2 W PP K1 K2) as [_ Q]; auto.
  intros E. apply I in E. contradiction.
Qed.
Theorem ms_self_total fuel junk (s : ssim F) (x : T) cax rax al rl kers pd pow m : ms_call fuel s x x cax rax al rl kers pd -> (2 <= length (ms_weights m))%nat ->
  proper_settings s al kers pd -> large_enough (Z.of_nat (length (ms_weights m))) kers al (shp x) ->
  (forall w, In w (ms_weights m) -> pow f1 w = f1) -> (ms_prod m = true -> fle (ms_eps m) f1) ->
  exists score, snd (ms_forward (sep_forward fuel junk) pow (avg_forward fuel junk true) m x x cax rax s) = Ok score /\
    constant_image (if ms_prod m then f1 else lsum (ms_weights m)) score.
Proof.
  intros MC H2 P LE Hp He. destruct (ms_succeeds fuel junk s x x cax rax al rl kers pd pow m MC H2 P LE) as [score E]. exists score. split; auto.
  eapply ms_self; eauto. destruct (ms_weights m); [cbn in H2; lia|discriminate].
Qed.
Theorem ms_bounded_total fuel junk (s : ssim F) (x y : T) cax rax al rl kers pd pow m : ms_call fuel s x y cax rax al rl kers pd -> (2 <= length (ms_weights m))%nat ->
  proper_settings s al kers pd -> large_enough (Z.of_nat (length (ms_weights m))) kers al (shp x) -> weights_ok F pow m ->
  exists score, snd (ms_forward (sep_forward fuel junk) pow (avg_forward fuel junk true) m x y cax rax s) = Ok score /\
    in_range (if ms_prod m then f0 else fopp (lsum (ms_weights m))) (if ms_prod m then f1 else lsum (ms_weights m)) score.
Proof.
  intros MC H2 P LE WO. destruct (ms_succeeds fuel junk s x y cax rax al rl kers pd pow m MC H2 P LE) as [score E]. exists score. split; auto.
  destruct P as [W [PP [K1 K2]]]. intros i Vi. eapply ms_bounded; eauto. destruct (ms_weights m); [cbn in H2; lia|discriminate].
Qed.
End MR.

(** *** real powers *)
Lemma rpower_one w : Rpower 1 w = 1%R.
Proof. unfold Rpower. rewrite ln_1, Rmult_0_r. apply exp_0. Qed.
Lemma rpower_range v w : (0 < v <= 1)%R -> (0 <= w)%R -> (0 <= Rpower v w <= 1)%R.
Proof.
  intros Hv Hw. unfold Rpower. split; [left; apply exp_pos|]. rewrite <- exp_0.
  assert (ln v <= 0)%R. { destruct (Rle_lt_or_eq_dec v 1) as [H| ->]; [lra| |rewrite ln_1; lra]. rewrite <- ln_1. left. apply ln_increasing; lra. }
  assert (w * ln v <= 0)%R by nra. destruct H0 as [H0| ->]; [left; now apply exp_increasing|lra].
Qed.
Theorem ms_self_real fuel junk (s : ssim RF) (x : tensor RF) cax rax al rl kers pd m : ms_call fuel s x x cax rax al rl kers pd -> (2 <= length (ms_weights m))%nat ->
  proper_settings s al kers pd -> large_enough (Z.of_nat (length (ms_weights m))) kers al (shp x) -> (ms_eps m <= 1)%R ->
  exists score, snd (ms_forward (sep_forward fuel junk) Rpower (avg_forward fuel junk true) m x x cax rax s) = Ok score /\
    constant_image (if ms_prod m then (1%R : RF) else lsum (ms_weights m)) score.
Proof.
  intros MC H2 P LE He. eapply (ms_self_total RF); eauto.
  - intros w _. apply rpower_one.
  - intros _. now apply RF_le.
Qed.
Theorem ms_bounded_real fuel junk (s : ssim RF) (x y : tensor RF) cax rax al rl kers pd m : ms_call fuel s x y cax rax al rl kers pd -> (2 <= length (ms_weights m))%nat ->
  proper_settings s al kers pd -> large_enough (Z.of_nat (length (ms_weights m))) kers al (shp x) ->
  (0 < ms_eps m <= 1)%R -> (forall w : R, In w (ms_weights m) -> (0 <= w)%R) ->
  exists score, snd (ms_forward (sep_forward fuel junk) Rpower (avg_forward fuel junk true) m x y cax rax s) = Ok score /\
    forall i, valid (shp score) i -> ((if ms_prod m then 0 else - lsum (ms_weights m)) <= at_ score i <= (if ms_prod m then 1 else lsum (ms_weights m)))%R.
Proof.
  intros MC H2 P LE He Hw.
  destruct (ms_bounded_total RF fuel junk s x y cax rax al rl kers pd Rpower m MC H2 P LE) as [score [E C]].
  - unfold weights_ok. destruct (ms_prod m).
    + split; [now apply RF_le|]. intros w v Iw V1 V2. apply (proj1 (RF_le _ _)) in V1. apply (proj1 (RF_le _ _)) in V2. cbn [f0 f1 RF] in *.
      destruct (rpower_range v w) as [Q1 Q2]; [lra|auto|]. split; apply RF_le; auto.
    + intros w Iw. apply RF_le. auto.
  - exists score. split; auto. intros i Vi. destruct (C i Vi) as [C1 C2]. apply (proj1 (RF_le _ _)) in C1. apply (proj1 (RF_le _ _)) in C2. destruct (ms_prod m); split; auto.
Qed.
