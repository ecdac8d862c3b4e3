(** Edge losses of mirrored, rotated and transposed images. *)
From Coq Require Import Reals Lra Permutation.
From Verif Require Export EdgeLossGauss EdgeFlip PermEdge GaussFlip.
Open Scope Z_scope.

(** g and gi are inverse maps between the indices of shape s' and those of shape s. *)
Record reidx (s s' : list Z) (g gi : list Z -> list Z) : Prop := {
  ri_g : forall i, valid s' i -> valid s (g i);
  ri_gi : forall i, valid s i -> valid s' (gi i);
  ri_l : forall i, valid s' i -> gi (g i) = i;
  ri_r : forall i, valid s i -> g (gi i) = i }.
Lemma lsumR_reidx s s' g gi L L' (f f' : list Z -> R) : reidx s s' g gi -> all_pixels s L -> all_pixels s' L' ->
  (forall i, valid s' i -> f' i = f (g i)) -> lsumR f' L' = lsumR f L.
Proof.
  intros [G1 G2 G3 G4] [N M] [N' M'] E.
  assert (P : Permutation (map g L') L).
  { apply NoDup_Permutation; auto.
    - clear E. assert (In_ : forall i, In i L' -> valid s' i) by (intros; now apply M'). clear M'. induction N' as [|a l Ha Nl IH]; [constructor|]. cbn [map]. constructor.
      + intros I. apply in_map_iff in I as [b [E I]]. apply Ha. assert (a = b) as ->; auto.
        rewrite <- (G3 a), <- (G3 b) by (apply In_; cbn; auto). now rewrite E.
      + apply IH. intros. apply In_. now right.
    - intros i. rewrite in_map_iff. split.
      + intros [b [<- I]]. apply M. apply G1. now apply M'.
      + intros I. apply M in I. exists (gi i). split; [now apply G4|]. apply M'. now apply G2. }
  assert (Q : forall (a b : list R), Permutation a b -> fold_right Rplus 0%R a = fold_right Rplus 0%R b).
  { intros a b H. induction H; cbn [fold_right]; lra. }
  unfold lsumR. rewrite <- (Q _ _ (Permutation_map f P)). rewrite map_map. f_equal. apply map_ext_in. intros i I. apply E. now apply M'.
Qed.
Lemma lsumR_add {A} (f g : A -> R) L : lsumR (fun a => f a + g a)%R L = (lsumR f L + lsumR g L)%R.
Proof. unfold lsumR. induction L as [|a L IH]; cbn [map fold_right]; lra. Qed.
Lemma lsumR_scale {A} s (f : A -> R) L : lsumR (fun a => s * f a)%R L = (s * lsumR f L)%R.
Proof. unfold lsumR. induction L as [|a L IH]; cbn [map fold_right]; lra. Qed.
Lemma lsumR_same {A} (f g : A -> R) L : (forall a, In a L -> f a = g a) -> lsumR f L = lsumR g L.
Proof. intros H. unfold lsumR. f_equal. now apply map_ext_in. Qed.
Lemma reidx_app (a a' b b' : list Z) g gi k ki : reidx a a' g gi -> reidx b b' k ki ->
  length a = 2%nat -> length a' = 2%nat ->
  reidx (a ++ b) (a' ++ b') (fun i => g (firstn 2 i) ++ k (skipn 2 i)) (fun i => gi (firstn 2 i) ++ ki (skipn 2 i)).
Proof.
  intros [A1 A2 A3 A4] [B1 B2 B3 B4] La La'.
  assert (S : forall c d i, length c = 2%nat -> valid (c ++ d) i -> valid c (firstn 2 i) /\ valid d (skipn 2 i)).
  { intros c d i Lc V. apply Forall2_app_inv_l in V as [u [v [U [V ->]]]].
    assert (length u = 2%nat) by (rewrite <- Lc; apply (valid_length _ _ U)).
    destruct u as [|a1 [|a2 [|? ?]]]; try discriminate. auto. }
  assert (Q : forall c u v, length c = 2%nat -> valid c u -> firstn 2 (u ++ v) = u /\ skipn 2 (u ++ v) = v).
  { intros c u v Lc V. assert (H : length u = 2%nat) by (rewrite <- Lc; apply (valid_length _ _ V)).
    destruct u as [|a1 [|a2 [|? ?]]]; try discriminate. auto. }
  split; intros i V.
  - destruct (S a' b' i La' V). apply valid_app; auto.
  - destruct (S a b i La V). apply valid_app; auto.
  - destruct (S a' b' i La' V) as [V1 V2]. destruct (Q a (g (firstn 2 i)) (k (skipn 2 i)) La) as [E1 E2]; [now apply A1|].
    rewrite E1, E2, A3, B3 by auto. apply firstn_skipn.
  - destruct (S a b i La V) as [V1 V2]. destruct (Q a' (gi (firstn 2 i)) (ki (skipn 2 i)) La') as [E1 E2]; [now apply A2|].
    rewrite E1, E2, A4, B4 by auto. apply firstn_skipn.
Qed.

Notation T := (tensor RF).
(** Pixel i of d' is s times pixel g i of d. *)
Definition follows (s' : list Z) (g : list Z -> list Z) (s : R) (d d' : T) : Prop := forall i, valid s' i -> at_ d' i = (s * at_ d (g i))%R.

Definition part_l1 (p t : T) L := lsumR (fun i => Rabs (at_ p i - at_ t i)) L.
Definition part_mul (p t : T) L := lsumR (fun i => Rabs (at_ t i - at_ p i) * at_ t i)%R L.
Definition part_div (p t : T) L := lsumR (fun i => Rabs (at_ t i - at_ p i) / at_ t i)%R L.
Definition plane (h w : Z) (P : list (list Z)) (d : T) j := (lsumR (fun q => Rabs (at_ d (j ++ q))) P / IZR (h * w))%R.
Definition part_sum h w (p t : T) L P := lsumR (fun j => Rabs (plane h w P t j - plane h w P p j)) L.

Section Parts.
Variables (s s' : list Z) (g gi : list Z -> list Z) (sg : R) (L L' : list (list Z)) (p t q u : T).
Hypotheses (RI : reidx s s' g gi) (AL : all_pixels s L) (AL' : all_pixels s' L').
Hypotheses (SG : sg = 1%R \/ sg = (-1)%R) (F1 : follows s' g sg p q) (F2 : follows s' g sg t u).
Lemma sg_abs a b : Rabs (sg * a - sg * b) = Rabs (a - b).
Proof. destruct SG as [-> | ->]; [f_equal; lra|]. rewrite <- (Rabs_Ropp (a - b)). f_equal. lra. Qed.
Lemma move_l1 : part_l1 q u L' = part_l1 p t L.
Proof. unfold part_l1. eapply lsumR_reidx; eauto. intros i V. cbv beta. rewrite F1, F2 by auto. apply sg_abs. Qed.
Lemma move_mul : part_mul q u L' = (sg * part_mul p t L)%R.
Proof. unfold part_mul. rewrite <- lsumR_scale. eapply lsumR_reidx; eauto. intros i V. cbv beta. rewrite F1, F2, sg_abs by auto. ring. Qed.
Lemma move_div : (forall i, valid s i -> at_ t i <> 0%R) -> part_div q u L' = (sg * part_div p t L)%R.
Proof.
  intros NZ. unfold part_div. rewrite <- lsumR_scale. eapply lsumR_reidx; eauto. intros i V. cbv beta. rewrite F1, F2, sg_abs by auto.
  assert (at_ t (g i) <> 0%R) by (apply NZ, (ri_g _ _ _ _ RI), V). destruct SG as [-> | ->]; field; auto.
Qed.
End Parts.
Lemma move_sum n c h w n' c' h' w' gj gji gq gqi (sg : R) L L' P P' (p t q u : T) :
  reidx [n; c] [n'; c'] gj gji -> reidx [h; w] [h'; w'] gq gqi -> h * w = h' * w' ->
  all_pixels [n; c] L -> all_pixels [n'; c'] L' -> all_pixels [h; w] P -> all_pixels [h'; w'] P' ->
  (sg = 1%R \/ sg = (-1)%R) ->
  follows ([n'; c'] ++ [h'; w']) (fun i => gj (firstn 2 i) ++ gq (skipn 2 i)) sg p q ->
  follows ([n'; c'] ++ [h'; w']) (fun i => gj (firstn 2 i) ++ gq (skipn 2 i)) sg t u ->
  part_sum h' w' q u L' P' = part_sum h w p t L P.
Proof.
  intros RJ RQ EHW AL AL' AP AP' SG F1 F2. unfold part_sum. eapply lsumR_reidx; [exact RJ|exact AL|exact AL'|]. intros j V. cbv beta.
  assert (G : forall d d' : T, follows ([n'; c'] ++ [h'; w']) (fun i => gj (firstn 2 i) ++ gq (skipn 2 i)) sg d d' -> plane h' w' P' d' j = plane h w P d (gj j)).
  { intros d d' Fd. unfold plane. rewrite EHW. f_equal. eapply lsumR_reidx; [exact RQ|auto|auto|]. intros k Vk. cbv beta.
    rewrite Fd by (apply valid_app; auto).
    assert (Lj : length j = 2%nat) by (pose proof (valid_length _ _ V); cbn in *; lia).
    assert (Ej : firstn 2 (j ++ k) = j /\ skipn 2 (j ++ k) = k) by (clear - Lj; destruct j as [|a1 [|a2 [|? ?]]]; try discriminate; auto).
    destruct Ej as [-> ->].
    rewrite Rabs_mult. destruct SG as [-> | ->]; rewrite ?Rabs_R1, ?Rabs_Ropp, ?Rabs_R1; try (replace (Rabs (-1)) with 1%R by (symmetry; rewrite Rabs_left; lra)); apply Rmult_1_l. }
  now rewrite (G _ _ F1), (G _ _ F2).
Qed.

(** ** The kernels read backwards *)
Definition sgn (order : Z) : R := ((-1) ^ Z.to_nat order)%R.
Lemma sgn_cases order : 0 <= order -> sgn order = if Z.odd order then (-1)%R else 1%R.
Proof.
  intros H. unfold sgn. rewrite <- (Z2Nat.id order H) at 2. generalize (Z.to_nat order). clear.
  induction n as [|n IH]; [reflexivity|]. cbn [pow]. rewrite IH, Nat2Z.inj_succ, Z.odd_succ, <- Z.negb_odd. destruct (Z.odd (Z.of_nat n)); cbn [negb]; lra.
Qed.
Lemma sgn_one order : 0 <= order -> sgn order = 1%R \/ sgn order = (-1)%R.
Proof. intros H. rewrite sgn_cases by auto. destruct (Z.odd order); auto. Qed.
Lemma Rtrunc0 : Rtrunc 0%R = 0.
Proof. apply Rtrunc_pos; [lia|lra]. Qed.
Lemma used_sign (sg : R) (kn : list RF) : (sg = 1%R \/ sg = (-1)%R) -> rev kn = map (fun v => sg * v)%R kn ->
  rev (used_kernel Rtrunc kn) = map (@fmul RF sg) (used_kernel Rtrunc kn).
Proof.
  intros SG H. unfold used_kernel. match goal with |- context [if ?b then central_kernel else _] => destruct b eqn:E1 end.
  - apply zlist_eqb_spec in E1. destruct kn as [|a [|b [|c [|d l]]]]; try discriminate. cbn in H. injection H as H1 H2 H3. cbn in E1. injection E1 as T1 T2 T3.
    destruct SG as [-> | ->]. { exfalso. assert (c = a) by lra. subst. congruence. }
    unfold central_kernel, ints. cbn [map rev app]. rewrite !RF_ofZ. cbn [fmul RF]. repeat (apply f_equal2; [lra|]). reflexivity.
  - match goal with |- context [if ?b then laplace_kernel else _] => destruct b eqn:E2 end.
    + apply zlist_eqb_spec in E2. destruct kn as [|a [|b [|c [|d l]]]]; try discriminate. cbn in H. injection H as H1 H2 H3. cbn in E2. injection E2 as T1 T2 T3.
      destruct SG as [-> | ->]. 2: { exfalso. assert (b = 0%R) by lra. subst. rewrite Rtrunc0 in T2. lia. }
      unfold laplace_kernel, ints. cbn [map rev app]. rewrite !RF_ofZ. cbn [fmul RF]. repeat (apply f_equal2; [lra|]). reflexivity.
    + exact H.
Qed.

(** ** Edge maps of mirror images *)
Section G.
Variables (fuel : nat) (junk : list Z -> R) (ks : Z) (sigma : R) (order n c h w : Z).
Hypothesis A : loss_args fuel ks sigma order n c h w.
Notation img x := (shp x = [n; c; h; w]).

Lemma refl_even : even_handed (F := RF) reflR.
Proof. do 3 eexists. split; [reflexivity|]. split; reflexivity. Qed.

Theorem maps_flip d (x x' d2 d3 e2 e3 : T) : Z.odd ks = true -> img x -> (d < 4)%nat -> flipped (F := RF) d x x' ->
  edge_maps fuel junk ks sigma order x d2 d3 -> edge_maps fuel junk ks sigma order x' e2 e3 ->
  flipped_times (F := RF) (if Nat.eqb d 2 then sgn order else 1%R) d d2 e2 /\ flipped_times (F := RF) (if Nat.eqb d 3 then sgn order else 1%R) d d3 e3.
Proof.
  intros Ok_ Sx Hd Fl M1 M2. destruct (setup fuel ks sigma order n c h w A) as (k0 & kn & e & K0 & KN & L0 & LN & SU & EI & HI & NE & RD).
  apply (maps_is _ _ _ _ _ e) in M1; auto. apply (maps_is _ _ _ _ _ e) in M2; auto. destruct A as [A1 A2 A3 A4 A5].
  destruct M1 as [M12 [M13 _]]. destruct M2 as [M22 [M23 _]].
  assert (Md : ks mod 2 = 1) by (rewrite Zmod_odd, Ok_; reflexivity).
  assert (Rn := gauss_reversed ks sigma order kn A1 A2 A3 Ok_ KN). assert (R0 := gauss_palindrome ks sigma k0 A1 A2 Ok_ K0).
  assert (Us := used_sign (sgn order) kn (sgn_one order A3) Rn).
  assert (Nd : ndim x = 4%nat) by (unfold ndim; rewrite Sx; reflexivity).
  assert (G : forall a, In a [2; 3]%nat -> exists y y', snd (component (F := RF) Rtrunc fuel junk e x (AxInt (Z.of_nat a)) (AxSeq [2; 3])) = Ok y /\
     snd (component (F := RF) Rtrunc fuel junk e x' (AxInt (Z.of_nat a)) (AxSeq [2; 3])) = Ok y' /\ flipped_times (F := RF) (if Nat.eqb d a then sgn order else 1%R) d y y').
  { intros a Ha. apply (component_flip RF Rtrunc fuel junk junk kn (NItem k0) [k0] true reflR MReflect false e x x' (AxInt (Z.of_nat a)) (AxSeq [2; 3]) (AxSeq [2; 3]) a d [2; 3]%nat ks); auto.
    - apply check_one.
    - apply (ready_image RF fuel reflR MReflect ks n c h w); auto.
    - apply (axes_ok RF n c h w); auto.
    - lia.
    - exact refl_even.
    - rewrite (two_three a Ha). reflexivity.
    - intros s [<-|[]]. lia.
    - lia.
    - discriminate.
    - intros _. split; [now rewrite LN|]. split; auto. right. exact refl_linear.
    - intros r Hr _. rewrite (two_three a Ha) in Hr. assert (r = 0%nat) as -> by lia. cbn [nth]. split; auto. right. now rewrite L0. }
  destruct (G 2%nat) as [y [y' [Y1 [Y2 Y3]]]]; [now left|]. destruct (G 3%nat) as [z [z' [Z1 [Z2 Z3]]]]; [now right; left|].
  cbn [Z.of_nat] in *. change (Z.of_nat 2) with 2 in *. change (Z.of_nat 3) with 3 in *.
  change (Z.pos (Pos.of_succ_nat 1)) with 2 in *. change (Z.pos (Pos.of_succ_nat 2)) with 3 in *.
  rewrite Y1 in M12. rewrite Y2 in M22. rewrite Z1 in M13. rewrite Z2 in M23.
  injection M12 as <-. injection M22 as <-. injection M13 as <-. injection M23 as <-. auto.
Qed.
End G.

(** ** Losses of images whose edge maps are moved *)
Lemma value_unique score fuel junk ks sigma order (x y : T) v v' :
  loss_value score fuel junk ks sigma order x y v -> loss_value score fuel junk ks sigma order x y v' -> v = v'.
Proof. intros [s [E [_ V]]] [s' [E' [_ V']]]. rewrite E in E'. injection E' as <-. congruence. Qed.
(** Pixels of the batch and channel axes, and of the planes, moved separately. *)
Record moves (n c h w n' c' h' w' : Z) (gj gji gq gqi : list Z -> list Z) : Prop := {
  mv_j : reidx [n; c] [n'; c'] gj gji;
  mv_q : reidx [h; w] [h'; w'] gq gqi;
  mv_nc : n * c = n' * c';
  mv_hw : h * w = h' * w' }.
Definition mv (gj gq : list Z -> list Z) (i : list Z) : list Z := gj (firstn 2 i) ++ gq (skipn 2 i).

Section Moved.
Variables (fuel : nat) (junk : list Z -> R) (ks : Z) (sigma : R) (order n c h w n' c' h' w' : Z).
Hypothesis A : loss_args fuel ks sigma order n c h w.
Hypothesis A' : loss_args fuel ks sigma order n' c' h' w'.
Variables gj gji gq gqi : list Z -> list Z.
Hypothesis MV : moves n c h w n' c' h' w' gj gji gq gqi.
Variables (x y x' y' p2 p3 t2 t3 q2 q3 u2 u3 qa qb ua ub : T) (s2 s3 : R).
Hypotheses (Sx : shp x = [n; c; h; w]) (Sy : shp y = [n; c; h; w]) (Sx' : shp x' = [n'; c'; h'; w']) (Sy' : shp y' = [n'; c'; h'; w']).
Hypotheses (Mx : edge_maps fuel junk ks sigma order x p2 p3) (My : edge_maps fuel junk ks sigma order y t2 t3).
Hypotheses (Mx' : edge_maps fuel junk ks sigma order x' q2 q3) (My' : edge_maps fuel junk ks sigma order y' u2 u3).
Hypothesis SW : (qa = q2 /\ qb = q3 /\ ua = u2 /\ ub = u3) \/ (qa = q3 /\ qb = q2 /\ ua = u3 /\ ub = u2).
Hypotheses (S2 : s2 = 1%R \/ s2 = (-1)%R) (S3 : s3 = 1%R \/ s3 = (-1)%R).
Hypotheses (F1 : follows [n'; c'; h'; w'] (mv gj gq) s2 p2 qa) (F2 : follows [n'; c'; h'; w'] (mv gj gq) s3 p3 qb)
  (F3 : follows [n'; c'; h'; w'] (mv gj gq) s2 t2 ua) (F4 : follows [n'; c'; h'; w'] (mv gj gq) s3 t3 ub).
Notation pix := (tindices [n; c; h; w]).
Notation pix' := (tindices [n'; c'; h'; w']).

Lemma moved_reidx : reidx [n; c; h; w] [n'; c'; h'; w'] (mv gj gq) (mv gji gqi).
Proof. destruct MV as [J Q _ _]. exact (reidx_app _ _ _ _ _ _ _ _ J Q eq_refl eq_refl). Qed.
Lemma moved_count : n * c * h * w = n' * c' * h' * w'.
Proof. destruct MV as [_ _ E1 E2]. rewrite E1. rewrite <- !Z.mul_assoc. rewrite (Z.mul_assoc n' c' (h' * w')). rewrite E2. ring. Qed.
Theorem l1_moved v : loss_value score_l1 fuel junk ks sigma order x y v -> loss_value score_l1 fuel junk ks sigma order x' y' v.
Proof.
  intros V. pose proof (gl_l1_value fuel junk ks sigma order n c h w A x y p2 p3 t2 t3 pix Sx Sy Mx My (pixels_list _)) as E.
  pose proof (gl_l1_value fuel junk ks sigma order n' c' h' w' A' x' y' q2 q3 u2 u3 pix' Sx' Sy' Mx' My' (pixels_list _)) as E'.
  rewrite (value_unique _ _ _ _ _ _ _ _ _ _ V E). clear V E.
  rewrite lsumR_add in E'. rewrite lsumR_add.
  pose proof (move_l1 _ _ _ _ s2 pix pix' p2 t2 qa ua moved_reidx (pixels_list _) (pixels_list _) S2 F1 F3) as H2.
  pose proof (move_l1 _ _ _ _ s3 pix pix' p3 t3 qb ub moved_reidx (pixels_list _) (pixels_list _) S3 F2 F4) as H3.
  unfold part_l1 in *. rewrite <- H2, <- H3, moved_count.
  destruct SW as [(-> & -> & -> & ->)|(-> & -> & -> & ->)]; [exact E'|]. now rewrite Rplus_comm.
Qed.
Theorem mul_moved v : loss_value score_mul fuel junk ks sigma order x y v -> s2 = s3 -> loss_value score_mul fuel junk ks sigma order x' y' (s2 * v)%R.
Proof.
  intros V ES. pose proof (gl_mul_value fuel junk ks sigma order n c h w A x y p2 p3 t2 t3 pix Sx Sy Mx My (pixels_list _)) as E.
  pose proof (gl_mul_value fuel junk ks sigma order n' c' h' w' A' x' y' q2 q3 u2 u3 pix' Sx' Sy' Mx' My' (pixels_list _)) as E'.
  rewrite (value_unique _ _ _ _ _ _ _ _ _ _ V E). clear V E.
  rewrite lsumR_add in E'. rewrite lsumR_add.
  pose proof (move_mul _ _ _ _ s2 pix pix' p2 t2 qa ua moved_reidx (pixels_list _) (pixels_list _) S2 F1 F3) as H2.
  pose proof (move_mul _ _ _ _ s3 pix pix' p3 t3 qb ub moved_reidx (pixels_list _) (pixels_list _) S3 F2 F4) as H3.
  unfold part_mul in *. rewrite <- ES in H3. unfold Rdiv. rewrite <- Rmult_assoc, Rmult_plus_distr_l. rewrite <- H2, <- H3, moved_count.
  destruct SW as [(-> & -> & -> & ->)|(-> & -> & -> & ->)]; [exact E'|]. now rewrite Rplus_comm.
Qed.
Theorem div_moved v : loss_value score_div fuel junk ks sigma order x y v -> s2 = s3 -> loss_value score_div fuel junk ks sigma order x' y' (s2 * v)%R.
Proof.
  intros V ES.
  assert (NZ : forall i, valid [n; c; h; w] i -> at_ t2 i <> 0%R /\ at_ t3 i <> 0%R).
  { intros i Vi. destruct (Req_dec (at_ t2 i) 0) as [Z|Z]; [|destruct (Req_dec (at_ t3 i) 0) as [Z'|Z']; [|auto]]; exfalso; destruct V as [s [E _]];
      rewrite (gl_div_zero fuel junk ks sigma order n c h w A x y p2 p3 t2 t3 i Sx Sy Mx My Vi) in E by auto; discriminate. }
  assert (NZ' : forall i, valid [n'; c'; h'; w'] i -> at_ ua i <> 0%R /\ at_ ub i <> 0%R).
  { intros i Vi. rewrite F3, F4 by auto. destruct (NZ (mv gj gq i) (ri_g _ _ _ _ moved_reidx i Vi)) as [B1 B2].
    split; apply Rmult_integral_contrapositive; split; auto; [destruct S2 as [-> | ->]|destruct S3 as [-> | ->]]; lra. }
  pose proof (gl_div_value fuel junk ks sigma order n c h w A x y p2 p3 t2 t3 pix Sx Sy Mx My (pixels_list _) NZ) as E.
  assert (E' := gl_div_value fuel junk ks sigma order n' c' h' w' A' x' y' q2 q3 u2 u3 pix' Sx' Sy' Mx' My' (pixels_list _)).
  rewrite (value_unique _ _ _ _ _ _ _ _ _ _ V E). clear V E.
  rewrite lsumR_add in E'. rewrite lsumR_add.
  pose proof (move_div _ _ _ _ s2 pix pix' p2 t2 qa ua moved_reidx (pixels_list _) (pixels_list _) S2 F1 F3 (fun i Vi => proj1 (NZ i Vi))) as H2.
  pose proof (move_div _ _ _ _ s3 pix pix' p3 t3 qb ub moved_reidx (pixels_list _) (pixels_list _) S3 F2 F4 (fun i Vi => proj2 (NZ i Vi))) as H3.
  unfold part_div in *. rewrite <- ES in H3. unfold Rdiv in *. rewrite <- Rmult_assoc, Rmult_plus_distr_l. rewrite <- H2, <- H3, moved_count.
  destruct SW as [(-> & -> & -> & ->)|(-> & -> & -> & ->)]; [exact (E' NZ')|]. rewrite Rplus_comm. apply E'. intros i Vi. destruct (NZ' i Vi); auto.
Qed.
Theorem sum_moved v : loss_value score_sum fuel junk ks sigma order x y v -> loss_value score_sum fuel junk ks sigma order x' y' v.
Proof.
  intros V. destruct MV as [J Q E1 E2].
  assert (E := gl_sum_value fuel junk ks sigma order n c h w A x y p2 p3 t2 t3 _ _ Sx Sy Mx My (pixels_list [n; c]) (pixels_list [h; w])). cbv zeta in E.
  assert (E' := gl_sum_value fuel junk ks sigma order n' c' h' w' A' x' y' q2 q3 u2 u3 _ _ Sx' Sy' Mx' My' (pixels_list [n'; c']) (pixels_list [h'; w'])). cbv zeta in E'.
  rewrite (value_unique _ _ _ _ _ _ _ _ _ _ V E). clear V E.
  rewrite lsumR_add in E'. rewrite lsumR_add.
  pose proof (move_sum n c h w n' c' h' w' gj gji gq gqi s2 _ _ _ _ p2 t2 qa ua J Q E2 (pixels_list _) (pixels_list _) (pixels_list _) (pixels_list _) S2 F1 F3) as H2.
  pose proof (move_sum n c h w n' c' h' w' gj gji gq gqi s3 _ _ _ _ p3 t3 qb ub J Q E2 (pixels_list _) (pixels_list _) (pixels_list _) (pixels_list _) S3 F2 F4) as H3.
  unfold part_sum, plane in *. rewrite <- H2, <- H3, E1.
  destruct SW as [(-> & -> & -> & ->)|(-> & -> & -> & ->)]; [exact E'|]. now rewrite Rplus_comm.
Qed.
End Moved.

(** ** Mirror images *)
Definition fl (m : Z) (k : nat) (i : list Z) : list Z := upd k (m - 1 - nth k i 0) i.
Lemma valid2i a b i : valid [a; b] i -> exists k l, i = [k; l] /\ 0 <= k < a /\ 0 <= l < b.
Proof. intros V. inversion V as [|? k ? i' Hk V1]; subst. inversion V1 as [|? l ? i'' Hl V2]; subst. inversion V2; subst. eauto. Qed.
Lemma valid2c a b k l : 0 <= k < a -> 0 <= l < b -> valid [a; b] [k; l].
Proof. intros. repeat constructor; lia. Qed.
Lemma reidx_id s : reidx s s (fun i => i) (fun i => i).
Proof. split; auto. Qed.
Lemma reidx_fl0 a b : reidx [a; b] [a; b] (fl a 0) (fl a 0).
Proof. split; intros i V; apply valid2i in V as (k & l & -> & Hk & Hl); unfold fl; cbn; try (apply valid2c; lia); f_equal; lia. Qed.
Lemma reidx_fl1 a b : reidx [a; b] [a; b] (fl b 1) (fl b 1).
Proof. split; intros i V; apply valid2i in V as (k & l & -> & Hk & Hl); unfold fl; cbn; try (apply valid2c; lia); do 2 f_equal; lia. Qed.
Lemma reidx_comp s s1 s2 g gi k ki : reidx s s1 g gi -> reidx s1 s2 k ki -> reidx s s2 (fun i => g (k i)) (fun i => ki (gi i)).
Proof. intros [A1 A2 A3 A4] [B1 B2 B3 B4]. split; intros i V; auto; [rewrite A3, B3|rewrite B4, A4]; auto. Qed.
Lemma reidx_swap a b : reidx [a; b] [b; a] (@rev Z) (@rev Z).
Proof. split; intros i V; apply valid2i in V as (k & l & -> & Hk & Hl); cbn; auto; apply valid2c; lia. Qed.
Lemma valid4i n c h w i : valid [n; c; h; w] i -> exists a b k l, i = [a; b; k; l] /\ 0 <= a < n /\ 0 <= b < c /\ 0 <= k < h /\ 0 <= l < w.
Proof.
  intros V. inversion V as [|? a ? i1 H1 V1]; subst. inversion V1 as [|? b ? i2 H2 V2]; subst. inversion V2 as [|? k ? i3 H3 V3]; subst.
  inversion V3 as [|? l ? i4 H4 V4]; subst. inversion V4; subst. exists a, b, k, l. auto.
Qed.
Lemma flip_moves n c h w d : (d < 4)%nat -> exists gj gji gq gqi, moves n c h w n c h w gj gji gq gqi /\
  forall s (D E : T), shp D = [n; c; h; w] -> flipped_times (F := RF) s d D E -> follows [n; c; h; w] (mv gj gq) s D E.
Proof.
  intros Hd.
  assert (H : forall gj gji gq gqi, reidx [n; c] [n; c] gj gji -> reidx [h; w] [h; w] gq gqi ->
     (forall i, valid [n; c; h; w] i -> upd d (nth d [n; c; h; w] 0 - 1 - nth d i 0) i = mv gj gq i) ->
     exists gj gji gq gqi, moves n c h w n c h w gj gji gq gqi /\
       forall s (D E : T), shp D = [n; c; h; w] -> flipped_times (F := RF) s d D E -> follows [n; c; h; w] (mv gj gq) s D E).
  { intros gj gji gq gqi J Q G. exists gj, gji, gq, gqi. split; [now split|]. intros s D E SD [_ FE] i V. rewrite SD in FE. rewrite FE by auto.
    cbn [fmul RF]. now rewrite G. }
  destruct d as [|[|[|[|d]]]]; [| | | |lia].
  - apply (H _ _ _ _ (reidx_fl0 n c) (reidx_id _)). intros i V. apply valid4i in V as (a & b & k & l & -> & _). reflexivity.
  - apply (H _ _ _ _ (reidx_fl1 n c) (reidx_id _)). intros i V. apply valid4i in V as (a & b & k & l & -> & _). reflexivity.
  - apply (H _ _ _ _ (reidx_id _) (reidx_fl0 h w)). intros i V. apply valid4i in V as (a & b & k & l & -> & _). reflexivity.
  - apply (H _ _ _ _ (reidx_id _) (reidx_fl1 h w)). intros i V. apply valid4i in V as (a & b & k & l & -> & _). reflexivity.
Qed.

Section Flip.
Variables (fuel : nat) (junk : list Z -> R) (ks : Z) (sigma : R) (order n c h w : Z).
Hypothesis A : loss_args fuel ks sigma order n c h w.
Hypothesis OK : Z.odd ks = true.
Notation img x := (shp x = [n; c; h; w]).
Variables (d : nat) (x y x' y' : T) (v : R).
Hypotheses (Sx : img x) (Sy : img y) (Hd : (d < 4)%nat) (Fx : flipped (F := RF) d x x') (Fy : flipped (F := RF) d y y').

Lemma flip_sign a : (if Nat.eqb d a then sgn order else 1%R) = 1%R \/ (if Nat.eqb d a then sgn order else 1%R) = (-1)%R.
Proof. destruct (Nat.eqb d a); auto. apply sgn_one. now destruct A. Qed.
Ltac flips :=
  assert (Sx' : img x') by (destruct Fx; congruence); assert (Sy' : img y') by (destruct Fy; congruence);
  destruct (maps_exist fuel junk ks sigma order n c h w A x Sx) as (p2 & p3 & Mx);
  destruct (maps_exist fuel junk ks sigma order n c h w A y Sy) as (t2 & t3 & My);
  destruct (maps_exist fuel junk ks sigma order n c h w A x' Sx') as (q2 & q3 & Mx');
  destruct (maps_exist fuel junk ks sigma order n c h w A y' Sy') as (u2 & u3 & My');
  destruct (maps_shape fuel junk ks sigma order _ _ _ Mx) as (B1 & B2); destruct (maps_shape fuel junk ks sigma order _ _ _ My) as (B3 & B4);
  destruct (maps_flip fuel junk ks sigma order n c h w A d x x' p2 p3 q2 q3 OK Sx Hd Fx Mx Mx') as (C1 & C2);
  destruct (maps_flip fuel junk ks sigma order n c h w A d y y' t2 t3 u2 u3 OK Sy Hd Fy My My') as (C3 & C4);
  destruct (flip_moves n c h w d Hd) as (gj & gji & gq & gqi & MV & FO);
  apply FO in C1; [|congruence]; apply FO in C2; [|congruence]; apply FO in C3; [|congruence]; apply FO in C4; [|congruence].
Theorem flip_l1 : loss_value score_l1 fuel junk ks sigma order x y v -> loss_value score_l1 fuel junk ks sigma order x' y' v.
Proof. intros V. flips. apply (l1_moved fuel junk ks sigma order n c h w n c h w A A gj gji gq gqi MV x y x' y' p2 p3 t2 t3 q2 q3 u2 u3 q2 q3 u2 u3 (if Nat.eqb d 2 then sgn order else 1%R) (if Nat.eqb d 3 then sgn order else 1%R)); auto using flip_sign. Qed.
Theorem flip_sum : loss_value score_sum fuel junk ks sigma order x y v -> loss_value score_sum fuel junk ks sigma order x' y' v.
Proof. intros V. flips. apply (sum_moved fuel junk ks sigma order n c h w n c h w A A gj gji gq gqi MV x y x' y' p2 p3 t2 t3 q2 q3 u2 u3 q2 q3 u2 u3 (if Nat.eqb d 2 then sgn order else 1%R) (if Nat.eqb d 3 then sgn order else 1%R)); auto using flip_sign. Qed.
Lemma flip_even a : (d < 2)%nat \/ Z.odd order = false -> (a = 2 \/ a = 3)%nat -> (if Nat.eqb d a then sgn order else 1%R) = 1%R.
Proof.
  intros H Ha. destruct (Nat.eqb_spec d a); auto. destruct H as [H|H]; [lia|]. rewrite sgn_cases, H by now destruct A. reflexivity.
Qed.
Theorem flip_mul : (d < 2)%nat \/ Z.odd order = false ->
  loss_value score_mul fuel junk ks sigma order x y v -> loss_value score_mul fuel junk ks sigma order x' y' v.
Proof.
  intros H V. flips. pose proof (flip_even 2 H ltac:(auto)) as I2. pose proof (flip_even 3 H ltac:(auto)) as I3. rewrite <- (Rmult_1_l v), <- I2 at 1.
  apply (mul_moved fuel junk ks sigma order n c h w n c h w A A gj gji gq gqi MV x y x' y' p2 p3 t2 t3 q2 q3 u2 u3 q2 q3 u2 u3 (if Nat.eqb d 2 then sgn order else 1%R) (if Nat.eqb d 3 then sgn order else 1%R)); auto using flip_sign. now rewrite I2, I3.
Qed.
Theorem flip_div : (d < 2)%nat \/ Z.odd order = false ->
  loss_value score_div fuel junk ks sigma order x y v -> loss_value score_div fuel junk ks sigma order x' y' v.
Proof.
  intros H V. flips. pose proof (flip_even 2 H ltac:(auto)) as I2. pose proof (flip_even 3 H ltac:(auto)) as I3. rewrite <- (Rmult_1_l v), <- I2 at 1.
  apply (div_moved fuel junk ks sigma order n c h w n c h w A A gj gji gq gqi MV x y x' y' p2 p3 t2 t3 q2 q3 u2 u3 q2 q3 u2 u3 (if Nat.eqb d 2 then sgn order else 1%R) (if Nat.eqb d 3 then sgn order else 1%R)); auto using flip_sign. now rewrite I2, I3.
Qed.
End Flip.

(** ** Images turned upside down: both axes mirrored *)
Section Turn.
Variables (fuel : nat) (junk : list Z -> R) (ks : Z) (sigma : R) (order n c h w : Z).
Hypothesis A : loss_args fuel ks sigma order n c h w.
Hypothesis OK : Z.odd ks = true.
Notation img x := (shp x = [n; c; h; w]).
Variables (x y x1 y1 x' y' : T) (v : R).
Hypotheses (Sx : img x) (Sy : img y) (Fx : flipped (F := RF) 2 x x1) (Fx' : flipped (F := RF) 3 x1 x') (Fy : flipped (F := RF) 2 y y1) (Fy' : flipped (F := RF) 3 y1 y').
Lemma turn_moves : moves n c h w n c h w (fun i => i) (fun i => i) (fun i => fl h 0 (fl w 1 i)) (fun i => fl w 1 (fl h 0 i)).
Proof. split; auto; [apply reidx_id|]. exact (reidx_comp _ _ _ _ _ _ _ (reidx_fl0 h w) (reidx_fl1 h w)). Qed.
Lemma turn_follows s3 s2 (D D1 D2 : T) : shp D = [n; c; h; w] -> flipped_times (F := RF) s2 2 D D1 -> flipped_times (F := RF) s3 3 D1 D2 ->
  follows [n; c; h; w] (mv (fun i => i) (fun i => fl h 0 (fl w 1 i))) (s3 * s2)%R D D2.
Proof.
  intros S [S1 E1] [S2 E2] i V. rewrite S1, S in *. rewrite E2 by auto. rewrite E1.
  - apply valid4i in V as (a & b & k & l & -> & _). cbn [fmul RF]. unfold mv, fl. cbn. ring.
  - apply valid4i in V as (a & b & k & l & -> & H1 & H2 & H3 & H4). cbn. repeat constructor; lia.
Qed.
Ltac turns :=
  assert (Sx1 : img x1) by (destruct Fx; congruence); assert (Sy1 : img y1) by (destruct Fy; congruence);
  assert (Sx' : img x') by (destruct Fx'; congruence); assert (Sy' : img y') by (destruct Fy'; congruence);
  destruct (maps_exist fuel junk ks sigma order n c h w A x Sx) as (p2 & p3 & Mx);
  destruct (maps_exist fuel junk ks sigma order n c h w A y Sy) as (t2 & t3 & My);
  destruct (maps_exist fuel junk ks sigma order n c h w A x1 Sx1) as (a2 & a3 & Mx1);
  destruct (maps_exist fuel junk ks sigma order n c h w A y1 Sy1) as (b2 & b3 & My1);
  destruct (maps_exist fuel junk ks sigma order n c h w A x' Sx') as (q2 & q3 & Mx');
  destruct (maps_exist fuel junk ks sigma order n c h w A y' Sy') as (u2 & u3 & My');
  destruct (maps_shape fuel junk ks sigma order _ _ _ Mx) as (B1 & B2); destruct (maps_shape fuel junk ks sigma order _ _ _ My) as (B3 & B4);
  destruct (maps_flip fuel junk ks sigma order n c h w A 2 x x1 p2 p3 a2 a3 OK Sx ltac:(lia) Fx Mx Mx1) as (C1 & C2);
  destruct (maps_flip fuel junk ks sigma order n c h w A 2 y y1 t2 t3 b2 b3 OK Sy ltac:(lia) Fy My My1) as (C3 & C4);
  destruct (maps_flip fuel junk ks sigma order n c h w A 3 x1 x' a2 a3 q2 q3 OK Sx1 ltac:(lia) Fx' Mx1 Mx') as (D1 & D2);
  destruct (maps_flip fuel junk ks sigma order n c h w A 3 y1 y' b2 b3 u2 u3 OK Sy1 ltac:(lia) Fy' My1 My') as (D3 & D4);
  cbn [Nat.eqb] in *;
  pose proof (turn_follows _ _ _ _ _ (eq_trans B1 Sx) C1 D1) as E1; pose proof (turn_follows _ _ _ _ _ (eq_trans B2 Sx) C2 D2) as E2;
  pose proof (turn_follows _ _ _ _ _ (eq_trans B3 Sy) C3 D3) as E3; pose proof (turn_follows _ _ _ _ _ (eq_trans B4 Sy) C4 D4) as E4;
  rewrite Rmult_1_l in E1, E3; rewrite Rmult_1_r in E2, E4;
  pose proof (sgn_one order (la_order _ _ _ _ _ _ _ _ A)) as SO.
Theorem turn_mul : loss_value score_mul fuel junk ks sigma order x y v -> loss_value score_mul fuel junk ks sigma order x' y' ((-1) ^ Z.to_nat order * v)%R.
Proof.
  intros V. turns. change ((-1) ^ Z.to_nat order)%R with (sgn order).
  apply (mul_moved fuel junk ks sigma order n c h w n c h w A A _ _ _ _ turn_moves x y x' y' p2 p3 t2 t3 q2 q3 u2 u3 q2 q3 u2 u3 (sgn order) (sgn order)); auto.
Qed.
Theorem turn_div : loss_value score_div fuel junk ks sigma order x y v -> loss_value score_div fuel junk ks sigma order x' y' ((-1) ^ Z.to_nat order * v)%R.
Proof.
  intros V. turns. change ((-1) ^ Z.to_nat order)%R with (sgn order).
  apply (div_moved fuel junk ks sigma order n c h w n c h w A A _ _ _ _ turn_moves x y x' y' p2 p3 t2 t3 q2 q3 u2 u3 q2 q3 u2 u3 (sgn order) (sgn order)); auto.
Qed.
End Turn.

(** ** Height and width, batch and channels exchanged *)
Lemma component_order fuel junk (e : edge_filter RF) (x : T) a : ndim x = 4%nat -> a = 2 \/ a = 3 ->
  component (F := RF) Rtrunc fuel junk e x (AxInt a) (AxSeq [3; 2]) = component (F := RF) Rtrunc fuel junk e x (AxInt a) (AxSeq [2; 3]).
Proof. intros N Ha. unfold component. rewrite N. destruct Ha as [-> | ->]; reflexivity. Qed.

Section Perm.
Variables (fuel : nat) (junk : list Z -> R) (ks : Z) (sigma : R) (order n c h w : Z).
Hypothesis A : loss_args fuel ks sigma order n c h w.
Variables (ren back : nat -> nat).
Hypothesis RN : renames 4 ren back.
Hypothesis PL : (ren 2 = 2 \/ ren 2 = 3)%nat /\ (ren 3 = 2 \/ ren 3 = 3)%nat.
Notation img x := (shp x = [n; c; h; w]).

Lemma ren_planes : (ren 2 = 2 /\ ren 3 = 3)%nat \/ (ren 2 = 3 /\ ren 3 = 2)%nat.
Proof. assert (ren 2 <> ren 3). { intros E. pose proof (rn_back _ _ _ RN 2 ltac:(lia)). pose proof (rn_back _ _ _ RN 3 ltac:(lia)). congruence. } lia. Qed.
Lemma ren_items : (ren 0 = 0 /\ ren 1 = 1)%nat \/ (ren 0 = 1 /\ ren 1 = 0)%nat.
Proof.
  pose proof ren_planes. assert (I : forall a b, (a < 4)%nat -> (b < 4)%nat -> ren a = ren b -> a = b).
  { intros a b Ha Hb E. rewrite <- (rn_back _ _ _ RN a Ha), <- (rn_back _ _ _ RN b Hb). now rewrite E. }
  pose proof (rn_lt _ _ _ RN 0 ltac:(lia)). pose proof (rn_lt _ _ _ RN 1 ltac:(lia)).
  pose proof (I 0 1)%nat. pose proof (I 0 2)%nat. pose proof (I 0 3)%nat. pose proof (I 1 2)%nat. pose proof (I 1 3)%nat. lia.
Qed.
Lemma perm_moves : exists n' c' h' w' gj gji gq gqi, moves n c h w n' c' h' w' gj gji gq gqi /\ loss_args fuel ks sigma order n' c' h' w' /\
  forall (D E : T), img D -> permuted (F := RF) ren D E -> shp E = [n'; c'; h'; w'] /\ follows [n'; c'; h'; w'] (mv gj gq) 1 D E.
Proof.
  assert (LA : forall n' c' h' w', (n' = n /\ c' = c \/ n' = c /\ c' = n) -> (h' = h /\ w' = w \/ h' = w /\ w' = h) -> loss_args fuel ks sigma order n' c' h' w').
  { intros n' c' h' w' H1 H2. destruct A as [A1 A2 A3 A4 A5]. split; auto; lia. }
  assert (K : forall n' c' h' w' gj gji gq gqi, (n' = n /\ c' = c \/ n' = c /\ c' = n) -> (h' = h /\ w' = w \/ h' = w /\ w' = h) ->
     reidx [n; c] [n'; c'] gj gji -> reidx [h; w] [h'; w'] gq gqi ->
     (forall s, length s = 4%nat -> pull ren 4 s = [n; c; h; w] -> s = [n'; c'; h'; w']) -> (forall i, valid [n'; c'; h'; w'] i -> pull ren 4 i = mv gj gq i) ->
     exists n' c' h' w' gj gji gq gqi, moves n c h w n' c' h' w' gj gji gq gqi /\ loss_args fuel ks sigma order n' c' h' w' /\
       forall (D E : T), img D -> permuted (F := RF) ren D E -> shp E = [n'; c'; h'; w'] /\ follows [n'; c'; h'; w'] (mv gj gq) 1 D E).
  { intros n' c' h' w' gj gji gq gqi H1 H2 J Q H3 H4. exists n', c', h', w', gj, gji, gq, gqi.
    split; [split; auto; [destruct H1 as [[-> ->]|[-> ->]]|destruct H2 as [[-> ->]|[-> ->]]]; lia|]. split; [now apply LA|].
    intros D E SD [N [S V]]. unfold ndim in *. rewrite SD in *. cbn [length] in *.
    assert (SE : shp E = [n'; c'; h'; w']) by (apply H3; auto). split; auto. intros i Vi. rewrite V by (now rewrite SE). rewrite Rmult_1_l. f_equal. now apply H4. }
  assert (P4 : forall s : list Z, pull ren 4 s = [nth (ren 0%nat) s 0; nth (ren 1%nat) s 0; nth (ren 2%nat) s 0; nth (ren 3%nat) s 0]) by reflexivity.
  assert (L4 : forall s : list Z, length s = 4%nat -> exists a b k l, s = [a; b; k; l]).
  { intros s. destruct s as [|a [|b [|k [|l [|? ?]]]]]; try discriminate. intros _. eauto. }
  destruct ren_items as [[I0 I1]|[I0 I1]], ren_planes as [[I2 I3]|[I2 I3]].
  - apply (K n c h w _ _ _ _ ltac:(auto) ltac:(auto) (reidx_id _) (reidx_id _)).
    + intros s Ls H. destruct (L4 s Ls) as (a & b & k & l & ->). rewrite P4, I0, I1, I2, I3 in H. cbn in H. congruence.
    + intros i V. apply valid4i in V as (a & b & k & l & -> & _). rewrite P4, I0, I1, I2, I3. reflexivity.
  - apply (K n c w h _ _ _ _ ltac:(auto) ltac:(auto) (reidx_id _) (reidx_swap h w)).
    + intros s Ls H. destruct (L4 s Ls) as (a & b & k & l & ->). rewrite P4, I0, I1, I2, I3 in H. cbn in H. congruence.
    + intros i V. apply valid4i in V as (a & b & k & l & -> & _). rewrite P4, I0, I1, I2, I3. reflexivity.
  - apply (K c n h w _ _ _ _ ltac:(auto) ltac:(auto) (reidx_swap n c) (reidx_id _)).
    + intros s Ls H. destruct (L4 s Ls) as (a & b & k & l & ->). rewrite P4, I0, I1, I2, I3 in H. cbn in H. congruence.
    + intros i V. apply valid4i in V as (a & b & k & l & -> & _). rewrite P4, I0, I1, I2, I3. reflexivity.
  - apply (K c n w h _ _ _ _ ltac:(auto) ltac:(auto) (reidx_swap n c) (reidx_swap h w)).
    + intros s Ls H. destruct (L4 s Ls) as (a & b & k & l & ->). rewrite P4, I0, I1, I2, I3 in H. cbn in H. congruence.
    + intros i V. apply valid4i in V as (a & b & k & l & -> & _). rewrite P4, I0, I1, I2, I3. reflexivity.
Qed.
Theorem maps_perm (x x' d2 d3 e2 e3 : T) : img x -> permuted (F := RF) ren x x' ->
  edge_maps fuel junk ks sigma order x d2 d3 -> edge_maps fuel junk ks sigma order x' e2 e3 ->
  permuted (F := RF) ren d2 (if Nat.eqb (ren 2) 2 then e2 else e3) /\ permuted (F := RF) ren d3 (if Nat.eqb (ren 2) 2 then e3 else e2).
Proof.
  intros Sx P M1 M2. destruct (setup fuel ks sigma order n c h w A) as (k0 & kn & e & K0 & KN & L0 & LN & SU & EI & HI & NE & RD).
  apply (maps_is _ _ _ _ _ e) in M1; auto. apply (maps_is _ _ _ _ _ e) in M2; auto.
  destruct M1 as [M12 [M13 _]]. destruct M2 as [M22 [M23 _]].
  assert (Nd : ndim x = 4%nat) by (unfold ndim; rewrite Sx; reflexivity). assert (Nd' : ndim x' = 4%nat) by (destruct P; congruence).
  assert (G : forall a, In a [2; 3]%nat -> exists y y', snd (component (F := RF) Rtrunc fuel junk e x (AxInt (Z.of_nat a)) (AxSeq [2; 3])) = Ok y /\
     snd (component (F := RF) Rtrunc fuel junk e x' (AxInt (Z.of_nat (ren a))) (AxSeq (map Z.of_nat (map ren [2; 3]%nat)))) = Ok y' /\ permuted (F := RF) ren y y').
  { intros a Ha. apply (component_perm RF Rtrunc 4 ren back RN fuel junk junk kn (NItem k0) [k0] true reflR MReflect false e x x' (AxInt (Z.of_nat a)) (AxInt (Z.of_nat (ren a))) (AxSeq [2; 3]) (AxSeq [2; 3]) (AxSeq (map Z.of_nat (map ren [2; 3]%nat))) a [2; 3]%nat ks); auto.
    - apply check_one.
    - apply check_one.
    - apply (ready_image RF fuel reflR MReflect ks n c h w); auto.
    - apply check_axes_seq_nat. cbn [map]. destruct ren_planes as [[-> ->]|[-> ->]]; intros b [<-|[<-|[]]]; lia.
    - lia.
    - rewrite (two_three a Ha). reflexivity.
    - intros s [<-|[]]. lia. }
  destruct (G 2%nat) as [y [y' [Y1 [Y2 Y3]]]]; [now left|]. destruct (G 3%nat) as [z [z' [Z1 [Z2 Z3]]]]; [now right; left|]. clear G.
  change (AxInt (Z.of_nat 2)) with (AxInt 2) in Y1. change (AxInt (Z.of_nat 3)) with (AxInt 3) in Z1.
  rewrite Y1 in M12. rewrite Z1 in M13. injection M12 as <-. injection M13 as <-. cbn [map] in *.
  destruct ren_planes as [[I2 I3]|[I2 I3]]; rewrite I2, I3 in *; cbn [Nat.eqb].
  - change (AxInt (Z.of_nat 2)) with (AxInt 2) in Y2. change (AxInt (Z.of_nat 3)) with (AxInt 3) in Z2. change [Z.of_nat 2; Z.of_nat 3] with [2; 3] in *.
    rewrite Y2 in M22. rewrite Z2 in M23. injection M22 as <-. injection M23 as <-. auto.
  - change (AxInt (Z.of_nat 2)) with (AxInt 2) in Z2. change (AxInt (Z.of_nat 3)) with (AxInt 3) in Y2. change [Z.of_nat 3; Z.of_nat 2] with [3; 2] in *.
    rewrite component_order in Y2, Z2 by auto. rewrite Y2 in M23. rewrite Z2 in M22. injection M22 as <-. injection M23 as <-. auto.
Qed.

Variables (x y x' y' : T) (v : R).
Hypotheses (Sx : img x) (Sy : img y) (Px : permuted (F := RF) ren x x') (Py : permuted (F := RF) ren y y').
Ltac moved L :=
  destruct perm_moves as (n' & c' & h' & w' & gj & gji & gq & gqi & MV & A' & FO);
  destruct (FO _ _ Sx Px) as (Sx' & _); destruct (FO _ _ Sy Py) as (Sy' & _);
  destruct (maps_exist fuel junk ks sigma order n c h w A x Sx) as (p2 & p3 & Mx);
  destruct (maps_exist fuel junk ks sigma order n c h w A y Sy) as (t2 & t3 & My);
  destruct (maps_exist fuel junk ks sigma order n' c' h' w' A' x' Sx') as (q2 & q3 & Mx');
  destruct (maps_exist fuel junk ks sigma order n' c' h' w' A' y' Sy') as (u2 & u3 & My');
  destruct (maps_shape fuel junk ks sigma order _ _ _ Mx) as (B1 & B2); destruct (maps_shape fuel junk ks sigma order _ _ _ My) as (B3 & B4);
  destruct (maps_perm x x' p2 p3 q2 q3 Sx Px Mx Mx') as (C1 & C2);
  destruct (maps_perm y y' t2 t3 u2 u3 Sy Py My My') as (C3 & C4);
  apply FO in C1; [|congruence]; apply FO in C2; [|congruence]; apply FO in C3; [|congruence]; apply FO in C4; [|congruence];
  destruct (Nat.eqb (ren 2) 2);
  [apply (L fuel junk ks sigma order n c h w n' c' h' w' A A' gj gji gq gqi MV x y x' y' p2 p3 t2 t3 q2 q3 u2 u3 q2 q3 u2 u3 1%R 1%R); try tauto
  |apply (L fuel junk ks sigma order n c h w n' c' h' w' A A' gj gji gq gqi MV x y x' y' p2 p3 t2 t3 q2 q3 u2 u3 q3 q2 u3 u2 1%R 1%R); try tauto].
Theorem perm_l1 : loss_value score_l1 fuel junk ks sigma order x y v -> loss_value score_l1 fuel junk ks sigma order x' y' v.
Proof. intros V. moved l1_moved. Qed.
Theorem perm_sum : loss_value score_sum fuel junk ks sigma order x y v -> loss_value score_sum fuel junk ks sigma order x' y' v.
Proof. intros V. moved sum_moved. Qed.
Theorem perm_mul : loss_value score_mul fuel junk ks sigma order x y v -> loss_value score_mul fuel junk ks sigma order x' y' v.
Proof. intros V. rewrite <- (Rmult_1_l v). moved mul_moved. Qed.
Theorem perm_div : loss_value score_div fuel junk ks sigma order x y v -> loss_value score_div fuel junk ks sigma order x' y' v.
Proof. intros V. rewrite <- (Rmult_1_l v). moved div_moved. Qed.
End Perm.

(** ** WeightedMul does not see point-symmetric images *)
Theorem mul_symmetric fuel junk ks sigma order n c h w (x y x1 y1 : T) : loss_args fuel ks sigma order n c h w -> Z.odd ks = true -> Z.odd order = true ->
  shp x = [n; c; h; w] -> shp y = [n; c; h; w] ->
  flipped (F := RF) 2 x x1 -> flipped (F := RF) 3 x1 x -> flipped (F := RF) 2 y y1 -> flipped (F := RF) 3 y1 y ->
  loss_value score_mul fuel junk ks sigma order x y 0%R.
Proof.
  intros A O1 O2 Sx Sy F1 F2 F3 F4.
  destruct (maps_exist fuel junk ks sigma order n c h w A x Sx) as (p2 & p3 & Mx).
  destruct (maps_exist fuel junk ks sigma order n c h w A y Sy) as (t2 & t3 & My).
  pose proof (gl_mul_value fuel junk ks sigma order n c h w A x y p2 p3 t2 t3 _ Sx Sy Mx My (pixels_list _)) as V.
  pose proof (turn_mul fuel junk ks sigma order n c h w A O1 x y x1 y1 x y _ Sx Sy F1 F2 F3 F4 V) as V'.
  pose proof (value_unique _ _ _ _ _ _ _ _ _ _ V V') as E.
  pose proof (sgn_cases order (la_order _ _ _ _ _ _ _ _ A)) as S. unfold sgn in S. rewrite O2 in S. rewrite S in E.
  match type of V with loss_value _ _ _ _ _ _ _ _ ?v => assert (v = 0%R) as Z by lra; rewrite Z in V end. exact V.
Qed.
