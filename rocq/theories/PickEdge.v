(** Edge filters work item by item along the axes they leave alone. *)
From Verif Require Export EdgeFlip PickPool.
Open Scope Z_scope.

Section PickEdge.
Variable F : ofield.
Notation T := (tensor F).
Variable trunc : F -> Z.
Variables (d : nat) (g : Z -> Z) (n : Z).

Lemma line_pick a (x x' : T) (ker : list F) m j : picked d g n x x' -> (a < ndim x)%nat -> d <> a -> m = nth a (shp x) 0 - klen ker + 1 ->
  valid (upd a m (shp x')) j ->
  line_corr F x' ker a j = line_corr F x ker a (upd d (g (nth d j 0)) j).
Proof.
  intros (Sx & G & Vx) Ha Hne -> Vj. unfold ndim in Ha. assert (K0 : 0 <= klen ker) by (unfold klen; lia).
  pose proof (valid_length _ _ Vj) as Lj. rewrite upd_length in Lj.
  pose proof (valid_nth _ _ a Vj) as Vn. rewrite upd_length, Sx, upd_length in Vn. specialize (Vn Ha). rewrite nth_upd_eq in Vn by (now rewrite upd_length).
  unfold line_corr. apply fsum_ext. intros q Hq.
  assert (V1 : valid (shp x') (upd a (nth a j 0 + q) j)).
  { eapply valid_upd_back; [exact Vj|]. rewrite Sx, nth_upd_ne by auto. lia. }
  rewrite Vx by auto. rewrite !nth_upd_ne by auto. f_equal. f_equal. apply upd_comm. auto.
Qed.

Lemma conv_pick fuel junk fuel' junk' ker smooth normalize p m shared (e : edge_filter F) (x x' : T) ax al k c :
  edge_init (NItem ker) smooth normalize (Some p) shared = Ok e -> ker <> [] -> In c al ->
  edge_image fuel p m x ax al k -> edge_image fuel' p m x' ax al k -> klen ker <= k ->
  (d < ndim x)%nat -> ~ In d al -> picked d g n x x' ->
  exists z z', snd (conv_edge trunc fuel junk e x (Z.of_nat c)) = Ok z /\ snd (conv_edge trunc fuel' junk' e x' (Z.of_nat c)) = Ok z' /\
    picked d g n z z' /\ shp z = upd c (nth c (shp z) 0) (shp x) /\ nth c (shp x) 0 <= nth c (shp z) 0 <= nth c (shp x) 0 + 1 /\
    (m <> MPeriodize -> shp z = shp x).
Proof.
  intros HI Hk Hin EI EI' Hlk Hd Nd P. pose proof P as (Sx & _). pose proof EI as [[A1 A2 A3] P0 Pos1 U M FU].
  assert (Hne : d <> c) by (intros ->; auto).
  pose proof (edge_image_one F fuel p m x ax al k c ker EI Hin Hlk) as SC.
  pose proof (edge_image_one F fuel' p m x' ax al k c ker EI' Hin Hlk) as SC'.
  pose proof (A2 c Hin) as Hcx.
  destruct (conv_edge_same F trunc fuel junk ker smooth normalize p shared e x c [m] HI Hk SC) as
    [w [xp [z [W1 [W2 [W3 [W4 [W5 [W6 [C1 [C2 [CX [CB [C3 C4]]]]]]]]]]]]]].
  destruct (conv_edge_same F trunc fuel' junk' ker smooth normalize p shared e x' c [m] HI Hk SC') as
    [wy [yp [z' [V1 [V2 [V3 [V4 [V5 [V6 [D1 [D2 [DX [DB [D3 D4]]]]]]]]]]]]]].
  assert (wy = w) by (eapply same_width_unique; [|exact V1|rewrite Sx, nth_upd_ne by auto; exact W1]; lia). subst wy.
  assert (PF : padder_for 1 p [m]) by (apply (uniform_for F 1); auto).
  assert (ND : NoDup [c]) by (constructor; [intros []|constructor]).
  destruct (padding_pick F d g n fuel junk fuel' junk' (with_width p [w]) x x' (AxInt (Z.of_nat c)) [c] W2 V2 W3) as [u [u' [F1 [F2 Fu]]]]; auto.
  { intros b q Hq. destruct (with_width_par F 1 p [m] [w] [c] PF eq_refl eq_refl ND) as [LA Q]. rewrite LA in Hq.
    destruct (in_dec Nat.eq_dec b [c]) as [Hi|Hi]; [|rewrite axis_par_notin in Hq by auto; discriminate].
    destruct Hi as [<-|[]]. destruct (Q 0%nat ltac:(lia)) as [q' [Q1 [_ [_ Q4]]]]. cbn [nth] in Q1. rewrite Q1 in Hq. injection Hq as <-. rewrite Q4.
    apply fills_not_empty; auto. }
  { intros [E|[]]; auto. }
  rewrite W6 in F1. rewrite V6 in F2. injection F1 as <-. injection F2 as <-. pose proof Fu as (Su & Gu & _).
  assert (Nz : ndim xp = ndim x) by (unfold ndim; rewrite CX; apply upd_length).
  assert (Szp : shp z = upd c (nth c (shp xp) 0 - klen ker + 1) (shp xp)) by (rewrite C2, CX, upd_upd; reflexivity).
  assert (Szp' : shp z' = upd c (nth c (shp xp) 0 - klen ker + 1) (shp yp)).
  { assert (E : nth c (shp yp) 0 = nth c (shp xp) 0) by (rewrite Su, nth_upd_ne by auto; reflexivity).
    rewrite D2, E. rewrite DX, upd_upd. reflexivity. }
  exists z, z'. split; auto. split; auto. split; [|split; [|split]].
  - split; [rewrite Szp', Szp, Su; apply upd_comm; congruence|]. split; [intros q Hq; rewrite Szp, nth_upd_ne by auto; auto|].
    intros j Vj. rewrite D4 by auto. assert (VF : valid (shp z) (upd d (g (nth d j 0)) j)).
    { rewrite Szp' in Vj. rewrite Su, upd_comm in Vj by auto. rewrite <- Szp in Vj. eapply valid_upd_back; [exact Vj|].
      rewrite Szp, nth_upd_ne by auto. apply Gu. pose proof (valid_nth _ _ d Vj) as B.
      rewrite upd_length in B. rewrite nth_upd_eq in B; [apply B|]; rewrite Szp, upd_length; unfold ndim in *; lia. }
    rewrite C4 by auto. apply (line_pick c xp yp _ (nth c (shp xp) 0 - klen ker + 1)); auto; try lia.
    + rewrite used_klen. reflexivity.
    + now rewrite <- Szp'.
  - rewrite C2. rewrite nth_upd_eq by auto. reflexivity.
  - rewrite C2, nth_upd_eq by auto. lia.
  - intros Nm. apply C3. intros [E|[]]; congruence.
Qed.

(** component, with a padder. *)
Theorem component_pick fuel junk fuel' junk' ker smooth raw normalize p m shared (e : edge_filter F) (x x' : T) ea ax ax' c al k :
  edge_init (NItem ker) smooth normalize (Some p) shared = Ok e -> ker <> [] ->
  check_axes (Z.of_nat (ndim x)) ea = Ok [Z.of_nat c] -> In c al ->
  edge_image fuel p m x ax al (k + 1) -> edge_image fuel' p m x' ax al (k + 1) -> check_axes (Z.of_nat (ndim x)) ax' = Ok (map Z.of_nat al) -> klen ker <= k ->
  expand (length (without c al)) smooth = Some raw -> (forall s, In s raw -> klen s <= k) ->
  (d < ndim x)%nat -> ~ In d al -> picked d g n x x' ->
  exists y y', snd (component trunc fuel junk e x ea ax') = Ok y /\ snd (component trunc fuel' junk' e x' ea ax') = Ok y' /\ picked d g n y y'.
Proof.
  intros HI Hk Ha Hin EI EI' Hax Hlk Hr Hs Hd Nd P. pose proof P as (Sx & _).
  assert (K0 : 0 <= k) by (unfold klen in Hlk; lia). pose proof EI as [[A1 A2 A3] _ _ U _ _].
  destruct (conv_pick fuel junk fuel' junk' ker smooth normalize p m shared e x x' ax al (k + 1) c HI Hk Hin EI EI' ltac:(lia) Hd Nd P) as
    [z [z' [C1 [C2 [FT [Dz [Dn _]]]]]]].
  destruct (edge_init_built F _ _ _ _ _ _ HI) as [I1 [I2 [I3 I4]]]. specialize (I4 _ _ Hr).
  assert (Nz : ndim z = ndim x) by (unfold ndim; rewrite Dz; apply upd_length).
  pose proof FT as (Sz & _).
  assert (Nz' : ndim z' = ndim x') by (unfold ndim in *; rewrite Sz, Sx, !upd_length; auto).
  pose proof (A2 c Hin) as Hc. assert (Hne : d <> c) by (intros ->; auto).
  assert (Bz : forall b, (b < ndim x)%nat -> nth b (shp x) 0 <= nth b (shp z) 0 <= nth b (shp x) 0 + 1).
  { intros b Hb. destruct (Nat.eq_dec b c) as [->|N]; auto. rewrite Dz, nth_upd_ne by auto. lia. }
  assert (Bz' : forall b, (b < ndim x')%nat -> nth b (shp x') 0 <= nth b (shp z') 0 <= nth b (shp x') 0 + 1).
  { intros b Hb. unfold ndim in *. rewrite Sz, Sx in *. rewrite upd_length in Hb. destruct (Nat.eq_dec b d) as [->|N]; [rewrite !nth_upd_eq by lia; lia|].
    rewrite !nth_upd_ne by auto. apply Bz. auto. }
  pose proof (edge_image_rest F fuel p m z _ al k c (smoothers normalize raw) (edge_image_shape F _ _ _ _ _ _ _ _ EI Nz Bz) Hin K0 (smoothers_len F normalize raw k Hs)) as SC2.
  pose proof (edge_image_rest F fuel' p m z' _ al k c (smoothers normalize raw) (edge_image_shape F _ _ _ _ _ _ _ _ EI' Nz' Bz') Hin K0 (smoothers_len F normalize raw k Hs)) as SC3.
  destruct (pool_same_pick F d g n fuel junk fuel' junk' (ef_smooth e) z z' _ (without c al) (smoothers normalize raw) (repeat 1 (length (without c al))) p
    (repeat m (length (without c al))) I4 SC2 SC3) as [y [y' [Y1 [Y2 Y3]]]]; auto.
  { now rewrite Nz. }
  { intros H. apply Nd. unfold without in H. apply filter_In in H. tauto. }
  exists y, y'. split; [|split; auto].
  - rewrite (component_smooths F trunc fuel junk ker smooth normalize (Some p) shared e x z ea ax' c al); auto.
  - rewrite (component_smooths F trunc fuel' junk' ker smooth normalize (Some p) shared e x' z' ea ax' c al); auto; unfold ndim in *; now rewrite Sx, upd_length.
Qed.

Theorem magnitude_pick fuel junk fuel' junk' normalize p m shared (e : edge_filter F) (x x' : T) ker smooth ax al eps pw : truncates trunc ->
  named normalize (Some p) shared e ker smooth -> edge_image fuel p m x ax al 6 -> edge_image fuel' p m x' ax al 6 -> m <> MPeriodize -> (2 <= length al)%nat ->
  (d < ndim x)%nat -> ~ In d al -> picked d g n x x' ->
  exists y y', snd (magnitude trunc fuel junk e x ax eps pw) = Ok y /\ snd (magnitude trunc fuel' junk' e x' ax eps pw) = Ok y' /\ picked d g n y y'.
Proof.
  intros TR N EI EI' Nm Hl Hd Nd P. pose proof EI as [[A1 A2 A3] _ _ _ _ _]. pose proof P as (Sx & Gx & _).
  assert (Nx : ndim x' = ndim x) by (unfold ndim; rewrite Sx; apply upd_length).
  destruct (named_len F _ _ _ _ _ _ N) as [L1 L2]. pose proof (named_balanced F trunc _ _ _ _ _ _ TR N) as [Nk _].
  pose proof (named_init _ _ _ _ _ _ _ N) as HI.
  assert (CA : check_axes (Z.of_nat (ndim x)) (AxSeq (map Z.of_nat al)) = Ok (map Z.of_nat al)) by (apply check_axes_seq_nat; auto).
  assert (C : forall a, In a al -> exists y y', snd (component trunc fuel junk e x (AxInt (Z.of_nat a)) (AxSeq (map Z.of_nat al))) = Ok y /\
     snd (component trunc fuel' junk' e x' (AxInt (Z.of_nat a)) (AxSeq (map Z.of_nat al))) = Ok y' /\
     shp y = shp x /\ picked d g n y y').
  { intros a Hin.
    destruct (component_pick fuel junk fuel' junk' ker (NItem smooth) (repeat smooth (length (without a al))) normalize p m shared e x x'
      (AxInt (Z.of_nat a)) ax (AxSeq (map Z.of_nat al)) a al 5) as [y [y' [Y1 [Y2 Y3]]]]; auto.
    - apply check_one.
    - intros s Hs. apply repeat_spec in Hs. subst. lia.
    - exists y, y'. split; auto. split; auto. split; auto.
      eapply (component_shape F trunc fuel junk ker (NItem smooth) (repeat smooth (length (without a al))) normalize p m shared e x y
        (AxInt (Z.of_nat a)) ax (AxSeq (map Z.of_nat al)) a al 6); auto; try lia.
      + apply check_one.
      + intros s Hs. apply repeat_spec in Hs. subst. lia. }
  set (cs := fun a => match snd (component trunc fuel junk e x (AxInt (Z.of_nat a)) (AxSeq (map Z.of_nat al))) with Ok y => y | Err _ => x end).
  set (cs' := fun a => match snd (component trunc fuel' junk' e x' (AxInt (Z.of_nat a)) (AxSeq (map Z.of_nat al))) with Ok y => y | Err _ => x end).
  assert (Hk0 : ker <> []) by (destruct N; discriminate). 
  destruct (magnitude_ok F trunc fuel junk ker (NItem smooth) normalize (Some p) shared e x ax al eps pw cs (shp x)) as [y [Y1 [Y2 Y3]]]; auto.
  { intros a Hin. destruct (C a Hin) as [y [y' [C1 [C2 [C3 C4]]]]]. unfold cs. rewrite C1. auto. }
  destruct (magnitude_ok F trunc fuel' junk' ker (NItem smooth) normalize (Some p) shared e x' ax al eps pw cs' (shp x')) as [y' [Z1 [Z2 Z3]]]; auto.
  { now rewrite Nx. }
  { intros a Hin. destruct (C a Hin) as [y0 [y' [C1 [C2 [C3 C4]]]]]. unfold cs'. rewrite C2. split; auto. destruct C4. congruence. }
  exists y, y'. split; auto. split; auto. split; [congruence|]. split; [rewrite Y2; auto|]. intros i Vi. rewrite Z2 in Vi.
  pose proof (pick_valid F d g n x x' i P Vi) as Vf.
  rewrite Z3, Y3 by auto. f_equal. f_equal. unfold axis_sum. f_equal. apply map_ext_in. intros a Hin.
  destruct (C a Hin) as [y0 [y1 [C1 [C2 [C3 (C4 & _ & C5)]]]]]. unfold cs, cs'. rewrite C1, C2, C5; [reflexivity|]. rewrite C4, C3. now rewrite <- Sx.
Qed.
End PickEdge.
