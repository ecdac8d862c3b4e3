(** Edge filters treat no axis specially: an image with renamed axes gives the edge images with renamed axes. *)
From Verif Require Export EdgeFlip PickEdge AxisPerm.
Open Scope Z_scope.

Section PermEdge.
Variable F : ofield.
Notation T := (tensor F).
Variable trunc : F -> Z.
Variables (n : nat) (ren back : nat -> nat).
Hypothesis RN : renames n ren back.

Lemma perm_shape (x x' : T) : ndim x = n -> permuted ren x x' -> forall b, (b < n)%nat -> nth (ren b) (shp x') 0 = nth b (shp x) 0.
Proof. intros Nx (_ & S1 & _) b Hb. rewrite S1, Nx. now rewrite (pull_nth n ren). Qed.
Lemma perm_shape_back (x x' : T) : ndim x = n -> permuted ren x x' -> forall b, (b < n)%nat -> nth b (shp x') 0 = nth (back b) (shp x) 0.
Proof. intros Nx P b Hb. rewrite <- (perm_shape x x' Nx P) by (now apply (rn_back_lt _ _ _ RN)). now rewrite (rn_ren _ _ _ RN). Qed.
Lemma perm_edge_image fuel p m (x x' : T) ax ax' al k : ndim x = n -> permuted ren x x' -> edge_image fuel p m x ax al k ->
  check_axes (Z.of_nat n) ax' = Ok (map Z.of_nat (map ren al)) -> edge_image fuel p m x' ax' (map ren al) k.
Proof.
  intros Nx P [OA P0 P1 U M FU] H. pose proof P as (N' & _). rewrite Nx in N', P0, FU. split; auto.
  - exact (ren_on_axes F n ren back RN x x' ax ax' al Nx P OA H).
  - intros b Hb. rewrite N' in Hb. rewrite (perm_shape_back x x') by auto. apply P0. now apply (rn_back_lt _ _ _ RN).
  - intros b Hb. apply in_map_iff in Hb as [a [<- Ha]]. rewrite (perm_shape x x'); auto. pose proof (oa_in _ _ _ OA a Ha). lia.
  - intros b Hb. rewrite N' in Hb. rewrite (perm_shape_back x x') by auto. apply FU. now apply (rn_back_lt _ _ _ RN).
Qed.
Lemma without_ren c al : (c < n)%nat -> (forall a, In a al -> (a < n)%nat) -> without (ren c) (map ren al) = map ren (without c al).
Proof.
  intros Hc. induction al as [|a al IH]; intros H; [reflexivity|]. cbn [map]. unfold without in *. cbn [filter].
  rewrite IH by (intros; apply H; now right). specialize (H a (or_introl eq_refl)).
  destruct (Nat.eqb_spec (ren a) (ren c)) as [E|E], (Nat.eqb_spec a c) as [E'|E']; cbn [negb map]; auto; exfalso.
  - apply E'. now apply (ren_inj n ren back RN).
  - now subst.
Qed.
Lemma perm_valid (x x' : T) i : ndim x = n -> permuted ren x x' -> valid (shp x') i -> valid (shp x) (pull ren n i).
Proof. intros Nx (N' & S1 & _) V. rewrite S1, Nx. apply (pull_valid n ren back RN); auto. rewrite <- Nx. exact N'. Qed.

Lemma line_perm c (x x' : T) (ker : list F) m j : permuted ren x x' -> ndim x = n -> (c < n)%nat -> m = nth c (shp x) 0 - klen ker + 1 ->
  valid (upd (ren c) m (shp x')) j ->
  line_corr F x' ker (ren c) j = line_corr F x ker c (pull ren n j).
Proof.
  intros P Nx Hc -> Vj. pose proof P as (N' & S1 & E1). rewrite Nx in *. pose proof (rn_lt _ _ _ RN c Hc) as Hr.
  unfold ndim in N'. pose proof (valid_length _ _ Vj) as Lj. rewrite upd_length, N' in Lj.
  pose proof (valid_nth _ _ (ren c) Vj) as Vn. rewrite upd_length, N', nth_upd_eq in Vn by lia. specialize (Vn Hr).
  unfold line_corr. apply fsum_ext. intros q Hq.
  rewrite E1. 2:{ eapply valid_upd_back; [exact Vj|]. rewrite (perm_shape x x') by auto. unfold klen in *. lia. }
  rewrite (pull_upd n ren back RN) by auto. now rewrite (pull_nth n ren c j Hc).
Qed.

Lemma conv_perm fuel junk junk' ker smooth normalize p m shared (e : edge_filter F) (x x' : T) ax ax' al k c :
  edge_init (NItem ker) smooth normalize (Some p) shared = Ok e -> ker <> [] -> In c al ->
  edge_image fuel p m x ax al k -> edge_image fuel p m x' ax' (map ren al) k -> klen ker <= k -> ndim x = n -> permuted ren x x' ->
  exists z z', snd (conv_edge trunc fuel junk e x (Z.of_nat c)) = Ok z /\ snd (conv_edge trunc fuel junk' e x' (Z.of_nat (ren c))) = Ok z' /\
    permuted ren z z' /\ ndim z = n /\ shp z = upd c (nth c (shp z) 0) (shp x) /\ nth c (shp x) 0 <= nth c (shp z) 0 <= nth c (shp x) 0 + 1.
Proof.
  intros HI Hk Hin EI EI' Hlk Nx P. pose proof P as (N' & S1 & E1). rewrite Nx in N', S1, E1. pose proof EI as [[A1 A2 A3] P0 Pos1 U M FU].
  pose proof (A2 c Hin) as Hcx. rewrite Nx in Hcx. pose proof (rn_lt _ _ _ RN c Hcx) as Hrc.
  pose proof (edge_image_one F fuel p m x ax al k c ker EI Hin Hlk) as SC.
  pose proof (edge_image_one F fuel p m x' ax' (map ren al) k (ren c) ker EI' (in_map ren _ _ Hin) Hlk) as SC'.
  destruct (conv_edge_same F trunc fuel junk ker smooth normalize p shared e x c [m] HI Hk SC) as
    [w [xp [z [W1 [W2 [W3 [W4 [W5 [W6 [C1 [C2 [CX [CB [C3 C4]]]]]]]]]]]]]].
  destruct (conv_edge_same F trunc fuel junk' ker smooth normalize p shared e x' (ren c) [m] HI Hk SC') as
    [wy [yp [z' [V1 [V2 [V3 [V4 [V5 [V6 [D1 [D2 [DX [DB [D3 D4]]]]]]]]]]]]]].
  assert (wy = w). { eapply same_width_unique; [|exact V1|rewrite (perm_shape x x' Nx P) by auto; exact W1]; lia. } subst wy.
  assert (PF : padder_for 1 p [m]) by (apply (uniform_for F 1); auto).
  assert (ND : NoDup [c]) by (constructor; [intros []|constructor]).
  destruct (padding_permuted F n ren back RN fuel junk junk' (with_width p [w]) x x' (AxInt (Z.of_nat c)) (AxInt (Z.of_nat (ren c))) [c] Nx P W2 W3)
    as [u [u' [F1 [F2 [Nu Fu]]]]]; auto.
  { intros b q Hq. destruct (with_width_par F 1 p [m] [w] [c] PF eq_refl eq_refl ND) as [LA Q]. rewrite LA in Hq.
    destruct (in_dec Nat.eq_dec b [c]) as [Hi|Hi]; [|rewrite axis_par_notin in Hq by auto; discriminate].
    destruct Hi as [<-|[]]. destruct (Q 0%nat ltac:(lia)) as [q' [Q1 [_ [_ Q4]]]]. cbn [nth] in Q1. rewrite Q1 in Hq. injection Hq as <-. rewrite Q4.
    apply fills_not_empty; auto. }
  { apply check_one. }
  rewrite W6 in F1. rewrite V6 in F2. injection F1 as <-. injection F2 as <-.
  assert (Nz : ndim z = n) by (unfold ndim; rewrite C2, upd_length; exact Nx).
  set (mm := nth c (shp xp) 0 - klen ker + 1).
  assert (Szp : shp z = upd c mm (shp xp)) by (rewrite C2; fold mm; rewrite CX, upd_upd; reflexivity).
  assert (Szp' : shp z' = upd (ren c) mm (shp yp)).
  { rewrite D2, (perm_shape xp yp Nu Fu c Hcx). fold mm. rewrite DX, upd_upd. reflexivity. }
  pose proof Fu as (Ny & Sy & _). rewrite Nu in Ny, Sy.
  assert (Sz : shp z = pull ren n (shp z')) by (rewrite Szp', Szp, (pull_upd n ren back RN); auto; now rewrite <- Sy).
  exists z, z'. split; auto. split; auto. split; [|split; [auto|split]].
  - split; [rewrite Nz; unfold ndim; rewrite Szp', upd_length; exact Ny|]. rewrite Nz. split; [exact Sz|].
    intros j Vj. rewrite D4 by auto. assert (VF : valid (shp z) (pull ren n j)).
    { rewrite Sz. apply (pull_valid n ren back RN); auto. rewrite Szp', upd_length. exact Ny. }
    rewrite C4 by auto. apply (line_perm c xp yp _ mm); auto.
    + unfold mm. now rewrite used_klen.
    + now rewrite <- Szp'.
  - rewrite C2. rewrite nth_upd_eq by (fold (ndim x); lia). reflexivity.
  - rewrite C2, nth_upd_eq by (fold (ndim x); lia). lia.
Qed.

Theorem component_perm fuel junk junk' ker smooth raw normalize p m shared (e : edge_filter F) (x x' : T) ea ea' ax axr ax' c al k :
  edge_init (NItem ker) smooth normalize (Some p) shared = Ok e -> ker <> [] ->
  check_axes (Z.of_nat n) ea = Ok [Z.of_nat c] -> check_axes (Z.of_nat n) ea' = Ok [Z.of_nat (ren c)] -> In c al ->
  edge_image fuel p m x ax al (k + 1) -> check_axes (Z.of_nat n) axr = Ok (map Z.of_nat al) -> check_axes (Z.of_nat n) ax' = Ok (map Z.of_nat (map ren al)) ->
  klen ker <= k -> expand (length (without c al)) smooth = Some raw -> (forall s, In s raw -> klen s <= k) ->
  ndim x = n -> permuted ren x x' ->
  exists y y', snd (component trunc fuel junk e x ea axr) = Ok y /\ snd (component trunc fuel junk' e x' ea' ax') = Ok y' /\ permuted ren y y'.
Proof.
  intros HI Hk Ha Ha' Hin EI Hxr Hax Hlk Hr Hs Nx P. pose proof P as (N' & _). rewrite Nx in N'.
  pose proof (perm_edge_image fuel p m x x' ax ax' al (k + 1) Nx P EI Hax) as EI'.
  assert (K0 : 0 <= k) by (unfold klen in Hlk; lia). pose proof EI as [[A1 A2 A3] _ _ U _ _]. rewrite Nx in A2.
  pose proof EI' as [[A1' A2' A3'] _ _ _ _ _].
  destruct (conv_perm fuel junk junk' ker smooth normalize p m shared e x x' ax ax' al (k + 1) c HI Hk Hin EI EI' ltac:(lia) Nx P) as
    [z [z' [C1 [C2 [FT [Nz [Dz Dn]]]]]]].
  destruct (edge_init_built F _ _ _ _ _ _ HI) as [I1 [I2 [I3 I4]]]. specialize (I4 _ _ Hr).
  pose proof (A2 c Hin) as Hc.
  assert (Bz : forall b, (b < ndim x)%nat -> nth b (shp x) 0 <= nth b (shp z) 0 <= nth b (shp x) 0 + 1).
  { intros b Hb. destruct (Nat.eq_dec b c) as [->|N]; auto. rewrite Dz, nth_upd_ne by auto. lia. }
  pose proof (edge_image_rest F fuel p m z _ al k c (smoothers normalize raw) (edge_image_shape F _ _ _ _ _ _ _ _ EI (eq_trans Nz (eq_sym Nx)) Bz) Hin K0 (smoothers_len F normalize raw k Hs)) as SC2.
  destruct (pool_same_permuted F n ren back RN fuel junk junk' (ef_smooth e) z z' (AxSeq (map Z.of_nat (without c al))) (AxSeq (map Z.of_nat (map ren (without c al))))
    (without c al) (smoothers normalize raw) (repeat 1 (length (without c al))) p (repeat m (length (without c al))) Nz FT) as [y [y' [Y1 [Y2 Y3]]]]; auto.
  { apply check_axes_seq_nat. intros b Hb. apply in_map_iff in Hb as [a [<- Ha2]]. apply (rn_lt _ _ _ RN), A2. unfold without in Ha2. apply filter_In in Ha2. tauto. }
  exists y, y'. split; [|split; auto].
  - rewrite (component_smooths F trunc fuel junk ker smooth normalize (Some p) shared e x z ea axr c al); auto; now rewrite Nx.
  - rewrite (component_smooths F trunc fuel junk' ker smooth normalize (Some p) shared e x' z' ea' ax' (ren c) (map ren al)); auto.
    + rewrite without_ren by auto. exact Y2.
    + now rewrite N'.
Qed.

Theorem magnitude_perm fuel junk junk' normalize p m shared (e : edge_filter F) (x x' : T) ker smooth ax ax' al eps pw : truncates trunc ->
  named normalize (Some p) shared e ker smooth -> edge_image fuel p m x ax al 6 -> check_axes (Z.of_nat n) ax' = Ok (map Z.of_nat (map ren al)) ->
  m <> MPeriodize -> (2 <= length al)%nat -> ndim x = n -> permuted ren x x' ->
  exists y y', snd (magnitude trunc fuel junk e x ax eps pw) = Ok y /\ snd (magnitude trunc fuel junk' e x' ax' eps pw) = Ok y' /\ permuted ren y y'.
Proof.
  intros TR N EI Hax Nm Hl Nx P. pose proof EI as [[A1 A2 A3] _ _ _ _ _]. pose proof P as (N' & S1 & E1). rewrite Nx in *.
  pose proof (perm_edge_image fuel p m x x' ax ax' al 6 Nx P EI Hax) as EI'. pose proof EI' as [[B1 B2 B3] _ _ _ _ _]. rewrite N' in *.
  destruct (named_len F _ _ _ _ _ _ N) as [L1 L2]. pose proof (named_balanced F trunc _ _ _ _ _ _ TR N) as [Nk _].
  pose proof (named_init _ _ _ _ _ _ _ N) as HI.
  assert (CA : check_axes (Z.of_nat n) (AxSeq (map Z.of_nat al)) = Ok (map Z.of_nat al)) by (apply check_axes_seq_nat; auto).
  assert (CB : check_axes (Z.of_nat n) (AxSeq (map Z.of_nat (map ren al))) = Ok (map Z.of_nat (map ren al))) by (apply check_axes_seq_nat; auto).
  assert (C : forall a, In a al -> exists y y', snd (component trunc fuel junk e x (AxInt (Z.of_nat a)) (AxSeq (map Z.of_nat al))) = Ok y /\
     snd (component trunc fuel junk' e x' (AxInt (Z.of_nat (ren a))) (AxSeq (map Z.of_nat (map ren al)))) = Ok y' /\
     shp y = shp x /\ shp y' = shp x' /\ permuted ren y y').
  { intros a Hin.
    destruct (component_perm fuel junk junk' ker (NItem smooth) (repeat smooth (length (without a al))) normalize p m shared e x x'
      (AxInt (Z.of_nat a)) (AxInt (Z.of_nat (ren a))) ax (AxSeq (map Z.of_nat al)) (AxSeq (map Z.of_nat (map ren al))) a al 5) as [y [y' [Y1 [Y2 Y3]]]]; auto.
    - apply check_one.
    - apply check_one.
    - intros s Hs. apply repeat_spec in Hs. subst. lia.
    - exists y, y'. split; auto. split; auto. split; [|split]; auto.
      + eapply (component_shape F trunc fuel junk ker (NItem smooth) (repeat smooth (length (without a al))) normalize p m shared e x y
          (AxInt (Z.of_nat a)) ax (AxSeq (map Z.of_nat al)) a al 6); auto; try lia; rewrite ?Nx; auto.
        * apply check_one.
        * intros s Hs. apply repeat_spec in Hs. subst. lia.
      + eapply (component_shape F trunc fuel junk' ker (NItem smooth) (repeat smooth (length (without (ren a) (map ren al)))) normalize p m shared e x' y'
          (AxInt (Z.of_nat (ren a))) ax' (AxSeq (map Z.of_nat (map ren al))) (ren a) (map ren al) 6); auto; try lia; rewrite ?N'; auto.
        * apply check_one.
        * now apply in_map.
        * intros s Hs. apply repeat_spec in Hs. subst. lia. }
  set (cs := fun a => match snd (component trunc fuel junk e x (AxInt (Z.of_nat a)) (AxSeq (map Z.of_nat al))) with Ok y => y | Err _ => x end).
  set (cs' := fun a => match snd (component trunc fuel junk' e x' (AxInt (Z.of_nat a)) (AxSeq (map Z.of_nat (map ren al)))) with Ok y => y | Err _ => x end).
  assert (Hk0 : ker <> []) by (destruct N; discriminate). 
  destruct (magnitude_ok F trunc fuel junk ker (NItem smooth) normalize (Some p) shared e x ax al eps pw cs (shp x)) as [y [Y1 [Y2 Y3]]]; rewrite ?Nx; auto.
  { intros a Hin. destruct (C a Hin) as [y [y' [C1 [C2 [C3 C4]]]]]. unfold cs. rewrite C1. auto. }
  destruct (magnitude_ok F trunc fuel junk' ker (NItem smooth) normalize (Some p) shared e x' ax' (map ren al) eps pw cs' (shp x')) as [y' [Z1 [Z2 Z3]]];
    rewrite ?N', ?map_length; auto.
  { intros a Hin. apply in_map_iff in Hin as [b [<- Hb]]. destruct (C b Hb) as [y0 [y' [C1 [C2 [C3 [C4 _]]]]]]. unfold cs'. rewrite C2. auto. }
  assert (Ny : ndim y = n) by (unfold ndim; rewrite Y2; exact Nx).
  exists y, y'. split; auto. split; auto. split; [unfold ndim in *; congruence|]. rewrite Ny, Y2, Z2. split; [exact S1|]. intros i Vi.
  pose proof (perm_valid x x' i Nx P Vi) as Vf.
  rewrite Z3, Y3 by auto. f_equal. f_equal. unfold axis_sum. rewrite map_map. f_equal. apply map_ext_in. intros a Hin.
  destruct (C a Hin) as [y0 [y1 [C1 [C2 [C3 [C4 (C5 & _ & C6)]]]]]]. unfold cs, cs'. rewrite C1, C2, C6 by (now rewrite C4).
  replace (ndim y0) with n by (unfold ndim; rewrite C3; auto). reflexivity.
Qed.
End PermEdge.
