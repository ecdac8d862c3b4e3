(** Edge filters of cyclically shifted images (C128). *)
From Verif Require Export EdgeFlip FilterCopy.
Open Scope Z_scope.

Section ES.
Variable F : ofield.
Add Field Feshift : (f_field F).
Notation T := (tensor F).
Variable trunc : F -> Z.

(** The edge kernel along axis c, with a copying padding mode, in closed form. *)
Lemma conv_copying fuel junk ker smooth normalize p m shared (e : edge_filter F) (x : T) ax al k c :
  edge_init (NItem ker) smooth normalize (Some p) shared = Ok e -> ker <> [] -> In c al ->
  edge_image fuel p m x ax al k -> klen ker <= k -> copying m ->
  exists z, snd (conv_edge trunc fuel junk e x (Z.of_nat c)) = Ok z /\ shp z = shp x /\
    forall j, valid (shp x) j -> at_ z j = fsum (klen ker) (fun q => fmul (nth (Z.to_nat q) (used_kernel trunc ker) f0)
      (at_ x (upd c (spot m (nth c (shp x) 0) (nth c j 0 + q - klen ker / 2)) j))).
Proof.
  intros HI Hk Hin EI Hlk Cm. pose proof EI as [[A1 A2 A3] P0 Pos1 U M FU].
  pose proof (edge_image_one F fuel p m x ax al k c ker EI Hin ltac:(lia)) as SC.
  destruct (conv_edge_same F trunc fuel junk ker smooth normalize p shared e x c [m] HI Hk SC) as
    [w [xp [z [W1 [W2 [W3 [W4 [W5 [W6 [C1 [C2 [CX [CB [C3 C4]]]]]]]]]]]]]].
  destruct (pad_copies F fuel junk p m x xp _ c ker w Cm SC W1 W6) as [X1 X2].
  assert (K1 : 1 <= klen ker) by (unfold klen; destruct ker; [congruence|simpl length; lia]).
  destruct (copying_fills F m Cm) as [_ Np].
  assert (Sz : shp z = shp x) by (apply C3; intros [E|[]]; auto).
  exists z. split; auto. split; auto. intros j Vj. rewrite C4 by congruence. unfold line_corr. rewrite used_klen.
  pose proof (A2 c Hin) as Hc. unfold ndim in Hc. pose proof (valid_length _ _ Vj) as Lj. pose proof (valid_nth _ _ c Vj Hc) as Vc.
  apply fsum_ext. intros q Hq. f_equal.
  assert (E1 : nth c (shp xp) 0 = nth c (shp x) 0 + klen ker - 1).
  { rewrite Sz in C2. assert (G : nth c (shp x) 0 = nth c (upd c (nth c (shp xp) 0 - klen ker + 1) (shp x)) 0) by congruence.
    rewrite nth_upd_eq in G by auto. lia. }
  rewrite X2.
  2: { rewrite CX, E1. apply valid_upd; auto. lia. }
  rewrite nth_upd_eq by lia. rewrite upd_upd. rewrite (width_one _ _ _ K1 W1). reflexivity.
Qed.
Lemma shift_valid s d t i : (d < length s)%nat -> valid s i -> valid s (upd d ((nth d i 0 + t) mod nth d s 0) i).
Proof.
  intros Hd V. pose proof (valid_nth _ _ d V Hd). apply (valid_upd_back s i d _ (nth d s 0)); [now rewrite upd_nth|apply Z.mod_pos_bound; lia].
Qed.
Lemma conv_shift fuel junk junk' ker smooth normalize p m shared (e : edge_filter F) (x x' : T) ax al k c d s :
  edge_init (NItem ker) smooth normalize (Some p) shared = Ok e -> ker <> [] -> In c al ->
  edge_image fuel p m x ax al k -> klen ker <= k -> copying m -> (d < ndim x)%nat -> (In d al -> m = MCircular) ->
  shifted d s x x' ->
  exists z z', snd (conv_edge trunc fuel junk e x (Z.of_nat c)) = Ok z /\ snd (conv_edge trunc fuel junk' e x' (Z.of_nat c)) = Ok z' /\
    shp z = shp x /\ shifted d s z z'.
Proof.
  intros HI Hk Hin EI Hlk Cm Hd Hm [Sx Vx].
  assert (EI' : edge_image fuel p m x' ax al k).
  { destruct EI as [[A1 A2 A3] P0 P1 U M FU]. constructor; auto; unfold ndim in *; rewrite ?Sx; auto. constructor; unfold ndim; rewrite ?Sx; auto. }
  destruct (conv_copying fuel junk ker smooth normalize p m shared e x ax al k c HI Hk Hin EI Hlk Cm) as [z [Z1 [Z2 Z3]]].
  destruct (conv_copying fuel junk' ker smooth normalize p m shared e x' ax al k c HI Hk Hin EI' Hlk Cm) as [z' [Z1' [Z2' Z3']]].
  exists z, z'. split; auto. split; auto. split; auto. split; [congruence|]. rewrite Z2. intros j Vj.
  pose proof EI as [[A1 A2 A3] P0 P1 U M FU]. pose proof (A2 c Hin) as Hc. unfold ndim in Hc, Hd. pose proof (valid_length _ _ Vj) as Lj.
  rewrite Z3' by congruence. rewrite Z3 by (apply shift_valid; auto). apply fsum_ext. intros q Hq. f_equal. rewrite Sx.
  assert (Vs : valid (shp x) (upd c (spot m (nth c (shp x) 0) (nth c j 0 + q - klen ker / 2)) j)).
  { apply (valid_upd_back (shp x) j c _ (nth c (shp x) 0)); [now rewrite upd_nth|]. apply spot_bounds; auto. }
  rewrite Vx by auto. f_equal. destruct (Nat.eq_dec d c) as [->|Hne].
  - rewrite !nth_upd_eq by lia. rewrite !upd_upd. rewrite (Hm Hin). cbn [spot]. f_equal. specialize (P1 c Hin).
    rewrite Z.add_mod_idemp_l by lia. replace ((nth c j 0 + s) mod nth c (shp x) 0 + q - klen ker / 2) with ((nth c j 0 + s) mod nth c (shp x) 0 + (q - klen ker / 2)) by lia.
    rewrite Z.add_mod_idemp_l by lia. f_equal. lia.
  - rewrite nth_upd_ne by auto. rewrite nth_upd_ne by auto. now rewrite upd_comm by auto.
Qed.

Theorem component_shift fuel junk junk' ker smooth raw normalize p m shared (e : edge_filter F) (x x' : T) ea ax ax' c d al k s :
  edge_init (NItem ker) smooth normalize (Some p) shared = Ok e -> ker <> [] ->
  check_axes (Z.of_nat (ndim x)) ea = Ok [Z.of_nat c] -> In c al ->
  edge_image fuel p m x ax al k -> check_axes (Z.of_nat (ndim x)) ax' = Ok (map Z.of_nat al) -> klen ker <= k ->
  expand (length (without c al)) smooth = Some raw -> (forall u, In u raw -> klen u <= k) ->
  copying m -> (d < ndim x)%nat -> (In d al -> m = MCircular) -> shifted d s x x' ->
  exists y y', snd (component trunc fuel junk e x ea ax') = Ok y /\ snd (component trunc fuel junk' e x' ea ax') = Ok y' /\
    shp y = shp x /\ shifted d s y y'.
Proof.
  intros HI Hk Ha Hin EI Hax Hlk Hr Hs Cm Hd Hm Sh. pose proof Sh as [Sx _].
  assert (K0 : 0 <= k) by (unfold klen in Hlk; lia). pose proof EI as [[A1 A2 A3] P0 P1 U M FU].
  destruct (conv_shift fuel junk junk' ker smooth normalize p m shared e x x' ax al k c d s HI Hk Hin EI Hlk Cm Hd Hm Sh) as [z [z' [C1 [C2 [Sz Shz]]]]].
  destruct (edge_init_built F _ _ _ _ _ _ HI) as [I1 [I2 [I3 I4]]]. specialize (I4 _ _ Hr).
  assert (Nz : ndim z = ndim x) by (unfold ndim; congruence).
  assert (EIz : edge_image fuel p m z ax al k).
  { constructor; auto; rewrite ?Nz, ?Sz; auto. constructor; rewrite ?Nz; auto. }
  pose proof (edge_image_rest F fuel p m z ax al k c (smoothers normalize raw) EIz Hin K0 (smoothers_len F normalize raw k Hs)) as SC2.
  destruct (copying_fills F m Cm) as [_ Np].
  destruct (filter_shift F fuel junk junk' (ef_smooth e) z z' (AxSeq (map Z.of_nat (without c al))) (without c al) (smoothers normalize raw) p (repeat m (length (without c al))) d s I4 SC2)
    as [y [y' [Y1 [Y2 Y3]]]]; auto.
  { intros u Hu. apply repeat_spec in Hu. now subst. }
  { now rewrite Nz. }
  { intros r Hr' Er. rewrite (nth_indep _ _ m) by (now rewrite repeat_length). rewrite nth_repeat. apply Hm. rewrite <- Er.
    assert (G : In (nth r (without c al) 0%nat) (without c al)) by (apply nth_In; auto). unfold without in G. apply filter_In in G. tauto. }
  assert (Sy : shp y = shp x).
  { destruct (filter_copying F fuel junk (ef_smooth e) z _ (without c al) _ p _ I4 SC2) as [y0 [G1 [G2 _]]].
    { intros u Hu. apply repeat_spec in Hu. now subst. } rewrite Y1 in G1. injection G1 as <-. congruence. }
  exists y, y'. split; [|split; [|split; auto]].
  - rewrite (component_smooths F trunc fuel junk ker smooth normalize (Some p) shared e x z ea ax' c al); auto.
  - rewrite (component_smooths F trunc fuel junk' ker smooth normalize (Some p) shared e x' z' ea ax' c al); auto; unfold ndim in *; now rewrite Sx.
Qed.
Theorem magnitude_shift fuel junk junk' ker smooth raw normalize p m shared (e : edge_filter F) (x x' : T) ax d al k s eps pw :
  edge_init (NItem ker) smooth normalize (Some p) shared = Ok e -> ker <> [] -> (2 <= length al)%nat ->
  edge_image fuel p m x ax al k -> klen ker <= k ->
  (forall c, In c al -> expand (length (without c al)) smooth = Some (raw c)) -> (forall c u, In u (raw c) -> klen u <= k) ->
  copying m -> (d < ndim x)%nat -> (In d al -> m = MCircular) -> shifted d s x x' ->
  exists y y', snd (magnitude trunc fuel junk e x ax eps pw) = Ok y /\ snd (magnitude trunc fuel junk' e x' ax eps pw) = Ok y' /\
    shp y = shp x /\ shifted d s y y'.
Proof.
  intros HI Hk Hl EI Hlk Hr Hs Cm Hd Hm Sh. pose proof EI as [[A1 A2 A3] _ _ _ _ _]. pose proof Sh as [Sx _].
  assert (C : forall a, In a al -> exists y y', snd (component trunc fuel junk e x (AxInt (Z.of_nat a)) (AxSeq (map Z.of_nat al))) = Ok y /\
     snd (component trunc fuel junk' e x' (AxInt (Z.of_nat a)) (AxSeq (map Z.of_nat al))) = Ok y' /\ shp y = shp x /\ shifted d s y y').
  { intros a Hin. assert (CA : check_axes (Z.of_nat (ndim x)) (AxSeq (map Z.of_nat al)) = Ok (map Z.of_nat al)) by (apply check_axes_seq_nat; auto).
    apply (component_shift fuel junk junk' ker smooth (raw a) normalize p m shared e x x' (AxInt (Z.of_nat a)) ax (AxSeq (map Z.of_nat al)) a d al k s); auto.
    - apply check_one.
    - apply Hs. }
  set (cs := fun a => match snd (component trunc fuel junk e x (AxInt (Z.of_nat a)) (AxSeq (map Z.of_nat al))) with Ok y => y | Err _ => x end).
  set (cs' := fun a => match snd (component trunc fuel junk' e x' (AxInt (Z.of_nat a)) (AxSeq (map Z.of_nat al))) with Ok y => y | Err _ => x end).
  destruct (magnitude_ok F trunc fuel junk ker smooth normalize (Some p) shared e x ax al eps pw cs (shp x)) as [y [Y1 [Y2 Y3]]]; auto.
  { intros a Hin. destruct (C a Hin) as [y [y' [C1 [C2 [C3 C4]]]]]. unfold cs. rewrite C1. auto. }
  destruct (magnitude_ok F trunc fuel junk' ker smooth normalize (Some p) shared e x' ax al eps pw cs' (shp x)) as [y' [Z1 [Z2 Z3]]]; auto.
  { unfold ndim. now rewrite Sx. }
  { intros a Hin. destruct (C a Hin) as [y0 [y' [C1 [C2 [C3 C4]]]]]. unfold cs'. rewrite C2. split; auto. destruct C4. congruence. }
  exists y, y'. split; auto. split; auto. split; auto. split; [congruence|]. rewrite Y2. intros i Vi.
  pose proof (shift_valid (shp x) d s i Hd Vi) as Vf.
  rewrite Z3, Y3 by auto. f_equal. f_equal. unfold axis_sum. f_equal. apply map_ext_in. intros a Hin.
  destruct (C a Hin) as [y0 [y1 [C1 [C2 [C3 [C4 C5]]]]]]. unfold cs, cs'. rewrite C1, C2, C5 by congruence. now rewrite C3.
Qed.
End ES.
