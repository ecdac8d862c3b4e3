(** Padding and edge filters with periodize padding (C129). *)
From Verif Require Export FilterPeriodize EdgeShift.
Open Scope Z_scope.

Section EP.
Variable F : ofield.
Add Field Fep : (f_field F).
Notation T := (tensor F).
Variable trunc : F -> Z.

Lemma memb_in d A : memb d A = true <-> In d A.
Proof.
  unfold memb. rewrite existsb_exists. split; [intros (b & Hb & E); apply Nat.eqb_eq in E; now subst|].
  intros H. exists d. split; auto. apply Nat.eqb_refl.
Qed.
Lemma memb_not d A : ~ In d A -> memb d A = false.
Proof. intros H. apply not_true_iff_false. rewrite memb_in. auto. Qed.

(** ** Padding *)
Theorem pad_as_circular fuel junk fuel' junk' (p p' : padder F) (x x' : T) ax ax' al A :
  pad_call fuel p x ax al -> pad_call fuel' p' x' ax' al -> last_axes p' al = last_axes p al ->
  (forall a, In a (last_axes p al) -> exists q q', axis_par p (last_axes p al) a = Some q /\ axis_par p' (last_axes p al) a = Some q' /\
     ap_mode q = MPeriodize /\ ap_mode q' = MCircular /\ ap_before q' = ap_before q /\ ap_after q' = ap_after q /\
     0 <= ap_before q /\ 0 <= ap_after q /\ 1 <= nth a (shp x) 0 /\ (In a A <-> (ap_before q, ap_after q) <> (0, 0))) ->
  (forall a, In a A -> In a (last_axes p al)) -> evened A x x' ->
  exists y y', padder_forward fuel junk p x ax = Ok y /\ padder_forward fuel' junk' p' x' ax' = Ok y' /\ teq y y'.
Proof.
  intros PC PC' La H HA [Nx [Sx Vx]].
  destruct (forward_copy F fuel junk p x ax al PC) as [y [Y1 [Y2 Y3]]].
  { intros a Ha. destruct (H a Ha) as (q & q' & H1 & H2 & H3 & H4 & H5 & H6 & H7 & H8 & H9 & H10). exists q. rewrite H3. split; auto.
    split; [intros n t; cbn [src_coord]; discriminate|]. auto. }
  destruct (forward_copy F fuel' junk' p' x' ax' al PC') as [y' [Z1 [Z2 Z3]]].
  { rewrite La. intros a Ha. destruct (H a Ha) as (q & q' & H1 & H2 & H3 & H4 & H5 & H6 & H7 & H8 & H9 & H10). exists q'. rewrite H4, H5, H6. split; auto.
    split; [intros n t; cbn [src_coord]; discriminate|]. split; auto. split; auto. rewrite Sx.
    - pose proof (Z.mod_pos_bound (nth a (shp x) 0) 2). destruct (memb _ _); lia.
    - apply (pc_lt _ _ _ _ _ PC). unfold last_axes in Ha. destruct (_ <? _); auto. rewrite <- (firstn_skipn (length al - Z.to_nat (p_ndim p)) al). apply in_or_app. auto. }
  pose proof (pc_nodup _ _ _ _ _ PC) as Nd.
  assert (Hn : NoDup (last_axes p al)) by (apply last_axes_nodup; auto).
  exists y, y'. split; auto. split; auto.
  rewrite out_shape_full in Y2, Z2 by auto.
  assert (Es : shp y = shp y').
  { rewrite Y2, Z2. unfold full_shape. fold (ndim x) (ndim x'). rewrite Nx. apply map_ext_in. intros d Hd. apply in_seq in Hd. cbv zeta. rewrite La.
    destruct (axis_par p (last_axes p al) d) as [q|] eqn:Eq.
    - destruct (H d) as (q0 & q' & H1 & H2 & H3 & H4 & H5 & H6 & H7 & H8 & H9 & H10); [eapply axis_par_some_in; eauto|].
      rewrite H2. assert (q0 = q) by congruence. subst q0. rewrite H3, H4, H5, H6. cbn [is_periodize]. rewrite Sx by lia.
      destruct ((ap_before q =? 0) && (ap_after q =? 0)) eqn:Ez.
      + bdestr. rewrite memb_not; [lia|]. rewrite H10. intros G. apply G. congruence.
      + assert (G : In d A) by (apply H10; intros G; injection G as G1 G2; rewrite G1, G2 in Ez; discriminate). apply memb_in in G. rewrite G. lia.
    - assert (Nn : ~ In d (last_axes p al)) by (intros G; destruct (H d G) as (q0 & q' & H1 & _); congruence).
      rewrite axis_par_notin by auto. rewrite Sx by lia. rewrite memb_not; [lia|]. auto. }
  split; auto. intros j Vj. assert (Vj' : valid (shp y') j) by congruence. rewrite Y3, Z3 by auto.
  assert (Lj : length j = ndim x). { rewrite (valid_length _ _ Vj), Y2. unfold full_shape. now rewrite map_length, seq_length. }
  assert (Bd : forall d, (d < ndim x)%nat -> 0 <= nth d j 0 < nth d (shp y) 0).
  { intros d Hd. apply valid_nth; auto. rewrite Y2. unfold full_shape. now rewrite map_length, seq_length. }
  rewrite Vx.
  - f_equal. apply list_ext with (d := 0).
    + rewrite map2_length. unfold src_index. rewrite !map_length, !seq_length. fold (ndim x) (ndim x'). lia.
    + unfold src_index at 1. rewrite map_length, seq_length. intros d Hd. fold (ndim x) in Hd. unfold src_index. rewrite nth_map2 with (da := 0) (db := 0).
      2: { exact Hd. } 2: { rewrite map_length, seq_length. fold (ndim x'). lia. }
      rewrite !nth_map_seq by (fold (ndim x) (ndim x'); lia). rewrite La. specialize (Bd d Hd). rewrite Y2 in Bd. unfold full_shape in Bd. rewrite nth_map_seq in Bd by auto. cbv zeta in Bd.
      destruct (axis_par p (last_axes p al) d) as [q|] eqn:Eq.
      * destruct (H d) as (q0 & q' & H1 & H2 & H3 & H4 & H5 & H6 & H7 & H8 & H9 & H10); [eapply axis_par_some_in; eauto|].
        rewrite H2. assert (q0 = q) by congruence. subst q0. unfold src_axis. rewrite H3, H4, H5, H6. rewrite pspot_src by auto. cbn [src_coord].
        destruct ((ap_before q =? 0) && (ap_after q =? 0)) eqn:Ez; [lia|].
        assert (G : In d A) by (apply H10; intros G; injection G as G1 G2; rewrite G1, G2 in Ez; discriminate). apply memb_in in G. rewrite Sx, G by auto. reflexivity.
      * assert (Nn : ~ In d (last_axes p al)) by (intros G; destruct (H d G) as (q0 & q' & H1 & _); congruence).
        rewrite axis_par_notin by auto. cbn [src_axis]. lia.
  - apply valid_iff. unfold src_index. rewrite map_length, seq_length. split; auto. intros d Hd. rewrite nth_map_seq by auto. fold (ndim x') in Hd. rewrite Nx in Hd. rewrite La.
    specialize (Bd d Hd). rewrite Y2 in Bd. unfold full_shape in Bd. rewrite nth_map_seq in Bd by auto. cbv zeta in Bd.
    destruct (axis_par p (last_axes p al) d) as [q|] eqn:Eq.
    + destruct (H d) as (q0 & q' & H1 & H2 & H3 & H4 & H5 & H6 & H7 & H8 & H9 & H10); [eapply axis_par_some_in; eauto|].
      rewrite H2. assert (q0 = q) by congruence. subst q0. unfold src_axis. rewrite H4, H5, H6. cbn [src_coord]. rewrite Sx by auto.
      pose proof (Z.mod_pos_bound (nth d (shp x) 0) 2).
      destruct ((ap_before q =? 0) && (ap_after q =? 0)) eqn:Ez; [destruct (memb _ _); lia|]. apply Z.mod_pos_bound. destruct (memb _ _); lia.
    + assert (Nn : ~ In d (last_axes p al)) by (intros G; destruct (H d G) as (q0 & q' & H1 & _); congruence).
      rewrite axis_par_notin by auto. cbn [src_axis]. rewrite Sx by auto. pose proof (Z.mod_pos_bound (nth d (shp x) 0) 2). destruct (memb _ _); lia.
Qed.

(** ** One edge kernel *)
Lemma pad_periodizes fuel junk (p : padder F) (x xp : T) ax a ker w : same_call F fuel p x ax [a] [MPeriodize] [ker] [1] ->
  is_same_width (klen ker) 1 (nth a (shp x) 0) w -> padder_forward fuel junk (with_width p [w]) x ax = Ok xp ->
  w <> (0, 0) ->
  shp xp = upd a (fst w + nth a (shp x) 0 + snd w + nth a (shp x) 0 mod 2) (shp x) /\
  forall j, valid (shp xp) j -> at_ xp j = at_ x (upd a (pspot (nth a (shp x) 0) (nth a j 0 - fst w)) j).
Proof.
  intros SC Hw E Nz. pose proof SC as [[A1 A2 A3] N0 P0 P1 S1 PF FM FU].
  assert (Ws : forall r, (r < length [a])%nat -> is_same_width (klen (nth r [ker] [])) (nth r [1] 1) (nth (nth r [a] 0%nat) (shp x) 0) (nth r [w] (0, 0))).
  { intros [|r] Hr; [exact Hw|cbn in Hr; lia]. }
  destruct (same_pad_call F fuel p x ax [a] [MPeriodize] [ker] [1] [w] SC eq_refl eq_refl Ws) as [PC [AF _]].
  destruct (with_width_par F 1 p [MPeriodize] [w] [a] PF eq_refl eq_refl A3) as [Lx Q].
  destruct (Q 0%nat ltac:(lia)) as [q [E1 [E2 [E3 E4]]]]. cbn [nth] in E1, E2, E3, E4.
  pose proof (same_width_bounds (klen ker) 1 _ w ltac:(lia) ltac:(unfold klen; lia) Hw) as [B1 [B2 B3]].
  destruct (forward_copy F fuel junk (with_width p [w]) x ax [a] PC) as [y [Y1 [Y2 Y3]]].
  { rewrite Lx. intros b [<-|[]]. exists q. rewrite E2, E3, E4. split; auto. split; [intros n t; discriminate|]. split; auto. split; auto. apply P1. now left. }
  rewrite E in Y1. injection Y1 as <-. rewrite out_shape_full in Y2 by auto. rewrite Lx in Y3.
  assert (La : (a < length (shp x))%nat) by (apply A2; now left).
  assert (Zf : (fst w =? 0) && (snd w =? 0) = false).
  { apply not_true_iff_false. intros G. bdestr. apply Nz. destruct w. cbn in *. congruence. }
  assert (Sx : shp xp = upd a (fst w + nth a (shp x) 0 + snd w + nth a (shp x) 0 mod 2) (shp x)).
  { rewrite Y2. apply list_ext with (d := 0); [unfold full_shape; now rewrite upd_length, map_length, seq_length|].
    unfold full_shape at 1. rewrite map_length, seq_length. intros d Hd. unfold full_shape. rewrite nth_map_seq by auto. cbv zeta. rewrite Lx, nth_upd.
    destruct (Nat.eqb_spec a d) as [->|Hne]; cbn [andb].
    - rewrite E1, E2, E3, E4, Zf. cbn [is_periodize]. destruct (Nat.ltb_spec d (length (shp x))); lia.
    - rewrite axis_par_notin by (intros [?|[]]; auto). reflexivity. }
  split; auto. intros j Vj. rewrite Y3 by auto. f_equal.
  assert (Lj : length j = length (shp x)) by (rewrite (valid_length _ _ Vj), Sx; apply upd_length).
  unfold src_index. apply list_ext with (d := 0); [rewrite upd_length, map_length, seq_length; auto|].
  rewrite map_length, seq_length. intros d Hd. rewrite nth_map_seq by auto. rewrite nth_upd.
  destruct (Nat.eqb_spec a d) as [->|Hne]; cbn [andb].
  - destruct (Nat.ltb_spec d (length j)); [|lia]. rewrite E1. unfold src_axis. rewrite E2, E3, E4, Zf. rewrite pspot_src; auto. apply P1. now left.
  - rewrite axis_par_notin by (intros [?|[]]; auto). reflexivity.
Qed.

Lemma conv_periodize fuel junk ker smooth normalize p shared (e : edge_filter F) (x : T) ax al k c :
  edge_init (NItem ker) smooth normalize (Some p) shared = Ok e -> ker <> [] -> In c al ->
  edge_image fuel p MPeriodize x ax al k -> klen ker <= k ->
  exists z, snd (conv_edge trunc fuel junk e x (Z.of_nat c)) = Ok z /\ shp z = upd c (even_up (klen ker) (nth c (shp x) 0)) (shp x) /\
    forall j, valid (shp z) j -> at_ z j = fsum (klen ker) (fun q => fmul (nth (Z.to_nat q) (used_kernel trunc ker) f0)
      (at_ x (upd c (pspot (nth c (shp x) 0) (nth c j 0 + q - klen ker / 2)) j))).
Proof.
  intros HI Hk Hin EI Hlk. pose proof EI as [[A1 A2 A3] P0 Pos1 U M FU].
  pose proof (edge_image_one F fuel p _ x ax al k c ker EI Hin ltac:(lia)) as SC.
  destruct (conv_edge_same F trunc fuel junk ker smooth normalize p shared e x c [MPeriodize] HI Hk SC) as
    [w [xp [z [W1 [W2 [W3 [W4 [W5 [W6 [C1 [C2 [CX [CB [C3 C4]]]]]]]]]]]]]].
  assert (K1 : 1 <= klen ker) by (unfold klen; destruct ker; [congruence|simpl length; lia]).
  pose proof (width_one _ _ _ K1 W1) as Ew. pose proof (A2 c Hin) as Hc. unfold ndim in Hc.
  specialize (Pos1 c Hin).
  assert (Hsame : forall d, (d < length [c])%nat -> is_same_width (klen (nth d [ker] [])) (nth d [1] 1) (nth (nth d [c] 0%nat) (shp x) 0) (nth d [w] (0, 0))).
  { intros [|d] Hd; [exact W1|cbn in Hd; lia]. }
  destruct (same_pad_call F fuel p x _ [c] [MPeriodize] [ker] [1] [w] SC eq_refl eq_refl Hsame) as [_ [_ [_ [_ [_ FS]]]]].
  specialize (FS 0%nat ltac:(cbn; lia)). cbn [nth] in FS. rewrite <- W5 in FS. cbv zeta in FS. cbn [is_periodize] in FS.
  pose proof (Z.div_mod (klen ker) 2 ltac:(lia)) as D1. pose proof (Z.div_mod (klen ker - 1) 2 ltac:(lia)) as D2.
  pose proof (Z.mod_pos_bound (klen ker) 2 ltac:(lia)). pose proof (Z.mod_pos_bound (klen ker - 1) 2 ltac:(lia)).
  assert (Sm : klen ker / 2 + (klen ker - 1) / 2 = klen ker - 1) by lia.
  assert (En : nth c (shp xp) 0 - klen ker + 1 = even_up (klen ker) (nth c (shp x) 0)).
  { rewrite FS, Ew. cbn [fst snd]. unfold even_up. destruct (Z.eqb_spec (klen ker / 2) 0); destruct (Z.eqb_spec ((klen ker - 1) / 2) 0); cbn [andb];
      destruct (Z.leb_spec 2 (klen ker)); lia. }
  exists z. split; auto. rewrite C2, En. split; auto. intros j Vj. rewrite C4 by (now rewrite C2, En).
  unfold line_corr. rewrite used_klen.
  pose proof (valid_length _ _ Vj) as Lj. rewrite upd_length in Lj. pose proof (valid_nth _ _ c Vj ltac:(now rewrite upd_length)) as Vc. rewrite nth_upd_eq in Vc by auto.
  apply fsum_ext. intros q Hq. f_equal.
  destruct (Z.leb_spec 2 (klen ker)) as [H2|H2].
  - destruct (pad_periodizes fuel junk p x xp _ c ker w SC W1 W6) as [X1 X2].
    { rewrite Ew. intros G. injection G as G1 G2. lia. }
    rewrite X2.
    2: { rewrite CX. apply (valid_upd (upd c (even_up (klen ker) (nth c (shp x) 0)) (shp x)) j c (nth c j 0 + q) (nth c (shp xp) 0)) in Vj; [now rewrite upd_upd in Vj|]. lia. }
    rewrite nth_upd_eq by lia. rewrite upd_upd, Ew. reflexivity.
  - assert (Ek : klen ker = 1) by lia. rewrite Ek in *. assert (q = 0) by lia. subst q. change (1 / 2) with 0. rewrite !Z.add_0_r, Z.sub_0_r.
    unfold even_up in Vc. cbn [Z.leb Z.compare Pos.compare Pos.compare_cont] in Vc.
    rewrite pspot_inside by lia. rewrite upd_nth.
    assert (Vx : valid (shp x) j). { unfold even_up in Vj. cbn [Z.leb Z.compare Pos.compare Pos.compare_cont] in Vj. now rewrite Z.add_0_r, upd_nth in Vj. }
    rewrite <- (keeps_one F fuel junk p x xp c w MPeriodize) with (i := j); auto.
    + rewrite Ew. cbn [fst]. change (1 / 2) with 0. rewrite Z.add_0_r. now rewrite upd_nth.
    + apply (uniform_for F 1); auto.
Qed.
End EP.
