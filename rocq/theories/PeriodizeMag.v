(** Components and magnitudes of edge filters with periodize padding (C129). *)
From Verif Require Export EdgePeriodize EdgeShape.
Open Scope Z_scope.

Section PM.
Variable F : ofield.
Add Field Fpm : (f_field F).
Notation T := (tensor F).
Variable trunc : F -> Z.

Lemma conv_as_circular fuel junk fuel' junk' ker smooth normalize p p' shared shared' (e e' : edge_filter F) (x x' : T) ax ax' al k c A :
  edge_init (NItem ker) smooth normalize (Some p) shared = Ok e -> edge_init (NItem ker) smooth normalize (Some p') shared' = Ok e' ->
  ker <> [] -> In c al ->
  edge_image fuel p MPeriodize x ax al k -> edge_image fuel' p' MCircular x' ax' al k -> klen ker <= k ->
  (In c A <-> 2 <= klen ker) -> evened A x x' ->
  exists z z', snd (conv_edge trunc fuel junk e x (Z.of_nat c)) = Ok z /\ snd (conv_edge trunc fuel' junk' e' x' (Z.of_nat c)) = Ok z' /\
    shp z = upd c (even_up (klen ker) (nth c (shp x) 0)) (shp x) /\ shp z' = shp x' /\ evened (without c A) z z'.
Proof.
  intros HI HI' Hk Hin EI EI' Hlk HA [Nx [Sx Vx]].
  destruct (conv_periodize F trunc fuel junk ker smooth normalize p shared e x ax al k c HI Hk Hin EI Hlk) as [z [Z1 [Z2 Z3]]].
  destruct (conv_copying F trunc fuel' junk' ker smooth normalize p' MCircular shared' e' x' ax' al k c HI' Hk Hin EI' Hlk) as [z' [Y1 [Y2 Y3]]].
  { now left. }
  pose proof EI as [[A1 A2 A3] P0 Pos1 U M FU]. pose proof (A2 c Hin) as Hc. specialize (Pos1 c Hin).
  assert (Mc : memb c A = (2 <=? klen ker)).
  { destruct (Z.leb_spec 2 (klen ker)); [apply memb_in; tauto|apply memb_not; intros G; apply HA in G; lia]. }
  assert (Nz : ndim z = ndim x) by (unfold ndim; rewrite Z2; apply upd_length).
  assert (Sc : nth c (shp x') 0 = even_up (klen ker) (nth c (shp x) 0)) by (rewrite Sx, Mc by auto; reflexivity).
  assert (Dz : forall d, (d < ndim x)%nat -> d <> c -> nth d (shp z) 0 = nth d (shp x) 0) by (intros d Hd Ne; rewrite Z2; apply nth_upd_ne; auto).
  assert (Mw : forall d, d <> c -> memb d (without c A) = memb d A).
  { intros d Ne. destruct (memb d A) eqn:E.
    - apply memb_in. apply memb_in in E. unfold without. apply filter_In. split; auto. apply negb_true_iff, Nat.eqb_neq. auto.
    - apply memb_not. intros G. unfold without in G. apply filter_In in G. destruct G as [G _]. apply memb_in in G. congruence. }
  assert (Mcc : memb c (without c A) = false).
  { apply memb_not. intros G. unfold without in G. apply filter_In in G. destruct G as [_ G]. now rewrite Nat.eqb_refl in G. }
  exists z, z'. split; auto. split; auto. split; auto. split; auto.
  split; [unfold ndim in *; congruence|]. split.
  - intros d Hd. rewrite Nz in Hd. rewrite Y2. destruct (Nat.eq_dec d c) as [->|Ne].
    + rewrite Mcc, Sc, Z2, nth_upd_eq by auto. lia.
    + rewrite Mw, Dz, Sx by auto. reflexivity.
  - rewrite Y2. intros j Vj. pose proof (valid_length _ _ Vj) as Lj. fold (ndim x') in Lj. rewrite Nx in Lj.
    assert (Bd : forall d, (d < ndim x)%nat -> 0 <= nth d j 0 < nth d (shp x') 0) by (intros d Hd; apply valid_nth; auto; fold (ndim x'); lia).
    assert (P' : 1 <= nth c (shp x') 0). { rewrite Sc. unfold even_up. pose proof (Z.mod_pos_bound (nth c (shp x) 0) 2). destruct (_ <=? _); lia. }
    set (j' := map2 (fun n k0 => Z.min (n - 1) k0) (shp z) j).
    assert (Lj' : length j' = ndim x) by (unfold j'; rewrite map2_length; fold (ndim z); lia).
    assert (Nj : forall d, (d < ndim x)%nat -> nth d j' 0 = Z.min (nth d (shp z) 0 - 1) (nth d j 0)).
    { intros d Hd. unfold j'. rewrite nth_map2 with (da := 0) (db := 0); auto; [fold (ndim z)|]; lia. }
    assert (Vj' : valid (shp z) j').
    { apply valid_iff. fold (ndim z). split; [congruence|]. intros d Hd. rewrite Nz in Hd. rewrite Nj by auto. specialize (Bd d Hd). destruct (Nat.eq_dec d c) as [->|Ne].
      - assert (E : nth c (shp z) 0 = nth c (shp x') 0) by (rewrite Sc, Z2, nth_upd_eq; auto). rewrite E. lia.
      - rewrite Dz by auto. rewrite Sx in Bd by auto. specialize (P0 d Hd).
        assert (1 <= nth d (shp x) 0); [|lia]. pose proof (Z.div_mod (nth d (shp x) 0) 2). pose proof (Z.mod_pos_bound (nth d (shp x) 0) 2).
        destruct (memb d A); [|lia]. destruct (Z.eq_dec (nth d (shp x) 0) 0) as [G|]; [rewrite G in Bd; cbn in Bd; lia|lia]. }
    rewrite Y3 by auto. rewrite Z3 by auto. apply fsum_ext. intros q Hq. f_equal.
    assert (Ncj : nth c j' 0 = nth c j 0).
    { rewrite Nj by auto. rewrite Z2, nth_upd_eq by auto. specialize (Bd c Hc). rewrite Sc in Bd. lia. }
    rewrite Vx.
    2: { apply (valid_upd_back (shp x') j c _ (nth c (shp x') 0)); [now rewrite upd_nth|]. cbn [spot]. apply Z.mod_pos_bound. lia. }
    f_equal. apply list_ext with (d := 0).
    { rewrite map2_length, !upd_length. fold (ndim x). lia. }
    intros d Hd. rewrite map2_length, upd_length in Hd. fold (ndim x) in Hd.
    assert (Hd' : (d < ndim x)%nat) by lia. rewrite nth_map2 with (da := 0) (db := 0); [|exact Hd'|rewrite upd_length; lia].
    rewrite Ncj. rewrite !nth_upd. destruct (Nat.eqb_spec c d) as [->|Ne]; cbn [andb].
    + destruct (Nat.ltb_spec d (length j)); [|lia]. destruct (Nat.ltb_spec d (length j')); [|lia].
      cbn [spot]. rewrite Sc. unfold pspot, even_up. specialize (Bd d Hd'). rewrite Sc in Bd. unfold even_up in Bd.
      destruct (Z.leb_spec 2 (klen ker)) as [H2|H2]; auto.
      assert (K1 : klen ker = 1) by (unfold klen in *; destruct ker; [congruence|cbn [length] in *; lia]). rewrite K1 in *. assert (q = 0) by lia. subst q.
      change (1 / 2) with 0. rewrite !Z.add_0_r, !Z.sub_0_r in *. pose proof (Z.mod_pos_bound (nth d (shp x) 0) 2). rewrite !Z.mod_small by lia. reflexivity.
    + rewrite Nj, Dz by auto. reflexivity.
Qed.

Theorem component_as_circular fuel junk fuel' junk' ker smooth raw normalize p p' shared shared' (e e' : edge_filter F) (x x' : T) ea ax sx ax' sx' c al k A :
  edge_init (NItem ker) smooth normalize (Some p) shared = Ok e -> edge_init (NItem ker) smooth normalize (Some p') shared' = Ok e' -> ker <> [] ->
  check_axes (Z.of_nat (ndim x)) ea = Ok [Z.of_nat c] -> In c al ->
  edge_image fuel p MPeriodize x ax al (k + 1) -> edge_image fuel' p' MCircular x' ax' al k ->
  check_axes (Z.of_nat (ndim x)) sx = Ok (map Z.of_nat al) -> check_axes (Z.of_nat (ndim x)) sx' = Ok (map Z.of_nat al) -> klen ker <= k ->
  expand (length (without c al)) smooth = Some raw -> (forall u, In u raw -> klen u <= k) ->
  (forall a, In a A -> In a al) -> (In c A <-> 2 <= klen ker) ->
  (forall r, (r < length (without c al))%nat -> (In (nth r (without c al) 0%nat) A <-> 2 <= klen (nth r raw []))) ->
  evened A x x' ->
  exists y y', snd (component trunc fuel junk e x ea sx) = Ok y /\ snd (component trunc fuel' junk' e' x' ea sx') = Ok y' /\ teq y y' /\ shp y' = shp x'.
Proof.
  intros HI HI' Hk Ha Hin EI EI' Hsx Hsx' Hlk Hr Hs HA Hc HK Ev. pose proof Ev as [Nx _].
  assert (K0 : 0 <= k) by (unfold klen in Hlk; lia). pose proof EI as [[A1 A2 A3] P0 P1 U M FU].
  assert (EI0 : edge_image fuel p MPeriodize x ax al k).
  { constructor; auto. - constructor; auto. - intros d Hd. specialize (FU d Hd). lia. }
  destruct (conv_as_circular fuel junk fuel' junk' ker smooth normalize p p' shared shared' e e' x x' ax ax' al k c A HI HI' Hk Hin EI0 EI' Hlk Hc Ev)
    as [z [z' [C1 [C2 [Sz [Sz' Ez]]]]]].
  destruct (edge_init_built F _ _ _ _ _ _ HI) as [I1 [I2 [I3 I4]]]. specialize (I4 _ _ Hr).
  destruct (edge_init_built F _ _ _ _ _ _ HI') as [I1' [I2' [I3' I4']]]. specialize (I4' _ _ Hr).
  assert (Nz : ndim z = ndim x) by (unfold ndim; rewrite Sz; apply upd_length).
  assert (Nz' : ndim z' = ndim x') by (unfold ndim; congruence).
  assert (EIz : edge_image fuel p MPeriodize z (AxSeq (map Z.of_nat al)) al k).
  { apply (edge_image_shape F fuel p MPeriodize x z ax al k); auto. intros d Hd. rewrite Sz, nth_upd. destruct (Nat.eqb_spec c d); cbn [andb]; [|lia]. subst.
    destruct (Nat.ltb_spec d (length (shp x))); [|lia]. unfold even_up. pose proof (Z.mod_pos_bound (nth d (shp x) 0) 2). destruct (_ <=? _); lia. }
  assert (EIz' : edge_image fuel' p' MCircular z' ax' al k).
  { destruct EI' as [[B1 B2 B3] Q0 Q1 U' M' FU']. constructor; auto; rewrite ?Nz', ?Sz'; auto. constructor; rewrite ?Nz'; auto. }
  pose proof (edge_image_rest F fuel p MPeriodize z _ al k c (smoothers normalize raw) EIz Hin K0 (smoothers_len F normalize raw k Hs)) as SC2.
  pose proof (edge_image_rest F fuel' p' MCircular z' _ al k c (smoothers normalize raw) EIz' Hin K0 (smoothers_len F normalize raw k Hs)) as SC2'.
  destruct (filter_as_circular F fuel junk fuel' junk' (ef_smooth e) (ef_smooth e') z z' _ _ (without c al) (smoothers normalize raw) p p' (without c A) I4 I4' SC2 SC2')
    as [y [y' [Y1 [Y2 [Y3 Y4]]]]]; auto.
  { intros a Hia. unfold without in *. apply filter_In in Hia as [G1 G2]. apply filter_In. auto. }
  { intros r Hr2. rewrite smoothers_klen, <- HK by auto.
    assert (G : In (nth r (without c al) 0%nat) (without c al)) by (apply nth_In; auto). unfold without in G at 2. apply filter_In in G as [_ G].
    unfold without at 2. rewrite filter_In. tauto. }
  exists y, y'. split; [|split; [|split; [auto|congruence]]].
  - rewrite (component_smooths F trunc fuel junk ker smooth normalize (Some p) shared e x z ea sx c al); auto.
  - rewrite (component_smooths F trunc fuel' junk' ker smooth normalize (Some p') shared' e' x' z' ea sx' c al); auto; now rewrite Nx.
Qed.

Theorem magnitude_as_circular fuel junk fuel' junk' ker smooth raw normalize p p' shared shared' (e e' : edge_filter F) (x x' : T) ax ax' al k eps pw :
  edge_init (NItem ker) smooth normalize (Some p) shared = Ok e -> edge_init (NItem ker) smooth normalize (Some p') shared' = Ok e' ->
  edge_image fuel p MPeriodize x ax al (k + 1) -> edge_image fuel' p' MCircular x' ax' al k -> (2 <= length al)%nat ->
  2 <= klen ker <= k ->
  (forall c, In c al -> expand (length (without c al)) smooth = Some (raw c)) ->
  (forall c u, In c al -> In u (raw c) -> 2 <= klen u <= k) ->
  evened al x x' ->
  exists y y', snd (magnitude trunc fuel junk e x ax eps pw) = Ok y /\ snd (magnitude trunc fuel' junk' e' x' ax' eps pw) = Ok y' /\ teq y y' /\ shp y' = shp x'.
Proof.
  intros HI HI' EI EI' Hl Hlk Hr Hs Ev. pose proof Ev as [Nx _]. pose proof EI as [[A1 A2 A3] _ _ _ _ _]. pose proof EI' as [[B1 B2 B3] _ _ _ _ _].
  assert (Hk : ker <> []) by (intros ->; unfold klen in Hlk; cbn in Hlk; lia).
  assert (CA : check_axes (Z.of_nat (ndim x)) (AxSeq (map Z.of_nat al)) = Ok (map Z.of_nat al)) by (apply check_axes_seq_nat; auto).
  assert (C : forall c, In c al -> exists y y', snd (component trunc fuel junk e x (AxInt (Z.of_nat c)) (AxSeq (map Z.of_nat al))) = Ok y /\
     snd (component trunc fuel' junk' e' x' (AxInt (Z.of_nat c)) (AxSeq (map Z.of_nat al))) = Ok y' /\ teq y y' /\ shp y' = shp x').
  { intros c Hin.
    apply (component_as_circular fuel junk fuel' junk' ker smooth (raw c) normalize p p' shared shared' e e' x x' (AxInt (Z.of_nat c)) ax (AxSeq (map Z.of_nat al)) ax' (AxSeq (map Z.of_nat al)) c al k al); auto; try lia.
    - apply check_one.
    - intros u Hu. specialize (Hs c u Hin Hu). lia.
    - split; auto. lia.
    - intros r Hrr. assert (G : In (nth r (without c al) 0%nat) (without c al)) by (apply nth_In; auto). unfold without in G at 2. apply filter_In in G as [G _]. split; auto. intros _.
      specialize (Hs c (nth r (raw c) []) Hin). assert (L : length (raw c) = length (without c al)) by (eapply expand_length; eauto).
      specialize (Hs ltac:(apply nth_In; lia)). lia. }
  set (cs := fun a => match snd (component trunc fuel junk e x (AxInt (Z.of_nat a)) (AxSeq (map Z.of_nat al))) with Ok y => y | Err _ => x end).
  set (cs' := fun a => match snd (component trunc fuel' junk' e' x' (AxInt (Z.of_nat a)) (AxSeq (map Z.of_nat al))) with Ok y => y | Err _ => x end).
  destruct (magnitude_ok F trunc fuel junk ker smooth normalize (Some p) shared e x ax al eps pw cs (shp x')) as [y [Y1 [Y2 Y3]]]; auto.
  { intros a Hin. destruct (C a Hin) as [y [y' [C1 [C2 [[C3 C3'] C4]]]]]. unfold cs. rewrite C1. split; auto. congruence. }
  destruct (magnitude_ok F trunc fuel' junk' ker smooth normalize (Some p') shared' e' x' ax' al eps pw cs' (shp x')) as [y' [Z1 [Z2 Z3]]]; auto.
  { intros a Hin. destruct (C a Hin) as [y0 [y' [C1 [C2 [C3 C4]]]]]. unfold cs'. rewrite C2. auto. }
  exists y, y'. split; auto. split; auto. split; [|congruence]. split; [congruence|]. rewrite Y2. intros i Vi.
  rewrite Z3, Y3 by auto. f_equal. f_equal. unfold axis_sum. f_equal. apply map_ext_in. intros a Hin.
  destruct (C a Hin) as [y0 [y1 [C1 [C2 [[C3 C3'] C4]]]]]. unfold cs, cs'. rewrite C1, C2. f_equal. apply C3'. congruence.
Qed.
End PM.
