(** Edge filters on a tile of an image, with padding that copies pixels (C124). *)
From Verif Require Export Tiles EdgeAffine.
Open Scope Z_scope.

Section TE.
Variable F : ofield.
Variable trunc : F -> Z.
Notation T := (tensor F).

Lemma moved_upd off a v i : (a < length i)%nat -> moved off (upd a v i) = upd a (v + off a) (moved off i).
Proof.
  intros Ha. apply list_ext with (d := 0); [now rewrite upd_length, !moved_length, upd_length|].
  rewrite moved_length, upd_length. intros d Hd. rewrite moved_nth by now rewrite upd_length.
  destruct (Nat.eq_dec d a) as [->|N].
  - rewrite !nth_upd_eq by (rewrite ?moved_length; auto). reflexivity.
  - rewrite !nth_upd_ne by auto. now rewrite moved_nth.
Qed.

Lemma look_moved (m m' : mode F) off sh sh' j : copying m -> copying m' -> valid sh' j ->
  (forall d, (d < length sh')%nat -> 0 <= off d /\ nth d sh' 0 + off d <= nth d sh 0) ->
  forall al ks o, length ks = length al -> valid ks o -> (forall a, In a al -> (a < length sh')%nat) ->
  (forall r, (r < length al)%nat -> nth r ks 0 / 2 <= nth (nth r al 0%nat) j 0 /\ nth (nth r al 0%nat) j 0 + (nth r ks 0 - 1) - nth r ks 0 / 2 < nth (nth r al 0%nat) sh' 0) ->
  valid sh' (look al (repeat m' (length al)) ks sh' j o) /\
  look al (repeat m (length al)) ks sh (moved off j) o = moved off (look al (repeat m' (length al)) ks sh' j o).
Proof.
  intros Cm Cm' Vj B. pose proof (valid_length _ _ Vj) as Lj.
  induction al as [|a al IH]; intros [|k ks] o L Vo Hal Hr; cbn [length repeat] in *; try discriminate L.
  { cbn [look]. auto. }
  inversion Vo as [|? t ? o' Ht Vo']; subst. cbn [look].
  destruct (IH ks o' ltac:(lia) Vo' ltac:(intros; apply Hal; now right)) as [V E].
  { intros r Hr'. apply (Hr (S r)). lia. }
  specialize (Hr 0%nat ltac:(lia)). cbn [nth] in Hr. pose proof (Hal a (or_introl eq_refl)) as Ha. specialize (B a Ha).
  rewrite moved_nth by lia.
  rewrite (spot_inside F m) by (auto; lia). rewrite (spot_inside F m') by (auto; lia). split.
  - apply EdgeHV.valid_upd; auto. lia.
  - rewrite E, moved_upd by (rewrite (valid_length _ _ V); auto). f_equal. lia.
Qed.

Lemma fsum_bsum_ext ks n (f g : list Z -> Z -> F) (w : list Z -> F) (u : Z -> F) :
  (forall o q, valid ks o -> 0 <= q < n -> f o q = g o q) ->
  bsum ks (fun o => fmul (w o) (fsum n (fun q => fmul (u q) (f o q)))) = bsum ks (fun o => fmul (w o) (fsum n (fun q => fmul (u q) (g o q)))).
Proof. intros H. apply bsum_ext. intros o Vo. f_equal. apply fsum_ext. intros q Hq. rewrite H; auto. Qed.

(** The image and the tile may be padded differently; away from the border of the tile the results agree. *)
Theorem component_tile fuel junk fuel' junk' ker smooth raw normalize p m p' m' shared shared' (e e' : edge_filter F) off (x x' : T) ea ax ax' c al k :
  edge_init (NItem ker) smooth normalize (Some p) shared = Ok e -> edge_init (NItem ker) smooth normalize (Some p') shared' = Ok e' -> ker <> [] ->
  copying m -> copying m' -> check_axes (Z.of_nat (ndim x)) ea = Ok [Z.of_nat c] -> In c al ->
  edge_image fuel p m x ax al k -> edge_image fuel' p' m' x' ax al k -> check_axes (Z.of_nat (ndim x)) ax' = Ok (map Z.of_nat al) -> klen ker <= k ->
  expand (length (without c al)) smooth = Some raw -> (forall s, In s raw -> klen s <= k) -> tile off x x' ->
  exists y y', snd (component trunc fuel junk e x ea ax') = Ok y /\ snd (component trunc fuel' junk' e' x' ea ax') = Ok y' /\ shp y = shp x /\ shp y' = shp x' /\
    forall j, valid (shp x') j -> (forall b, In b al -> k / 2 <= nth b j 0 /\ nth b j 0 + (k - 1) / 2 < nth b (shp x') 0) ->
      at_ y' j = at_ y (moved off j).
Proof.
  intros HI HI' Hk Cm Cm' Ha Hin EI EI' Hax Hlk Hr Hs Tx. pose proof Tx as (N & B & V).
  destruct (component_copying F trunc fuel junk ker smooth raw normalize p m shared e x ea ax ax' c al k HI Hk Cm Ha Hin EI Hax Hlk Hr Hs) as [y [Y1 [Y2 Y3]]].
  rewrite <- N in Ha, Hax.
  destruct (component_copying F trunc fuel' junk' ker smooth raw normalize p' m' shared' e' x' ea ax ax' c al k HI' Hk Cm' Ha Hin EI' Hax Hlk Hr Hs) as [y' [Y1' [Y2' Y3']]].
  exists y, y'. split; auto. split; auto. split; auto. split; auto. intros j Vj Hj.
  rewrite Y3' by auto. rewrite Y3 by (eapply moved_valid; eauto). cbv zeta.
  destruct (ei_axes _ _ _ _ _ _ _ EI') as [O1 O2 O3].
  assert (W : forall b, In b (without c al) -> In b al) by (intros b Hb; unfold without in Hb; apply filter_In in Hb; tauto).
  pose proof (valid_length _ _ Vj) as Lj.
  assert (K0 : 1 <= k) by (unfold klen in Hlk; destruct ker; [congruence|cbn [length] in Hlk; lia]).
  set (S := map eff_kernel (smoothers normalize raw)).
  assert (LS : length S = length (without c al)).
  { unfold S. rewrite map_length. unfold smoothers. destruct normalize; rewrite ?map_length; apply expand_length in Hr; auto. }
  assert (KS : forall r, (r < length (without c al))%nat -> 1 <= nth r (map klen S) 0 <= k).
  { intros r Hr'. unfold S. rewrite !map_map.
    assert (Lr : length (smoothers normalize raw) = length (without c al)) by (unfold S in LS; now rewrite map_length in LS).
    rewrite nth_indep with (d' := klen (@eff_kernel F [])) by (rewrite map_length; lia).
    rewrite (map_nth (fun l : list F => klen (eff_kernel l))).
    assert (In (nth r (smoothers normalize raw) []) (smoothers normalize raw)) by (apply nth_In; lia).
    pose proof (smoothers_len F normalize raw k Hs _ H) as Q. unfold eff_kernel, klen in *.
    destruct (nth r (smoothers normalize raw) []); cbn [length] in *; lia. }
  apply fsum_bsum_ext. intros o q Vo Hq.
  assert (Hc : (c < length (shp x'))%nat) by (apply O2; auto).
  destruct (look_moved m m' off (shp x) (shp x') j Cm Cm' Vj) with (al := without c al) (ks := map klen S) (o := o) as [VL EL]; auto.
  { unfold ndim in *. rewrite N. auto. }
  { now rewrite map_length. }
  { intros r Hr'. specialize (KS r Hr'). destruct (Hj (nth r (without c al) 0%nat)) as [J1 J2]; [apply W, nth_In; auto|].
    set (kk := nth r (map klen S) 0) in *. pose proof (Z.div_le_mono kk k 2). pose proof (Z.div_le_mono (kk - 1) (k - 1) 2).
    assert (kk - 1 - kk / 2 = (kk - 1) / 2) by (pose proof (Z.div_mod kk 2); pose proof (Z.mod_pos_bound kk 2); pose proof (Z.div_mod (kk - 1) 2); pose proof (Z.mod_pos_bound (kk - 1) 2); lia).
    lia. }
  rewrite EL. destruct (Hj c Hin) as [J1 J2].
  assert (K1 : klen ker / 2 <= k / 2) by (apply Z.div_le_mono; lia).
  assert (K2 : klen ker - 1 - klen ker / 2 <= (k - 1) / 2).
  { pose proof (Z.div_le_mono (klen ker - 1) (k - 1) 2). pose proof (Z.div_mod (klen ker) 2). pose proof (Z.mod_pos_bound (klen ker) 2).
    pose proof (Z.div_mod (klen ker - 1) 2). pose proof (Z.mod_pos_bound (klen ker - 1) 2). lia. }
  rewrite (spot_inside F m') by (auto; lia). destruct (B c) as [B1 B2]; [unfold ndim in *; lia|].
  rewrite moved_nth by lia. rewrite (spot_inside F m) by (auto; lia).
  rewrite V by (apply EdgeHV.valid_upd; auto; lia).
  rewrite moved_upd by (rewrite (valid_length _ _ VL); auto). do 2 f_equal. lia.
Qed.
End TE.
