(** Pooling a part of an image gives a part of the pooled image. *)
From Verif Require Export PickPool PoolPropLemmas.
Open Scope Z_scope.

(** The index i moved by off d along every axis d. *)
Definition moved (off : nat -> Z) (i : list Z) : list Z := map (fun d => nth d i 0 + off d) (seq 0 (length i)).
(** x' is the block of x that begins at position off d of every axis d. *)
Definition tile {F : ofield} (off : nat -> Z) (x x' : tensor F) : Prop :=
  ndim x' = ndim x /\ (forall d, (d < ndim x)%nat -> 0 <= off d /\ nth d (shp x') 0 + off d <= nth d (shp x) 0) /\
  forall i, valid (shp x') i -> at_ x' i = at_ x (moved off i).

Section Tiles.
Variable F : ofield.
Notation T := (tensor F).

Lemma moved_length off i : length (moved off i) = length i.
Proof. unfold moved. now rewrite map_length, seq_length. Qed.
Lemma moved_nth off i d : (d < length i)%nat -> nth d (moved off i) 0 = nth d i 0 + off d.
Proof. intros H. unfold moved. now rewrite nth_map_seq. Qed.
Lemma moved_valid off (x x' : T) i : tile off x x' -> valid (shp x') i -> valid (shp x) (moved off i).
Proof.
  intros (N & B & _) V. apply valid_iff in V as [L V]. unfold ndim in *. apply valid_iff.
  rewrite moved_length. split; [lia|]. intros d Hd. rewrite moved_nth by lia.
  specialize (V d ltac:(lia)). specialize (B d Hd). lia.
Qed.
Lemma moved_moved off off' i : moved off (moved off' i) = moved (fun d => off' d + off d) i.
Proof.
  apply list_ext with (d := 0); [now rewrite !moved_length|]. rewrite !moved_length. intros d Hd.
  rewrite !moved_nth by (rewrite ?moved_length; auto). lia.
Qed.
Lemma moved_ext off off' i : (forall d, (d < length i)%nat -> off d = off' d) -> moved off i = moved off' i.
Proof.
  intros H. apply list_ext with (d := 0); [now rewrite !moved_length|]. rewrite !moved_length. intros d Hd.
  rewrite !moved_nth by auto. now rewrite H.
Qed.
Lemma tile_trans off off' (x y z : T) : tile off x y -> tile off' y z -> tile (fun d => off' d + off d) x z.
Proof.
  intros A B. pose proof A as (N & H & V). pose proof B as (N' & H' & V'). split; [congruence|]. split.
  - intros d Hd. specialize (H d Hd). rewrite <- N in Hd. specialize (H' d Hd). lia.
  - intros i Vi. rewrite V' by auto. rewrite V by (eapply moved_valid; eauto). now rewrite moved_moved.
Qed.

(** Strides divide the offsets of pooled axes. *)
Definition strided (al : list nat) (sts : list Z) (off off' : nat -> Z) : Prop :=
  (forall r, (r < length al)%nat -> off (nth r al 0%nat) = off' (nth r al 0%nat) * nth r sts 1) /\
  forall d, ~ In d al -> off d = off' d.

Lemma place_moved al sts off off' j o : NoDup al -> (forall a, In a al -> (a < length j)%nat) ->
  length sts = length al -> length o = length al -> strided al sts off off' ->
  place al sts (moved off' j) o = moved off (place al sts j o).
Proof.
  intros N B L Lo [S1 S2]. apply list_ext with (d := 0); [now rewrite place_length, !moved_length, place_length|].
  rewrite place_length, moved_length. intros d Hd. rewrite (moved_nth off) by now rewrite place_length.
  destruct (in_dec Nat.eq_dec d al) as [Hi|Hi].
  - destruct (In_pos d al 0%nat Hi) as [r [Hr <-]]. rewrite !place_nth by (auto; intros; rewrite moved_length; auto).
    rewrite moved_nth by auto. rewrite S1 by auto. lia.
  - rewrite !place_notin by auto. rewrite moved_nth by auto. now rewrite S2.
Qed.

Lemma corr_tile al (kers : list (list F)) sts off off' (x x' y y' : T) : NoDup al -> length kers = length al -> length sts = length al ->
  (forall b, In b al -> (b < ndim x)%nat) -> (forall r, (r < length al)%nat -> 1 <= nth r sts 1) ->
  strided al sts off off' -> tile off x x' ->
  teq y (correlate al kers sts x) -> teq y' (correlate al kers sts x') -> tile off' y y'.
Proof.
  intros Nd Lk Ls Hal Hs ST P [Y1 Y2] [Y1' Y2']. pose proof P as (N & B & V). pose proof ST as [S1 S2].
  cbn [correlate shp at_] in *. unfold ndim in *.
  assert (Hoff : forall d, (d < length (shp x))%nat -> 0 <= off' d).
  { intros d Hd. destruct (B d Hd) as [B1 _]. destruct (in_dec Nat.eq_dec d al) as [Hi|Hi].
    - destruct (In_pos d al 0%nat Hi) as [r [Hr <-]]. rewrite S1 in B1 by auto. specialize (Hs r Hr). nia.
    - now rewrite S2 in B1. }
  assert (Hb : forall d, (d < length (shp x))%nat -> 0 <= off' d /\ nth d (shp y') 0 + off' d <= nth d (shp y) 0).
  { intros d Hd. split; [auto|]. rewrite Y1, Y1'. destruct (B d Hd) as [_ B2]. destruct (in_dec Nat.eq_dec d al) as [Hi|Hi].
    - destruct (In_pos d al 0%nat Hi) as [r [Hr <-]]. rewrite !pooled_nth by (auto; intros; rewrite ?N; auto).
      rewrite S1 in B2 by auto. specialize (Hs r Hr).
      set (k := klen (nth r kers [])) in *. set (s := nth r sts 1) in *. set (n := nth (nth r al 0%nat) (shp x) 0) in *.
      set (n' := nth (nth r al 0%nat) (shp x') 0) in *. set (q := off' (nth r al 0%nat)) in *.
      assert ((n' - k) / s + q <= (n - k) / s).
      { rewrite <- Z.div_add by lia. apply Z.div_le_mono; lia. }
      lia.
    - rewrite !pooled_notin by auto. now rewrite S2 in B2. }
  assert (Ny : length (shp y) = length (shp x)) by now rewrite Y1, pooled_length.
  assert (Ny' : length (shp y') = length (shp x')) by now rewrite Y1', pooled_length.
  split; [unfold ndim; lia|]. split; [unfold ndim; rewrite Ny; auto|]. intros j Vj.
  assert (Vm : valid (shp y) (moved off' j)).
  { pose proof Vj as W. apply valid_iff in W as [L W]. apply valid_iff. rewrite moved_length. split; [lia|]. intros d Hd.
    rewrite moved_nth by lia. specialize (W d ltac:(lia)). specialize (Hb d ltac:(lia)). lia. }
  rewrite Y2' by auto. rewrite Y2 by auto. apply bsum_ext. intros o Vo. f_equal.
  pose proof (valid_length _ _ Vo) as Lo. rewrite map_length in Lo. pose proof (valid_length _ _ Vj) as Lj.
  rewrite Y1' in Vj. rewrite V by (eapply place_valid; eauto; intros; rewrite N; auto).
  f_equal. symmetry. apply place_moved; auto; try lia. intros a Ha. rewrite Lj, Ny', N. auto.
Qed.

Theorem pool_valid_tile fuel junk fuel' junk' (m : pool F) off off' (x x' : T) ax al kers sts : on_axes x ax al ->
  built (length al) kers sts None m ->
  (forall r, (r < length al)%nat -> klen (nth r kers []) <= nth (nth r al 0%nat) (shp x') 0) ->
  strided al (map2 eff_stride kers sts) off off' -> tile off x x' ->
  exists y y', snd (sep_forward fuel junk m x ax) = Ok y /\ snd (sep_forward fuel' junk' m x' ax) = Ok y' /\ tile off' y y'.
Proof.
  intros OA B Hf ST P. pose proof P as (N & Bd & _).
  assert (OA' : on_axes x' ax al). { destruct OA as [O1 O2 O3]. unfold ndim in *. split; unfold ndim; rewrite ?N; auto. }
  destruct (built_par F _ _ _ _ _ B) as [PP [Pd _]]. pose proof OA as [O1 O2 O3].
  assert (Hf' : forall r, (r < length al)%nat -> klen (nth r kers []) <= nth (nth r al 0%nat) (shp x) 0).
  { intros r Hr. specialize (Hf r Hr). destruct (Bd (nth r al 0%nat)) as [B1 B2]; [apply O2, nth_In; auto|]. lia. }
  destruct (sep_forward_valid F fuel junk m x ax al kers sts OA PP Pd Hf') as [y [Y1 Y2]].
  destruct (sep_forward_valid F fuel' junk' m x' ax al kers sts OA' PP Pd Hf) as [y' [Y1' Y2']].
  exists y, y'. rewrite Y1, Y1'. split; auto. split; auto.
  pose proof PP as [L1 [L2 [_ L4]]].
  eapply (corr_tile al (map eff_kernel kers) (map2 eff_stride kers sts) off off' x x'); eauto; rewrite ?map_length, ?map2_length; auto; try lia.
  intros r Hr. rewrite nth_map2 with (da := []) (db := 1) by lia. destruct (L4 r Hr) as [_ [_ [_ Q]]].
  destruct (nth r kers []); cbn [eff_stride]; [lia|]. apply Q. discriminate.
Qed.

(** The original image is a tile of the padded one. *)
Lemma same_width_one k n w : 0 <= k -> is_same_width k 1 n w -> fst w = k / 2 /\ 0 <= snd w.
Proof.
  intros Hk (m & C & S & D). unfold is_ceil_div in C. assert (m = n) by lia. subst m.
  replace ((n - 1) * 1 + k - n) with (k - 1) in S by lia.
  assert (k = 0 \/ 1 <= k) as [->|H] by lia.
  - cbn in S. replace (0 / 2) with 0 by reflexivity. lia.
  - replace (Z.max 0 (k - 1)) with (k - 1) in S by lia. split; [|lia].
    pose proof (Z.div_mod k 2). pose proof (Z.mod_pos_bound k 2). lia.
Qed.

(** The correlation with stride 1 is a tile of the filtered image. *)
Definition unit_corr (al : list nat) (kers : list (list F)) (x : T) : T :=
  correlate al (map eff_kernel kers) (map2 eff_stride kers (repeat 1 (length al))) x.
Lemma unit_stride (al : list nat) (kers : list (list F)) r : length kers = length al -> (r < length al)%nat ->
  nth r (map2 eff_stride kers (repeat 1 (length al))) 1 = 1.
Proof.
  intros L Hr. rewrite nth_map2 with (da := []) (db := 1) by (rewrite ?repeat_length; lia). rewrite nth_repeat.
  now destruct (nth r kers []).
Qed.
Lemma unit_corr_tile al kers off (x x' y y' : T) : NoDup al -> length kers = length al -> (forall b, In b al -> (b < ndim x)%nat) ->
  tile off x x' -> teq y (unit_corr al kers x) -> teq y' (unit_corr al kers x') -> tile off y y'.
Proof.
  intros Nd L1 Hal Tx Ty Ty'.
  eapply (corr_tile al (map eff_kernel kers) (map2 eff_stride kers (repeat 1 (length al))) off off x x'); eauto;
    rewrite ?map_length, ?map2_length, ?repeat_length; auto; try lia.
  - intros r Hr. rewrite unit_stride; auto. lia.
  - split; auto. intros r Hr. rewrite unit_stride by auto. lia.
Qed.
Lemma filter_corr fuel junk (m : pool F) off (x : T) ax (al : list nat) kers p ms :
  built (length al) kers (repeat 1 (length al)) (Some p) m ->
  same_call F fuel p x ax al ms kers (repeat 1 (length al)) ->
  (forall r, (r < length al)%nat -> off (nth r al 0%nat) = klen (nth r kers []) / 2) -> (forall d, ~ In d al -> off d = 0) ->
  exists y, snd (sep_forward fuel junk m x ax) = Ok y /\ tile off y (unit_corr al kers x).
Proof.
  intros B SC H1 H2. pose proof SC as [OA N0 P0 P1 SS PF FM FU]. pose proof OA as [O1 O2 O3].
  destruct (built_par F _ _ _ _ _ B) as [PP [Pd [E1 [E2 _]]]]. pose proof PP as [L1 [L2 [_ L4]]].
  destruct (sep_forward_same F fuel junk m x ax al kers _ p ms PP E1 E2 Pd SC) as [ws [xp [y [W1 [W2 [PC [AF [NE [W6 [W7 [W8 [Ty _]]]]]]]]]]]].
  exists y. rewrite W8. split; auto.
  destruct (same_pad_call F fuel p x ax al ms kers _ ws SC W1 L1 W2) as [_ [_ [_ [FL [FN FS]]]]].
  destruct (forward_keeps F fuel junk (with_width p ws) x ax al PC AF) as [z [Z1 [Z2 Z3]]].
  rewrite W6 in Z1. injection Z1 as <-.
  destruct (with_width_par F (length al) p ms ws al PF W1 eq_refl O3) as [LA Q].
  assert (Hw : forall r, (r < length al)%nat -> fst (nth r ws (0, 0)) = klen (nth r kers []) / 2 /\ 0 <= snd (nth r ws (0, 0))).
  { intros r Hr. specialize (W2 r Hr). rewrite nth_repeat in W2. eapply same_width_one; eauto. unfold klen. lia. }
  assert (Tx : tile off xp x).
  { assert (Nx : ndim xp = ndim x) by (unfold ndim; rewrite W7; exact FL). split; [auto|]. split.
    - intros d Hd. rewrite Nx in Hd. rewrite W7. destruct (in_dec Nat.eq_dec d al) as [Hi|Hi].
      + destruct (In_pos d al 0%nat Hi) as [r [Hr <-]]. rewrite FS by auto. cbv zeta. rewrite H1 by auto. destruct (Hw r Hr) as [E S].
        rewrite <- E. assert (0 <= fst (nth r ws (0, 0))).
        { rewrite E. apply Z.div_pos; unfold klen; lia. }
        destruct (Z.eqb_spec (fst (nth r ws (0, 0))) 0); cbn [andb]; [destruct (Z.eqb_spec (snd (nth r ws (0, 0))) 0); [lia|]|];
          (destruct (is_periodize _); [pose proof (Z.mod_pos_bound (nth (nth r al 0%nat) (shp x) 0) 2)|]; lia).
      + rewrite FN by auto. rewrite H2 by auto. lia.
    - intros i Vi. rewrite <- Z3 by auto. f_equal. unfold moved. apply valid_length in Vi. rewrite Vi. unfold ndim. apply map_ext_in.
      intros d Hd. f_equal. rewrite LA. destruct (in_dec Nat.eq_dec d al) as [Hi|Hi].
      + destruct (In_pos d al 0%nat Hi) as [r [Hr <-]]. destruct (Q r Hr) as [q [-> [-> _]]]. rewrite H1 by auto. now destruct (Hw r Hr).
      + rewrite axis_par_notin by auto. now rewrite H2. }
  assert (Nx : ndim xp = ndim x) by (destruct Tx; auto).
  apply (unit_corr_tile al kers off xp x y (unit_corr al kers x)); auto.
  - intros b Hb. rewrite Nx. auto.
  - apply teq_refl.
Qed.

(** Filtering with a same padder: the pooled image without padder is its middle part. *)
Theorem filter_middle fuel junk fuel' junk' (m mv : pool F) off (x : T) ax (al : list nat) kers p ms :
  built (length al) kers (repeat 1 (length al)) (Some p) m -> built (length al) kers (repeat 1 (length al)) None mv ->
  same_call F fuel p x ax al ms kers (repeat 1 (length al)) ->
  (forall r, (r < length al)%nat -> klen (nth r kers []) <= nth (nth r al 0%nat) (shp x) 0) ->
  (forall r, (r < length al)%nat -> off (nth r al 0%nat) = klen (nth r kers []) / 2) -> (forall d, ~ In d al -> off d = 0) ->
  exists y yv, snd (sep_forward fuel junk m x ax) = Ok y /\ snd (sep_forward fuel' junk' mv x ax) = Ok yv /\ tile off y yv.
Proof.
  intros B Bv SC Hf H1 H2. pose proof SC as [OA N0 P0 P1 SS PF FM FU].
  destruct (built_par F _ _ _ _ _ Bv) as [PPv [Pdv _]].
  destruct (filter_corr fuel junk m off x ax al kers p ms B SC H1 H2) as [y [Y1 Y2]].
  destruct (sep_forward_valid F fuel' junk' mv x ax al kers _ OA PPv Pdv Hf) as [yv [V1 V2]].
  exists y, yv. rewrite V1. split; auto. split; auto. destruct V2 as [V2 V3]. destruct Y2 as (N & Bd & V).
  unfold tile, ndim in *. fold (unit_corr al kers x) in V2. rewrite V2. split; auto. split; auto.
  intros i Vi. rewrite V3 by (now rewrite V2). apply V. auto.
Qed.

(** Filtering a tile: away from the border of the tile the result is the one for the whole image. *)
Lemma filter_tile_at fuel junk fuel' junk' (m m' : pool F) off mid (x x' : T) ax al kers p ms p' ms' :
  built (length al) kers (repeat 1 (length al)) (Some p) m -> built (length al) kers (repeat 1 (length al)) (Some p') m' ->
  same_call F fuel p x ax al ms kers (repeat 1 (length al)) -> same_call F fuel' p' x' ax al ms' kers (repeat 1 (length al)) ->
  tile off x x' ->
  (forall r, (r < length al)%nat -> mid (nth r al 0%nat) = klen (nth r kers []) / 2) -> (forall d, ~ In d al -> mid d = 0) ->
  exists y y', snd (sep_forward fuel junk m x ax) = Ok y /\ snd (sep_forward fuel' junk' m' x' ax) = Ok y' /\
    forall j, (forall d, (d < ndim x)%nat -> 0 <= nth d j 0 < nth d (shp x') 0) -> length j = ndim x ->
      (forall r, (r < length al)%nat -> klen (nth r kers []) / 2 <= nth (nth r al 0%nat) j 0 /\
         nth (nth r al 0%nat) j 0 + (klen (nth r kers []) - 1) / 2 < nth (nth r al 0%nat) (shp x') 0) ->
      at_ y' j = at_ y (moved off j).
Proof.
  intros B B' SC SC' Tx H1 H2.
  destruct (filter_corr fuel junk m mid x ax al kers p ms B SC H1 H2) as [y [Y1 Y2]].
  destruct (filter_corr fuel' junk' m' mid x' ax al kers p' ms' B' SC' H1 H2) as [y' [Y1' Y2']].
  exists y, y'. split; auto. split; auto. intros j Vj Lj Hj.
  pose proof SC as [[O1 O2 O3] _ _ _ _ _ _ _]. destruct (built_par F _ _ _ _ _ B) as [[L1 _] _].
  pose proof (unit_corr_tile al kers off x x' _ _ O3 L1 O2 Tx (teq_refl _) (teq_refl _)) as Tc.
  pose proof Tx as (Nx & _).
  assert (Vi : valid (shp (unit_corr al kers x')) (moved (fun d => - mid d) j)).
  { unfold unit_corr, correlate. cbn [shp]. apply valid_iff. rewrite moved_length, pooled_length. fold (ndim x'). split; [lia|].
    intros d Hd. rewrite moved_nth by lia. specialize (Vj d ltac:(lia)).
    destruct (in_dec Nat.eq_dec d al) as [Hi|Hi].
    - destruct (In_pos d al 0%nat Hi) as [r [Hr <-]].
      rewrite pooled_nth by (rewrite ?map_length, ?map2_length, ?repeat_length; auto; try lia; intros a Ha; fold (ndim x'); rewrite Nx; auto).
      rewrite unit_stride by auto. rewrite H1 by auto. specialize (Hj r Hr). rewrite Z.div_1_r.
      rewrite (nth_indep (map eff_kernel kers) [] (eff_kernel [])) by (rewrite map_length; lia). rewrite map_nth.
      assert (KL : klen (eff_kernel (nth r kers [])) = Z.max 1 (klen (nth r kers []))).
      { unfold klen. destruct (nth r kers []); cbn [eff_kernel length]; lia. }
      rewrite KL. set (k := klen (nth r kers [])) in *. assert (0 <= k) by (unfold k, klen; lia).
      assert (k = 0 \/ 1 <= k) as [E|E] by lia.
      + rewrite E in *. replace (0 / 2) with 0 in * by reflexivity. lia.
      + pose proof (Z.div_mod k 2). pose proof (Z.mod_pos_bound k 2). pose proof (Z.div_mod (k - 1) 2). pose proof (Z.mod_pos_bound (k - 1) 2). lia.
    - rewrite pooled_notin by auto. rewrite H2 by auto. lia. }
  destruct Y2' as (_ & _ & V'). pose proof Y2 as (_ & _ & V). pose proof Tc as (_ & _ & Vc).
  assert (Ej : j = moved mid (moved (fun d => - mid d) j)).
  { rewrite moved_moved. apply list_ext with (d := 0); [now rewrite moved_length|]. intros d Hd. rewrite moved_nth by auto. lia. }
  rewrite Ej at 1. rewrite <- V' by auto. rewrite Vc by auto. rewrite V by (apply (moved_valid off _ _ _ Tc); auto).
  f_equal. rewrite !moved_moved. apply moved_ext. intros d _. lia.
Qed.

Lemma place_widths (g : nat -> Z) : forall al : list nat, NoDup al ->
  exists mid : nat -> Z, (forall r, (r < length al)%nat -> mid (nth r al 0%nat) = g r) /\ forall d, ~ In d al -> mid d = 0.
Proof.
  intros al. revert g. induction al as [|a al IH]; intros g Nd.
  - exists (fun _ => 0). split; auto. cbn. intros; lia.
  - inversion Nd as [|? ? Na Nd']; subst. destruct (IH (fun r => g (S r)) Nd') as [mid [M1 M2]].
    exists (fun d => if Nat.eqb d a then g 0%nat else mid d). split.
    + intros [|r] Hr; cbn [nth length] in *.
      * now rewrite Nat.eqb_refl.
      * destruct (Nat.eqb_spec (nth r al 0%nat) a) as [E|_]; [|apply M1; lia].
        exfalso. apply Na. rewrite <- E. apply nth_In. lia.
    + intros d Hd. destruct (Nat.eqb_spec d a) as [->|_]; [exfalso; apply Hd; now left|]. apply M2. intros H. apply Hd. now right.
Qed.
Theorem filter_tile fuel junk fuel' junk' (m m' : pool F) off (x x' : T) ax al kers p ms p' ms' :
  built (length al) kers (repeat 1 (length al)) (Some p) m -> built (length al) kers (repeat 1 (length al)) (Some p') m' ->
  same_call F fuel p x ax al ms kers (repeat 1 (length al)) -> same_call F fuel' p' x' ax al ms' kers (repeat 1 (length al)) ->
  tile off x x' ->
  exists y y', snd (sep_forward fuel junk m x ax) = Ok y /\ snd (sep_forward fuel' junk' m' x' ax) = Ok y' /\
    forall j, (forall d, (d < ndim x)%nat -> 0 <= nth d j 0 < nth d (shp x') 0) -> length j = ndim x ->
      (forall r, (r < length al)%nat -> klen (nth r kers []) / 2 <= nth (nth r al 0%nat) j 0 /\
         nth (nth r al 0%nat) j 0 + (klen (nth r kers []) - 1) / 2 < nth (nth r al 0%nat) (shp x') 0) ->
      at_ y' j = at_ y (moved off j).
Proof.
  intros B B' SC SC' Tx. destruct (place_widths (fun r => klen (nth r kers []) / 2) al (oa_distinct _ _ _ (sc_axes _ _ _ _ _ _ _ _ _ SC))) as [mid [M1 M2]].
  exact (filter_tile_at fuel junk fuel' junk' m m' off mid x x' ax al kers p ms p' ms' B B' SC SC' Tx M1 M2).
Qed.
End Tiles.
