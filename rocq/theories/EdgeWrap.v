(** Edge filters called with axis numbers outside the image (C132). *)
From Verif Require Export EdgeHV AxisErrors.
Open Scope Z_scope.

(** The kernels of the two branches of _conv_edge without a convolution (edges.py:59-69). *)
Definition sliced_kernel {F : ofield} (trunc : F -> Z) (ker : list F) : Prop :=
  map trunc ker = [-1; 0; 1] \/ map trunc ker = [1; -2; 1].

Section EW.
Variable F : ofield.
Add Field Few : (f_field F).
Notation T := (tensor F).
Variable trunc : F -> Z.

(** component, whatever the axis numbers are. *)
Lemma component_any fuel junk ker smooth normalize pd shared (e : edge_filter F) (x : T) ea sx b sl :
  edge_init (NItem ker) smooth normalize pd shared = Ok e ->
  check_axes (Z.of_nat (ndim x)) ea = Ok [b] -> check_axes (Z.of_nat (ndim x)) sx = Ok sl ->
  snd (component trunc fuel junk e x ea sx) =
    (c <- snd (conv_edge trunc fuel junk e x b) ;; snd (sep_forward fuel junk (ef_smooth e) c (AxSeq (filter (fun d => negb (d =? b)) sl)))).
Proof.
  intros HI Ha Hs. apply init_coh in HI. unfold component. rewrite Ha, Hs.
  destruct (conv_edge_like F trunc fuel junk e e x b (elike_refl F e) HI) as [_ [_ [_ [_ L]]]].
  destruct (conv_edge trunc fuel junk e x b) as [e1 [c|er]]; cbn [fst snd bind] in *; [|reflexivity].
  destruct (sep_forward_like F fuel junk _ _ c (AxSeq (filter (fun d => negb (d =? b)) sl)) L) as [S1 _].
  rewrite S1. destruct (sep_forward fuel junk (ef_smooth e1) c _) as [m q]. reflexivity.
Qed.
Lemma pad_wrap fuel junk (m : pool F) (x : T) b a : - Z.of_nat (ndim x) <= b < 0 -> a = Z.to_nat (b + Z.of_nat (ndim x)) ->
  pool_pad fuel junk m x (AxInt b) = pool_pad fuel junk m x (AxInt (Z.of_nat a)).
Proof.
  intros H ->. unfold pool_pad. cbn [check_axes]. destruct (Z.leb_spec 0 b); [lia|].
  destruct (Z.leb_spec 0 (Z.of_nat (Z.to_nat (b + Z.of_nat (ndim x))))); [|lia].
  replace (Z.of_nat (Z.to_nat (b + Z.of_nat (ndim x)))) with (Z.of_nat (ndim x) + b) by lia. reflexivity.
Qed.
Lemma slice_wrap (y : T) sl b a : - Z.of_nat (ndim y) <= b < 0 -> a = Z.to_nat (b + Z.of_nat (ndim y)) ->
  slice_axis y sl b = slice_axis y sl (Z.of_nat a).
Proof.
  intros H ->. unfold slice_axis, axis_nat. destruct (Z.ltb_spec b 0); [|lia].
  destruct (Z.ltb_spec (Z.of_nat (Z.to_nat (b + Z.of_nat (ndim y)))) 0); [lia|].
  replace (Z.of_nat (Z.to_nat (b + Z.of_nat (ndim y)))) with (b + Z.of_nat (ndim y)) by lia. reflexivity.
Qed.
Lemma sep_wrap fuel junk (m : pool F) (x : T) b a : - Z.of_nat (ndim x) <= b < 0 -> a = Z.to_nat (b + Z.of_nat (ndim x)) ->
  sep_forward fuel junk m x (AxInt b) = sep_forward fuel junk m x (AxInt (Z.of_nat a)).
Proof.
  intros H ->. unfold sep_forward. cbn [check_axes]. destruct (Z.leb_spec 0 b); [lia|].
  destruct (Z.leb_spec 0 (Z.of_nat (Z.to_nat (b + Z.of_nat (ndim x))))); [|lia].
  replace (Z.of_nat (Z.to_nat (b + Z.of_nat (ndim x)))) with (Z.of_nat (ndim x) + b) by lia. reflexivity.
Qed.
(** A negative axis number, handed to _conv_edge by an int below -ndim. *)
Lemma conv_wrap fuel junk (e : edge_filter F) (x : T) b a : - Z.of_nat (ndim x) <= b < 0 -> a = Z.to_nat (b + Z.of_nat (ndim x)) ->
  (forall xp, snd (pool_pad fuel junk (ef_edge e) x (AxInt (Z.of_nat a))) = Ok xp -> ndim xp = ndim x) ->
  conv_edge trunc fuel junk e x b = conv_edge trunc fuel junk e x (Z.of_nat a).
Proof.
  intros H Ea N. unfold conv_edge. rewrite (pad_wrap fuel junk (ef_edge e) x b a H Ea), (sep_wrap fuel junk (ef_edge e) x b a H Ea).
  destruct (pool_pad fuel junk (ef_edge e) x (AxInt (Z.of_nat a))) as [m [xp|er]]; cbn [snd bind] in *; [|reflexivity].
  specialize (N xp eq_refl). rewrite !(slice_wrap xp _ b a) by (rewrite N; auto). reflexivity.
Qed.
Lemma pad_ndim fuel junk ker smooth normalize p shared (e : edge_filter F) (x : T) a ms xp :
  edge_init (NItem ker) smooth normalize (Some p) shared = Ok e ->
  same_call F fuel p x (AxInt (Z.of_nat a)) [a] ms [ker] [1] ->
  snd (pool_pad fuel junk (ef_edge e) x (AxInt (Z.of_nat a))) = Ok xp -> ndim xp = ndim x.
Proof.
  intros HI SC Hp. destruct (edge_init_built F _ _ _ _ _ _ HI) as [I1 [I2 [I3 _]]].
  destruct (built_par F _ _ _ _ _ I3) as [PP [Pd [X1 [X2 X3]]]].
  destruct (pool_pad_same F fuel junk (ef_edge e) x _ [a] [ker] [1] p ms PP X1 X2 Pd SC) as [ws [xq [W1 [W2 [W3 [W4 [W5 [W6 [W7 W8]]]]]]]]].
  rewrite W8 in Hp. cbn [snd] in Hp. inv Hp. unfold ndim. rewrite W7. unfold full_shape. now rewrite map_length, seq_length.
Qed.

(** An edge axis below -ndim: the edges of the axis it wraps to, smoothed along all the smoothing axes. *)
Lemma keeps_all b al : b < 0 -> filter (fun d => negb (d =? b)) (map Z.of_nat al) = map Z.of_nat al.
Proof.
  intros H. induction al as [|a al IH]; cbn; auto. destruct (Z.eqb_spec (Z.of_nat a) b); [lia|]. cbn. now rewrite IH.
Qed.
Theorem component_wrapped fuel junk ker smooth raw normalize p shared (e : edge_filter F) (x : T) b sx a al ms ms' :
  truncates trunc -> exact_path trunc ker ->
  edge_init (NItem ker) smooth normalize (Some p) shared = Ok e -> ker <> [] ->
  - Z.of_nat (ndim x) <= b < 0 -> a = Z.to_nat (b + Z.of_nat (ndim x)) -> check_axes (Z.of_nat (ndim x)) sx = Ok (map Z.of_nat al) ->
  same_call F fuel p x (AxInt (Z.of_nat a)) [a] ms [ker] [1] -> ~ In MPeriodize ms ->
  expand (length al) smooth = Some raw ->
  same_call F fuel p x (AxSeq (map Z.of_nat al)) al ms' (smoothers normalize raw) (repeat 1 (length al)) ->
  exists w xp c ws cp y,
    is_same_width (klen ker) 1 (nth a (shp x) 0) w /\
    padder_forward fuel junk (with_width p [w]) x (AxInt (Z.of_nat a)) = Ok xp /\
    shp c = shp x /\
    (forall j, valid (shp x) j -> at_ c j = fsum (klen ker) (fun q => fmul (nth (Z.to_nat q) ker f0) (at_ xp (upd a (nth a j 0 + q) j)))) /\
    length ws = length al /\
    (forall r, (r < length al)%nat ->
       is_same_width (klen (nth r (smoothers normalize raw) [])) 1 (nth (nth r al 0%nat) (shp x) 0) (nth r ws (0, 0))) /\
    padder_forward fuel junk (with_width p ws) c (AxSeq (map Z.of_nat al)) = Ok cp /\
    snd (component trunc fuel junk e x (AxInt (b - Z.of_nat (ndim x))) sx) = Ok y /\ (~ In MPeriodize ms' -> shp y = shp x) /\
    forall j, valid (shp y) j -> at_ y j = correlation al (smoothers normalize raw) (repeat 1 (length al)) cp j.
Proof.
  intros TR EP HI Hk Hb Ea Hs SC Hper Hr SC2.
  destruct (conv_edge_same F trunc fuel junk ker smooth normalize p shared e x a ms HI Hk SC) as
    [w [xp [c [W1 [W2 [W3 [W4 [W5 [W6 [C1 [C2 [CX [CB [C3 C4]]]]]]]]]]]]]].
  specialize (C3 Hper). destruct (edge_init_built F _ _ _ _ _ _ HI) as [I1 [I2 [I3 I4]]]. specialize (I4 _ _ Hr).
  pose proof (same_call_shape F _ _ _ c _ _ _ _ _ C3 SC2) as SC3.
  destruct (pool_same F fuel junk (ef_smooth e) c _ _ _ _ p ms' I4 SC3) as [ws [cp [y [Q1 [Q2 [Q3 [Q4 [Q5 [Q6 [Q7 [Q8 Q9]]]]]]]]]]].
  assert (Cb : check_axes (Z.of_nat (ndim x)) (AxInt (b - Z.of_nat (ndim x))) = Ok [b]).
  { cbn [check_axes]. destruct (Z.leb_spec 0 (b - Z.of_nat (ndim x))); [lia|]. do 2 f_equal. lia. }
  assert (Comp : snd (component trunc fuel junk e x (AxInt (b - Z.of_nat (ndim x))) sx) = Ok y).
  { rewrite (component_any fuel junk ker smooth normalize (Some p) shared e x _ sx b _ HI Cb Hs).
    rewrite (conv_wrap fuel junk e x b a Hb Ea).
    - rewrite C1. cbn [bind]. rewrite keeps_all by lia. exact Q4.
    - intros xq. eapply pad_ndim; eauto. }
  exists w, xp, c, ws, cp, y. do 3 (split; auto). split.
  { intros j V. rewrite C4 by congruence. unfold line_corr. rewrite (exact_used F trunc ker TR EP). reflexivity. }
  split; auto. split.
  { intros r Hr2. specialize (Q2 r Hr2). rewrite nth_repeat, C3 in Q2. exact Q2. }
  split; auto. split; auto. split; auto. intros Hp2. apply list_ext with (d := 0); [unfold ndim in *; rewrite Q5; now rewrite C3|].
  intros d Hd. rewrite <- C3. destruct (in_dec Nat.eq_dec d al) as [Hi|Hi]; [|auto].
  destruct (In_pos d _ 0%nat Hi) as [r [Hr2 <-]]. destruct (nth r (smoothers normalize raw) []) as [|k0 ks] eqn:Ek; [auto|].
  apply Q6; auto.
  - rewrite Ek. discriminate.
  - intros E. apply Hp2. rewrite <- E. apply nth_In. destruct SC2 as [_ _ _ _ _ PF _ _]. rewrite (expand_length _ _ _ (pf_mode _ _ _ PF)). auto.
  - rewrite nth_repeat. unfold is_ceil_div. lia.
Qed.

(** One-dimensional images: horizontal() and vertical() are both the edges along the only axis, smoothed along that same axis. *)
Lemma seq_wrap fuel junk (m : pool F) (x : T) : ndim x = 1%nat ->
  sep_forward fuel junk m x (AxSeq [-1]) = sep_forward fuel junk m x (AxSeq [0]).
Proof. intros N. unfold sep_forward. rewrite N. reflexivity. Qed.
Theorem line_same fuel junk ker smooth normalize p shared (e : edge_filter F) (x : T) ms :
  edge_init (NItem ker) smooth normalize (Some p) shared = Ok e -> ker <> [] -> ndim x = 1%nat ->
  same_call F fuel p x (AxInt 0) [0%nat] ms [ker] [1] ->
  snd (horizontal trunc fuel junk e x) = snd (vertical trunc fuel junk e x).
Proof.
  intros HI Hk N SC. unfold horizontal, vertical.
  assert (Nd : Z.of_nat (ndim x) = 1) by (rewrite N; reflexivity).
  rewrite (component_any fuel junk ker smooth normalize (Some p) shared e x (AxInt (-2)) (AxInt (-1)) (-1) [0] HI) by (rewrite Nd; reflexivity).
  rewrite (component_any fuel junk ker smooth normalize (Some p) shared e x (AxInt (-1)) (AxInt (-2)) 0 [-1] HI) by (rewrite Nd; reflexivity).
  rewrite (conv_wrap fuel junk e x (-1) 0).
  - destruct (conv_edge_same F trunc fuel junk ker smooth normalize p shared e x 0%nat ms HI Hk SC) as
      [w [xp [c [W1 [W2 [W3 [W4 [W5 [W6 [C1 [C2 _]]]]]]]]]]].
    change (Z.of_nat 0) with 0 in *. rewrite C1. cbn. rewrite seq_wrap; [reflexivity|]. unfold ndim. rewrite C2, upd_length. exact N.
  - rewrite Nd. lia.
  - rewrite Nd. reflexivity.
  - intros xq. change (AxInt (Z.of_nat 0)) with (AxInt 0). intros Q. eapply (pad_ndim fuel junk ker smooth normalize p shared e x 0%nat); eauto.
Qed.
Theorem horizontal_line fuel junk ker s s' normalize p m shared (e : edge_filter F) (x : T) k :
  truncates trunc -> exact_path trunc ker -> copying m ->
  edge_init (NItem ker) (NItem s) normalize (Some p) shared = Ok e -> ker <> [] -> s <> [] -> smoothers normalize [s] = [s'] ->
  ndim x = 1%nat -> edge_image fuel p m x AxNone [0%nat] k -> klen ker <= k -> klen s <= k ->
  exists y, snd (horizontal trunc fuel junk e x) = Ok y /\ snd (vertical trunc fuel junk e x) = Ok y /\ shp y = shp x /\
    forall i, let n := nth 0 (shp x) 0 in 0 <= i < n -> at_ y [i] =
      fsum (klen s) (fun r => fmul (nth (Z.to_nat r) s' f0) (fsum (klen ker) (fun q => fmul (nth (Z.to_nat q) ker f0)
        (at_ x [spot m n (spot m n (i + r - klen s / 2) + q - klen ker / 2)])))).
Proof.
  intros TR EP Cm HI Hk Hs0 Hs' N EI K1 K2. pose proof EI as [[A1 A2 A3] P0 P1 U M FU]. destruct (copying_fills F m Cm) as [_ Np].
  assert (Nd : Z.of_nat (ndim x) = 1) by (rewrite N; reflexivity).
  assert (Ks : klen s' = klen s /\ s' <> []).
  { unfold smoothers in Hs'. destruct normalize; cbn [map] in Hs'; injection Hs' as <-; [|auto].
    split; [unfold klen; now rewrite map_length|]. destruct s; [congruence|discriminate]. }
  destruct Ks as [Ks Ns]. assert (K0 : 0 <= k) by (unfold klen in K1; lia).
  pose proof (edge_image_one F fuel p m x AxNone [0%nat] k 0%nat ker EI ltac:(cbn; auto) K1) as SC1.
  assert (SC2 : same_call F fuel p x (AxSeq (map Z.of_nat [0%nat])) [0%nat] [m] [s'] [1]).
  { apply (edge_image_call F fuel p m x AxNone [0%nat] k (AxSeq (map Z.of_nat [0%nat])) [0%nat] [s']); auto.
    - rewrite N. lia.
    - apply check_axes_seq_nat. intros b [<-|[]]. rewrite N. lia.
    - apply incl_refl.
    - intros z [<-|[]]. lia. }
  destruct (component_wrapped fuel junk ker (NItem s) [s] normalize p shared e x (-1) (AxInt (-1)) 0%nat [0%nat] [m] [m] TR EP HI Hk) as
    [w [xp [c [ws [cp [y [H1 [H2 [H3 [H4 [H5 [H6 [H7 [H8 [H9 H10]]]]]]]]]]]]]]]; auto.
  - rewrite Nd. lia.
  - rewrite Nd. reflexivity.
  - rewrite Nd. reflexivity.
  - intros [?|[]]; congruence.
  - rewrite Hs'. exact SC2.
  - rewrite Hs' in H6, H10. rewrite Nd in H8. change (AxInt (-1 - 1)) with (AxInt (-2)) in H8.
    destruct ws as [|w2 [|? ?]]; try discriminate. specialize (H6 0%nat ltac:(cbn; lia)). cbn [nth] in H6.
    assert (Sy : shp y = shp x) by (apply H9; intros [?|[]]; congruence).
    exists y. split; [exact H8|]. split.
    { rewrite <- (line_same fuel junk ker (NItem s) normalize p shared e x [m] HI Hk N SC1). exact H8. }
    split; auto. cbv zeta. intros i Hi.
    destruct (pad_copies F fuel junk p m x xp _ 0%nat ker w Cm SC1 H1 H2) as [X1 X2].
    assert (SC2' : same_call F fuel p c (AxSeq (map Z.of_nat [0%nat])) [0%nat] [m] [s'] [1]) by (apply (same_call_shape F _ _ x); auto).
    destruct (pad_copies F fuel junk p m c cp _ 0%nat s' w2 Cm SC2') as [Y1 Y2]; [rewrite H3; exact H6|exact H7|].
    assert (K1' : 1 <= klen ker) by (destruct ker; [congruence|unfold klen; cbn [length]; lia]).
    assert (S1 : 1 <= klen s) by (destruct s; [congruence|unfold klen; cbn [length]; lia]).
    assert (W1 : w = (klen ker / 2, (klen ker - 1) / 2)) by (apply (width_one _ (nth 0 (shp x) 0)); auto).
    assert (W2 : w2 = (klen s / 2, (klen s - 1) / 2)) by (apply (width_one _ (nth 0 (shp x) 0)); [lia|rewrite <- Ks; auto]).
    assert (Sx : exists n, shp x = [n]).
    { unfold ndim in N. destruct (shp x) as [|n [|? ?]]; try discriminate. eauto. }
    destruct Sx as [n Sx]. rewrite Sx in *. cbn [nth upd] in *.
    assert (V1 : forall n' t, 0 <= t < n' -> valid [n'] [t]) by (intros n' t Ht; constructor; [lia|constructor]).
    rewrite Sy in H10. rewrite H10 by auto. cbn [length repeat]. rewrite correlation_one by auto. rewrite Ks.
    apply fsum_ext. intros r Hr. cbn [nth upd]. f_equal.
    assert (Hd1 := Z.div_mod (klen ker) 2 ltac:(lia)). assert (Hd1' := Z.div_mod (klen ker - 1) 2 ltac:(lia)).
    assert (Hm1 := Z.mod_pos_bound (klen ker) 2 ltac:(lia)). assert (Hm1' := Z.mod_pos_bound (klen ker - 1) 2 ltac:(lia)).
    assert (Hd2 := Z.div_mod (klen s) 2 ltac:(lia)). assert (Hd2' := Z.div_mod (klen s - 1) 2 ltac:(lia)).
    assert (Hm2 := Z.mod_pos_bound (klen s) 2 ltac:(lia)). assert (Hm2' := Z.mod_pos_bound (klen s - 1) 2 ltac:(lia)).
    rewrite H3 in Y1, Y2. subst w w2. cbn [fst snd nth upd] in *.
    rewrite Y2 by (rewrite Y1; apply V1; lia). cbn [nth upd]. set (t := spot m n (i + r - klen s / 2)).
    assert (Ht : 0 <= t < n) by (apply spot_bounds; auto; apply (P1 0%nat); cbn; auto).
    rewrite H4 by auto. apply fsum_ext. intros q Hq. cbn [nth upd]. rewrite X2 by (rewrite X1; apply V1; lia). reflexivity.
Qed.

(** Numbers that are no axis, even after wrapping. *)
Lemma slice_off (y : T) sl b : off_range (ndim y) b -> slice_axis y sl b = Err IndexError.
Proof.
  unfold off_range, slice_axis, axis_nat. intros H. destruct (Z.ltb_spec b 0);
  (destruct (_ && _) eqn:E; [apply andb_prop in E; rewrite Z.leb_le, Z.ltb_lt in E; lia|reflexivity]).
Qed.
(** The number handed on for an int a. *)
Definition handed (nd : nat) (a : Z) : Z := if 0 <=? a then a else Z.of_nat nd + a.
Theorem edge_axis_off fuel junk ker smooth normalize pd shared (e : edge_filter F) (x : T) a sx sl :
  edge_init (NItem ker) smooth normalize pd shared = Ok e -> ker <> [] ->
  check_axes (Z.of_nat (ndim x)) sx = Ok sl ->
  a < - 3 * Z.of_nat (ndim x) \/ Z.of_nat (ndim x) <= a ->
  (sliced_kernel trunc ker -> snd (component trunc fuel junk e x (AxInt a) sx) = Err IndexError) /\
  (~ sliced_kernel trunc ker ->
   snd (component trunc fuel junk e x (AxInt a) sx) = Err (if a =? Z.of_nat (ndim x) then IndexError else AssertionError)).
Proof.
  intros HI Hk Hs Ha. destruct (edge_init_built F _ _ _ _ _ _ HI) as [I1 [I2 [I3 I4]]].
  destruct (built_par F _ _ _ _ _ I3) as [PP [Pd [X1 [X2 X3]]]].
  set (b := handed (ndim x) a).
  assert (Cb : check_axes (Z.of_nat (ndim x)) (AxInt a) = Ok [b]) by reflexivity.
  assert (Hb : b < - 2 * Z.of_nat (ndim x) \/ Z.of_nat (ndim x) <= b).
  { unfold b, handed. destruct (Z.leb_spec 0 a); lia. }
  rewrite (component_any fuel junk ker smooth normalize pd shared e x _ sx b _ HI Cb Hs).
  unfold conv_edge. rewrite I1.
  assert (Slow : forall m r, sep_forward fuel junk (ef_edge e) x (AxInt b) = (m, r) -> r = Err (if a =? Z.of_nat (ndim x) then IndexError else AssertionError)).
  { intros m r E. destruct (Z.eqb_spec a (Z.of_nat (ndim x))) as [->|Na].
    - assert (Bn : b = Z.of_nat (ndim x)) by (unfold b, handed; destruct (Z.leb_spec 0 (Z.of_nat (ndim x))); lia).
      rewrite Bn in E. unfold sep_forward in E. cbn [check_axes] in E. destruct (Z.leb_spec 0 (Z.of_nat (ndim x))); [|lia].
      destruct PP as [P1 [P2 [P3 P4]]].
      assert (En : (pl_ndim (ef_edge e) =? 0) || (pl_ndim (ef_edge e) =? Z.of_nat (length [Z.of_nat (ndim x)])) = true).
      { apply orb_true_iff. destruct P3 as [->| ->]; [left|right]; reflexivity. }
      rewrite En in E. unfold pool_pad in E. rewrite second_check in E by (intros q [<-|[]]; lia). rewrite Pd in E.
      destruct pd as [p|].
      + cbn [mapM] in E. rewrite pyidx_off in E by (unfold off_range, ndim; lia). cbn in E. now inv E.
      + cbn [bind] in E. destruct (P4 0%nat ltac:(lia)) as [Q1 [Q2 [Q3 Q4]]]. cbn [nth] in *. change (Z.of_nat 0) with 0 in *.
        cbn [pool_loop] in E. rewrite Q1 in E. cbn [bind] in E.
        destruct (Z.eqb_spec (klen ker) 0) as [E0|E0]; [exfalso; unfold klen in E0; destruct ker; [congruence|simpl in E0; lia]|].
        rewrite Q3 in E. cbn [bind] in E. unfold axis_nat in E. destruct (Z.ltb_spec (Z.of_nat (ndim x)) 0); [lia|].
        rewrite Z.ltb_irrefl, andb_false_r in E. cbn [bind] in E. now inv E.
    - rewrite (pool_int_rejected F fuel junk (ef_edge e) x b) in E; [now inv E|].
      destruct Hb as [Hb|Hb]; [now left|right]. assert (b <> Z.of_nat (ndim x)); [|lia].
      unfold b, handed. destruct (Z.leb_spec 0 a); lia. }
  assert (Off1 : off_range (ndim x) b) by (unfold off_range; lia).
  assert (Fast : forall (k : T -> res T), (forall y : T, ndim y = ndim x -> k y = Err IndexError) ->
     forall m r, pool_pad fuel junk (ef_edge e) x (AxInt b) = (m, r) -> (y <- r ;; k y) = Err IndexError).
  { intros k Hky m r E. unfold pool_pad in E. cbn [check_axes] in E. rewrite Pd in E. destruct pd as [p|].
    - cbn [mapM] in E. rewrite pyidx_off in E; [cbn in E; now inv E|]. unfold off_range, ndim in *. destruct (Z.leb_spec 0 b); lia.
    - inv E. cbn [bind]. apply Hky. reflexivity. }
  split.
  - intros SK. destruct SK as [SK|SK]; rewrite SK.
    + change (zlist_eqb [-1; 0; 1] [-1; 0; 1]) with true. cbv iota. destruct (pool_pad fuel junk (ef_edge e) x (AxInt b)) as [m r] eqn:E. cbn [snd].
      match goal with |- context [bind r ?k] => assert (Q : bind r k = Err IndexError) end.
      { apply (Fast _) with (m := m); [|reflexivity]. intros y Hy. rewrite slice_off by (rewrite Hy; exact Off1). reflexivity. }
      rewrite Q. reflexivity.
    + change (zlist_eqb [1; -2; 1] [-1; 0; 1]) with false. change (zlist_eqb [1; -2; 1] [1; -2; 1]) with true. cbv iota. destruct (pool_pad fuel junk (ef_edge e) x (AxInt b)) as [m r] eqn:E. cbn [snd].
      match goal with |- context [bind r ?k] => assert (Q : bind r k = Err IndexError) end.
      { apply (Fast _) with (m := m); [|reflexivity]. intros y Hy. rewrite slice_off by (rewrite Hy; exact Off1). reflexivity. }
      rewrite Q. reflexivity.
  - intros NS. destruct (zlist_eqb (map trunc ker) [-1; 0; 1]) eqn:E1.
    { exfalso. apply NS. left. apply zlist_eqb_spec; auto. }
    destruct (zlist_eqb (map trunc ker) [1; -2; 1]) eqn:E2.
    { exfalso. apply NS. right. apply zlist_eqb_spec; auto. }
    destruct (sep_forward fuel junk (ef_edge e) x (AxInt b)) as [m r] eqn:E. cbn [snd]. rewrite (Slow m r eq_refl). reflexivity.
Qed.

(** Smoothing axes that are no axes. *)
Theorem smooth_axis_far fuel junk ker smooth normalize pd shared (e : edge_filter F) (x c : T) ea b s :
  edge_init (NItem ker) smooth normalize pd shared = Ok e ->
  check_axes (Z.of_nat (ndim x)) ea = Ok [b] -> snd (conv_edge trunc fuel junk e x b) = Ok c -> ndim c = ndim x ->
  s < - 2 * Z.of_nat (ndim x) \/ Z.of_nat (ndim x) < s ->
  handed (ndim x) s <> b ->
  snd (component trunc fuel junk e x ea (AxInt s)) = Err AssertionError.
Proof.
  intros HI Ha Hc Nc Hs Hsb.
  assert (Cs : check_axes (Z.of_nat (ndim x)) (AxInt s) = Ok [handed (ndim x) s]) by reflexivity.
  rewrite (component_any fuel junk ker smooth normalize pd shared e x ea _ b _ HI Ha Cs). rewrite Hc. cbn [bind filter].
  destruct (Z.eqb_spec (handed (ndim x) s) b); [contradiction|]. cbn [negb]. unfold sep_forward. rewrite Nc. cbn [check_axes map forallb].
  set (q := if 0 <=? handed (ndim x) s then _ else _).
  assert (E : (0 <=? q) && (q <=? Z.of_nat (ndim x)) = false).
  { apply andb_false_iff. rewrite !Z.leb_gt. unfold q, handed. destruct (Z.leb_spec 0 s); [destruct (Z.leb_spec 0 s); lia|]. destruct (Z.leb_spec 0 (Z.of_nat (ndim x) + s)); lia. }
  rewrite E. reflexivity.
Qed.
Lemma filter_keep (l : list Z) a b : In a l -> a <> b -> In a (filter (fun d => negb (d =? b)) l).
Proof. intros H N. apply filter_In. split; auto. destruct (Z.eqb_spec a b); [contradiction|reflexivity]. Qed.
Lemma smooth_ndim ker s normalize pd shared (e : edge_filter F) : edge_init (NItem ker) (NItem s) normalize pd shared = Ok e -> pl_ndim (ef_smooth e) = 0.
Proof.
  unfold edge_init. intros H. destruct (if normalize then nds_map reweight (NItem s) else Ok (NItem s)) as [sm|] eqn:E0; [|discriminate]. cbn [bind] in H.
  destruct (sep_init (NItem ker) (NItem None) None) as [e0|] eqn:E1; [|discriminate]. cbn [bind] in H.
  destruct (to_filter e0 pd) as [ef|] eqn:E2; [|discriminate]. cbn [bind] in H.
  assert (Sm : exists s', sm = NItem s').
  { destruct normalize; [|inv E0; eauto]. cbn [nds_map] in E0. destruct (reweight s); [|discriminate]. cbn [bind] in E0. inv E0. eauto. }
  destruct Sm as [s' ->].
  destruct (sep_init (NItem s') (NItem None) None) as [s0|] eqn:E3; [|discriminate]. cbn [bind] in H.
  destruct (to_filter s0 pd) as [sf|] eqn:E4; [|discriminate]. cbn [bind] in H. inv H. cbn [ef_smooth].
  unfold sep_init in E3. cbn in E3. inv E3. unfold to_filter in E4. cbn in E4. now inv E4.
Qed.
(** The number ndim in a sequence of smoothing axes. *)
Theorem smooth_axis_ndim fuel junk ker s normalize p shared (e : edge_filter F) (x c : T) ea b l l' :
  edge_init (NItem ker) (NItem s) normalize (Some p) shared = Ok e ->
  check_axes (Z.of_nat (ndim x)) ea = Ok [b] -> snd (conv_edge trunc fuel junk e x b) = Ok c -> ndim c = ndim x ->
  check_axes (Z.of_nat (ndim x)) (AxSeq l) = Ok l' -> In (Z.of_nat (ndim x)) l' -> b <> Z.of_nat (ndim x) ->
  snd (component trunc fuel junk e x ea (AxSeq l)) = Err IndexError.
Proof.
  intros HI Ha Hc Nc Hl Hi Hb. rewrite (component_any fuel junk ker (NItem s) normalize (Some p) shared e x ea _ b _ HI Ha Hl). rewrite Hc. cbn [bind].
  assert (R := check_seq_range _ _ _ Hl).
  assert (R' : forall a, In a (filter (fun d => negb (d =? b)) l') -> 0 <= a <= Z.of_nat (ndim x)) by (intros a H; apply filter_In in H; apply R, H).
  assert (Pd : pl_padder (ef_smooth e) = Some p).
  { destruct (edge_init_built F _ _ _ _ _ _ HI) as [_ [_ [_ I4]]]. destruct (built_par F _ _ _ _ _ (I4 1%nat [s] eq_refl)) as [_ [Q _]]. exact Q. }
  rewrite (pool_off_padder F fuel junk (ef_smooth e) p c _ (filter (fun d => negb (d =? b)) l')); auto.
  - rewrite Nc. apply second_check; auto.
  - left. apply (smooth_ndim _ _ _ _ _ _ HI).
  - rewrite Nc. apply filter_keep; auto.
Qed.
(** The gradient over a list of axes with the number ndim in it. *)
Theorem gradient_ndim fuel junk ker s normalize p shared (e : edge_filter F) (x : T) l l' eps pw :
  edge_init (NItem ker) (NItem s) normalize (Some p) shared = Ok e -> ker <> [] ->
  check_axes (Z.of_nat (ndim x)) (AxSeq l) = Ok l' -> (2 <= length l)%nat -> In (Z.of_nat (ndim x)) l' ->
  (forall a, hd 0 l' = Z.of_nat a -> (a < ndim x)%nat -> exists ms, same_call F fuel p x (AxInt (Z.of_nat a)) [a] ms [ker] [1]) ->
  snd (magnitude trunc fuel junk e x (AxSeq l) eps pw) = Err IndexError /\ snd (all_components trunc fuel junk e x (AxSeq l)) = Err IndexError.
Proof.
  intros HI Hk Hl L2 Hi Hsc. assert (R := check_seq_range _ _ _ Hl).
  assert (Ll : length l' = length l). { cbn [check_axes] in Hl. destruct (forallb _ _); [|discriminate]. cbn [assertb bind] in Hl. inv Hl. apply map_length. }
  destruct l' as [|b l']; [cbn in Ll; lia|].
  assert (Rb : 0 <= b <= Z.of_nat (ndim x)) by (apply R; now left).
  assert (Cl' : check_axes (Z.of_nat (ndim x)) (AxSeq (b :: l')) = Ok (b :: l')) by (apply second_check; exact R).
  assert (Cb : check_axes (Z.of_nat (ndim x)) (AxInt b) = Ok [b]).
  { cbn [check_axes]. destruct (Z.leb_spec 0 b); [reflexivity|lia]. }
  assert (First : snd (component trunc fuel junk e x (AxInt b) (AxSeq (b :: l'))) = Err IndexError).
  { destruct (Z.eq_dec b (Z.of_nat (ndim x))) as [Eb|Nb].
    - destruct (edge_axis_off fuel junk ker (NItem s) normalize (Some p) shared e x b (AxSeq (b :: l')) (b :: l') HI Hk Cl') as [Q1 Q2]; [lia|].
      destruct (list_eq_dec Z.eq_dec (map trunc ker) [-1; 0; 1]) as [D|D]; [apply Q1; now left|].
      destruct (list_eq_dec Z.eq_dec (map trunc ker) [1; -2; 1]) as [D'|D']; [apply Q1; now right|].
      rewrite Q2 by (intros [?|?]; contradiction). rewrite Eb, Z.eqb_refl. reflexivity.
    - destruct (Hsc (Z.to_nat b)) as [ms SC]; [cbn; lia|lia|].
      destruct (conv_edge_same F trunc fuel junk ker (NItem s) normalize p shared e x (Z.to_nat b) ms HI Hk SC) as
        [w [xp [c [W1 [W2 [W3 [W4 [W5 [W6 [C1 [C2 _]]]]]]]]]]].
      rewrite Z2Nat.id in C1 by lia.
      apply (smooth_axis_ndim fuel junk ker s normalize p shared e x c (AxInt b) b (b :: l') (b :: l')); auto.
      unfold ndim. rewrite C2. apply upd_length.
    }
  unfold magnitude, all_components. rewrite Hl. rewrite Ll. destruct (Nat.ltb_spec (length l) 2); [lia|]. cbn [mag_loop component_list].
  destruct (component trunc fuel junk e x (AxInt b) (AxSeq (b :: l'))) as [e1 r]. cbn [snd] in First. subst r. split; reflexivity.
Qed.
(** A single int is never enough axes for a gradient. *)
Theorem gradient_int fuel junk (e : edge_filter F) (x : T) a eps pw :
  magnitude trunc fuel junk e x (AxInt a) eps pw = (e, Err ValueError) /\ all_components trunc fuel junk e x (AxInt a) = (e, Err ValueError).
Proof. split; reflexivity. Qed.
End EW.
