(** Edge filters: components, magnitude, Laplace, constant images (C44-C46). *)
From Verif Require Export EdgeState.
Open Scope Z_scope.

(** A Padder whose mode, constants, end values and statistic widths are single items, as built by
    Padder(mode=name). *)
Definition uniform {F : ofield} (p : padder F) (m : mode F) : Prop :=
  p_mode p = NItem m /\ (exists c, p_const p = NItem c) /\ (exists c, p_end p = NItem c) /\ (exists c, p_stat p = NItem c).
(** The axes al without a. *)
Definition without (a : nat) (al : list nat) : list nat := filter (fun b => negb (Nat.eqb b a)) al.
(** An image, distinct axes al, a padder of mode m that fills the padding and enough fuel for
    kernels up to length k. *)
Record edge_image {F : ofield} (fuel : nat) (p : padder F) (m : mode F) (x : tensor F) (ax : axes_arg) (al : list nat) (k : Z) : Prop := {
  ei_axes : on_axes x ax al;
  ei_pos : forall d, (d < ndim x)%nat -> 0 <= nth d (shp x) 0;
  ei_pos1 : forall a, In a al -> 1 <= nth a (shp x) 0;
  ei_padder : uniform p m;
  ei_mode : fills m;
  ei_fuel : forall d, (d < ndim x)%nat -> nth d (shp x) 0 + k <= Z.of_nat fuel }.
(** Sum of a list of scalars. *)
Definition axis_sum {F : ofield} (f : nat -> F) (al : list nat) : F := fold_right fadd f0 (map f al).

Section EC.
Variable F : ofield.
Add Field Fec : (f_field F).
Notation T := (tensor F).
Variable trunc : F -> Z.

Lemma filter_nat a al : filter (fun b => negb (b =? Z.of_nat a)) (map Z.of_nat al) = map Z.of_nat (without a al).
Proof.
  induction al as [|b al IH]; cbn; auto. destruct (Nat.eqb_spec b a).
  - subst. rewrite Z.eqb_refl. cbn. auto.
  - destruct (Z.eqb_spec (Z.of_nat b) (Z.of_nat a)); [lia|]. cbn. now rewrite IH.
Qed.
Lemma check_one nd a : check_axes (Z.of_nat nd) (AxInt (Z.of_nat a)) = Ok [Z.of_nat a].
Proof. unfold check_axes. destruct (Z.leb_spec 0 (Z.of_nat a)); [auto|lia]. Qed.

(** component: the smoothing filter applied to the result of _conv_edge. *)
Theorem component_smooths fuel junk ker smooth normalize pd shared (e : edge_filter F) (x c : T) ea sx a al :
  edge_init (NItem ker) smooth normalize pd shared = Ok e ->
  check_axes (Z.of_nat (ndim x)) ea = Ok [Z.of_nat a] -> check_axes (Z.of_nat (ndim x)) sx = Ok (map Z.of_nat al) ->
  snd (conv_edge trunc fuel junk e x (Z.of_nat a)) = Ok c ->
  snd (component trunc fuel junk e x ea sx) = snd (sep_forward fuel junk (ef_smooth e) c (AxSeq (map Z.of_nat (without a al)))).
Proof.
  intros HI Ha Hs Hc. apply init_coh in HI. unfold component. rewrite Ha, Hs.
  destruct (conv_edge_like F trunc fuel junk e e x (Z.of_nat a) (elike_refl F e) HI) as [_ [_ [_ [_ L]]]].
  destruct (conv_edge trunc fuel junk e x (Z.of_nat a)) as [e1 r]. cbn [fst snd] in *. subst r. rewrite filter_nat.
  destruct (sep_forward_like F fuel junk _ _ c (AxSeq (map Z.of_nat (without a al))) L) as [S1 _].
  rewrite S1. destruct (sep_forward fuel junk (ef_smooth e1) c _) as [m q]. reflexivity.
Qed.

Theorem component_same fuel junk ker smooth raw normalize p shared (e : edge_filter F) (x : T) ea sx a al ms ms' :
  edge_init (NItem ker) smooth normalize (Some p) shared = Ok e -> ker <> [] ->
  check_axes (Z.of_nat (ndim x)) ea = Ok [Z.of_nat a] -> check_axes (Z.of_nat (ndim x)) sx = Ok (map Z.of_nat al) ->
  same_call F fuel p x (AxInt (Z.of_nat a)) [a] ms [ker] [1] -> ~ In MPeriodize ms ->
  expand (length (without a al)) smooth = Some raw ->
  same_call F fuel p x (AxSeq (map Z.of_nat (without a al))) (without a al) ms' (smoothers normalize raw) (repeat 1 (length (without a al))) ->
  exists w xp c ws cp y,
    is_same_width (klen ker) 1 (nth a (shp x) 0) w /\
    padder_forward fuel junk (with_width p [w]) x (AxInt (Z.of_nat a)) = Ok xp /\
    shp c = shp x /\ (forall j, valid (shp x) j -> at_ c j = line_corr F xp (used_kernel trunc ker) a j) /\
    length ws = length (without a al) /\
    (forall r, (r < length (without a al))%nat ->
       is_same_width (klen (nth r (smoothers normalize raw) [])) 1 (nth (nth r (without a al) 0%nat) (shp x) 0) (nth r ws (0, 0))) /\
    padder_forward fuel junk (with_width p ws) c (AxSeq (map Z.of_nat (without a al))) = Ok cp /\
    snd (component trunc fuel junk e x ea sx) = Ok y /\ (~ In MPeriodize ms' -> shp y = shp x) /\
    forall j, valid (shp y) j ->
      at_ y j = correlation (without a al) (smoothers normalize raw) (repeat 1 (length (without a al))) cp j.
Proof.
  intros HI Hk Ha Hs SC Hper Hr SC2.
  destruct (conv_edge_same F trunc fuel junk ker smooth normalize p shared e x a ms HI Hk SC) as
    [w [xp [c [W1 [W2 [W3 [W4 [W5 [W6 [C1 [C2 [CX [CB [C3 C4]]]]]]]]]]]]]].
  specialize (C3 Hper). destruct (edge_init_built F _ _ _ _ _ _ HI) as [I1 [I2 [I3 I4]]]. specialize (I4 _ _ Hr).
  pose proof (same_call_shape F _ _ _ c _ _ _ _ _ C3 SC2) as SC3.
  destruct (pool_same F fuel junk (ef_smooth e) c _ _ _ _ p ms' I4 SC3) as [ws [cp [y [Q1 [Q2 [Q3 [Q4 [Q5 [Q6 [Q7 [Q8 Q9]]]]]]]]]]].
  exists w, xp, c, ws, cp, y. do 3 (split; auto). split; [rewrite <- C3; auto|]. split; auto. split.
  { intros r Hr2. specialize (Q2 r Hr2). rewrite nth_repeat, C3 in Q2. exact Q2. }
  split; auto. rewrite (component_smooths fuel junk ker smooth normalize (Some p) shared e x c ea sx a al) by auto.
  split; auto. split; auto. intros Hp2. apply list_ext with (d := 0); [unfold ndim in *; rewrite Q5; now rewrite C3|].
  intros d Hd. rewrite <- C3. destruct (in_dec Nat.eq_dec d (without a al)) as [Hi|Hi]; [|auto].
  destruct (In_pos d _ 0%nat Hi) as [r [Hr2 <-]]. destruct (nth r (smoothers normalize raw) []) as [|k0 ks] eqn:Ek; [auto|].
  apply Q6; auto.
  - rewrite Ek. discriminate.
  - intros E. apply Hp2. rewrite <- E. apply nth_In. destruct SC2 as [_ _ _ _ _ PF _ _]. rewrite (expand_length _ _ _ (pf_mode _ _ _ PF)). auto.
  - rewrite nth_repeat. unfold is_ceil_div. lia.
Qed.
Theorem component_valid fuel junk ker smooth raw normalize shared (e : edge_filter F) (x : T) ea sx a al :
  edge_init (NItem ker) smooth normalize None shared = Ok e -> ker <> [] ->
  check_axes (Z.of_nat (ndim x)) ea = Ok [Z.of_nat a] -> check_axes (Z.of_nat (ndim x)) sx = Ok (map Z.of_nat al) ->
  (a < ndim x)%nat -> (forall b, In b al -> (b < ndim x)%nat) -> NoDup al ->
  (forall d, (d < ndim x)%nat -> 0 <= nth d (shp x) 0) -> klen ker <= nth a (shp x) 0 ->
  expand (length (without a al)) smooth = Some raw ->
  (forall r, (r < length (without a al))%nat -> klen (nth r (smoothers normalize raw) []) <= nth (nth r (without a al) 0%nat) (shp x) 0) ->
  exists c y, shp c = upd a (nth a (shp x) 0 - klen ker + 1) (shp x) /\
    (forall j, valid (shp c) j -> at_ c j = line_corr F x (used_kernel trunc ker) a j) /\
    snd (component trunc fuel junk e x ea sx) = Ok y /\ ndim y = ndim x /\
    (forall r, (r < length (without a al))%nat -> nth r (smoothers normalize raw) [] <> [] ->
       nth (nth r (without a al) 0%nat) (shp y) 0 = nth (nth r (without a al) 0%nat) (shp x) 0 - klen (nth r (smoothers normalize raw) []) + 1) /\
    (forall d, ~ In d (without a al) -> nth d (shp y) 0 = nth d (shp c) 0) /\
    forall j, valid (shp y) j ->
      at_ y j = correlation (without a al) (smoothers normalize raw) (repeat 1 (length (without a al))) c j.
Proof.
  intros HI Hk Ha Hs Hlt Hin Hnd Hnn Hfit Hr Hfit2.
  destruct (conv_edge_valid F trunc fuel junk ker smooth normalize shared e x a HI Hk Hlt Hnn Hfit) as [c [C1 [C2 C3]]].
  destruct (edge_init_built F _ _ _ _ _ _ HI) as [I1 [I2 [I3 I4]]]. specialize (I4 _ _ Hr).
  assert (Nc : ndim c = ndim x) by (unfold ndim; rewrite C2; apply upd_length).
  assert (Hw : forall b, In b (without a al) -> (b < ndim c)%nat /\ b <> a).
  { intros b Hb. unfold without in Hb. apply filter_In in Hb. destruct Hb as [Hb Hb2]. split; [rewrite Nc; auto|].
    intros ->. rewrite Nat.eqb_refl in Hb2. discriminate. }
  assert (OA : on_axes c (AxSeq (map Z.of_nat (without a al))) (without a al)).
  { split; [apply check_axes_seq_nat|..]; try (intros b Hb; apply Hw; auto). apply NoDup_filter. auto. }
  assert (Same : forall r, (r < length (without a al))%nat -> nth (nth r (without a al) 0%nat) (shp c) 0 = nth (nth r (without a al) 0%nat) (shp x) 0).
  { intros r Hr2. rewrite C2, nth_upd_ne; auto. intros E. destruct (Hw (nth r (without a al) 0%nat)); [apply nth_In; auto|]. auto. }
  destruct (pool_valid F fuel junk (ef_smooth e) c _ _ _ _ OA I4) as [y [Y1 [Y2 [Y3 [Y4 [Y5 Y6]]]]]].
  { intros r Hr2. rewrite Same by auto. auto. }
  exists c, y. split; auto. split; auto. rewrite (component_smooths fuel junk ker smooth normalize None shared e x c ea sx a al) by auto.
  split; auto. split; [congruence|]. split; auto. intros r Hr2 Hne. rewrite Y3, Same, nth_repeat, Z.div_1_r by auto. reflexivity.
Qed.

(** *** sums over the axes *)
Definition raise_to (p : exponent F) (v : F) : F := match p with P1 => v | PGen pow _ => pow v end.
Definition take_root (p : exponent F) (v : F) : F := match p with P1 => v | PGen _ root => root v end.

Lemma tiadd_same (m c : T) : shp c = shp m -> exists r, tiadd m c = Ok r /\ shp r = shp m /\
  forall i, valid (shp m) i -> at_ r i = fadd (at_ m i) (at_ c i).
Proof.
  intros S. unfold tiadd. rewrite S, expandable_refl. eexists. split; [reflexivity|]. cbn. split; auto.
  intros i V. now rewrite bidx_same.
Qed.
Lemma powered_ok p (c : T) : shp (powered p c) = shp c /\ forall i, at_ (powered p c) i = raise_to p (at_ c i).
Proof. destruct p; cbn; auto. Qed.

(** An edge kernel that is not empty makes a new tensor; so does [c ** p]. *)
Lemma next_input_keep (e : edge_filter F) axes p (x m : T) : (p = P1 -> ef_kernel e <> []) -> next_input e axes p x m = x.
Proof. intros H. unfold next_input, untouched. destruct p; auto. destruct (ef_kernel e); auto. now destruct H. Qed.

Lemma mag_loop_ok fuel junk (e0 : edge_filter F) (x : T) axes p (cs : nat -> T) sh : coh F e0 -> (p = P1 -> ef_kernel e0 <> []) -> forall al,
  (forall a, In a al -> snd (component trunc fuel junk e0 x (AxInt (Z.of_nat a)) (AxSeq axes)) = Ok (cs a) /\ shp (cs a) = sh) ->
  forall e acc, elike F e0 e -> match acc with None => al <> [] | Some m => shp m = sh end ->
  exists m, snd (mag_loop trunc fuel junk e x axes (map Z.of_nat al) p acc) = Ok (Some m) /\ shp m = sh /\
    forall i, valid sh i -> at_ m i = fadd (match acc with None => f0 | Some m0 => at_ m0 i end) (axis_sum (fun a => raise_to p (at_ (cs a) i)) al).
Proof.
  intros C NE. induction al as [|a al IH]; intros H e acc L Hacc; cbn [map mag_loop].
  - destruct acc as [m|]; [|congruence]. exists m. split; auto. split; auto. intros i V. unfold axis_sum. cbn. ring.
  - destruct (H a (or_introl eq_refl)) as [H1 H2].
    destruct (component_like F trunc fuel junk e0 e x (AxInt (Z.of_nat a)) (AxSeq axes) L C) as [E1 E2].
    destruct (component_like F trunc fuel junk e e0 x (AxInt (Z.of_nat a)) (AxSeq axes) (elike_sym _ _ _ L) (coh_like _ _ _ L C)) as [_ E3].
    rewrite H1 in E1. destruct (component trunc fuel junk e x _ _) as [e1 r]. cbn [fst snd] in *. subst r. cbn [bind].
    destruct (powered_ok p (cs a)) as [P1' P2].
    assert (Step : exists m, match acc with None => Ok (powered p (cs a)) | Some m => tiadd m (powered p (cs a)) end = Ok m /\ shp m = sh /\
       forall i, valid sh i -> at_ m i = fadd (match acc with None => f0 | Some m0 => at_ m0 i end) (raise_to p (at_ (cs a) i))).
    { destruct acc as [m0|].
      - destruct (tiadd_same m0 (powered p (cs a))) as [m [M1 [M2 M3]]]; [congruence|]. exists m. split; auto. split; [congruence|].
        intros i V. rewrite M3 by congruence. now rewrite P2.
      - eexists. split; [reflexivity|]. split; [congruence|]. intros i V. rewrite P2. ring. }
    destruct Step as [m [M1 [M2 M3]]]. rewrite M1. rewrite <- (next_input_like F e0 e1 axes p x m (elike_trans _ _ _ _ L E3)), next_input_keep by auto.
    destruct (IH (fun b Hb => H b (or_intror Hb)) e1 (Some m) (elike_trans _ _ _ _ L E3) M2) as [m' [N1 [N2 N3]]].
    exists m'. split; auto. split; auto. intros i V. rewrite N3 by auto. rewrite M3 by auto. unfold axis_sum. cbn. ring.
Qed.
Lemma init_kernel (ker : list F) smooth normalize pd shared e : edge_init (NItem ker) smooth normalize pd shared = Ok e -> ef_kernel e = ker.
Proof. intros H. now apply edge_init_built in H. Qed.
Theorem magnitude_ok fuel junk ker smooth normalize pd shared (e : edge_filter F) (x : T) ax al eps p (cs : nat -> T) sh :
  edge_init (NItem ker) smooth normalize pd shared = Ok e ->
  check_axes (Z.of_nat (ndim x)) ax = Ok (map Z.of_nat al) -> (2 <= length al)%nat ->
  (forall a, In a al -> snd (component trunc fuel junk e x (AxInt (Z.of_nat a)) (AxSeq (map Z.of_nat al))) = Ok (cs a) /\ shp (cs a) = sh) ->
  (p = P1 -> ker <> []) ->
  exists m, snd (magnitude trunc fuel junk e x ax eps p) = Ok m /\ shp m = sh /\
    forall i, valid sh i -> at_ m i = take_root p (fadd (axis_sum (fun a => raise_to p (at_ (cs a) i)) al) eps).
Proof.
  intros HI Hax Hl H NE. rewrite <- (init_kernel _ _ _ _ _ _ HI) in NE. apply init_coh in HI. unfold magnitude. rewrite Hax. rewrite map_length.
  destruct (Nat.ltb_spec (length al) 2); [lia|].
  destruct (mag_loop_ok fuel junk e x (map Z.of_nat al) p cs sh HI NE al H e None (elike_refl F e)) as [m [M1 [M2 M3]]].
  { destruct al; [simpl in Hl; lia|discriminate]. }
  destruct (mag_loop trunc fuel junk e x _ _ p None) as [e' r]. cbn [fst snd] in *. subst r. cbn [bind].
  set (m1 := if _ && _ then m else _).
  assert (S1 : shp m1 = sh /\ forall i, valid sh i -> at_ m1 i = fadd (axis_sum (fun a => raise_to p (at_ (cs a) i)) al) eps).
  { unfold m1. destruct (_ && _) eqn:E.
    - apply andb_true_iff in E. destruct E as [E1' E2']. assert (eps = f0) by (apply (fle_antisym F); auto). subst eps.
      split; auto. intros i V. rewrite M3 by auto. ring.
    - split; auto. intros i V. cbn. rewrite M3 by auto. ring. }
  destruct S1 as [S1 S2]. destruct p; eexists; (split; [reflexivity|]); cbn; (split; [auto|]); intros i V; rewrite S2 by auto; auto.
Qed.
Theorem all_components_ok fuel junk ker smooth normalize pd shared (e : edge_filter F) (x : T) ax al (cs : nat -> T) :
  edge_init (NItem ker) smooth normalize pd shared = Ok e ->
  check_axes (Z.of_nat (ndim x)) ax = Ok (map Z.of_nat al) -> (2 <= length al)%nat ->
  (forall a, In a al -> snd (component trunc fuel junk e x (AxInt (Z.of_nat a)) (AxSeq (map Z.of_nat al))) = Ok (cs a)) ->
  snd (all_components trunc fuel junk e x ax) = Ok (map cs al).
Proof.
  intros HI Hax Hl H. apply init_coh in HI. unfold all_components. rewrite Hax. rewrite map_length.
  destruct (Nat.ltb_spec (length al) 2); [lia|]. revert H. clear Hl H0 Hax. generalize (map Z.of_nat al) at 1 2 as axes. intros axes H.
  assert (G : forall e', elike F e e' -> snd (component_list trunc fuel junk e' x axes (map Z.of_nat al)) = Ok (map cs al)).
  2:{ apply G. apply elike_refl. }
  induction al as [|a al IH]; intros e' L; cbn [map component_list]; auto.
  destruct (component_like F trunc fuel junk e e' x (AxInt (Z.of_nat a)) (AxSeq axes) L HI) as [E1 _].
  destruct (component_like F trunc fuel junk e' e x (AxInt (Z.of_nat a)) (AxSeq axes) (elike_sym _ _ _ L) (coh_like _ _ _ L HI)) as [_ E3].
  rewrite (H a (or_introl eq_refl)) in E1. destruct (component trunc fuel junk e' x _ _) as [e1 r]. cbn [fst snd] in *. subst r.
  assert (G : snd (component_list trunc fuel junk e1 x axes (map Z.of_nat al)) = Ok (map cs al)).
  { apply IH; [intros b Hb; apply H; now right|]. eapply elike_trans; eauto. }
  destruct (component_list trunc fuel junk e1 x axes (map Z.of_nat al)) as [e2 q]. cbn [fst snd] in *. subst q. reflexivity.
Qed.
Theorem magnitude_needs_two fuel junk (e : edge_filter F) (x : T) ax al eps p :
  check_axes (Z.of_nat (ndim x)) ax = Ok al -> (length al < 2)%nat ->
  snd (magnitude trunc fuel junk e x ax eps p) = Err ValueError /\ snd (all_components trunc fuel junk e x ax) = Err ValueError.
Proof.
  intros H Hl. unfold magnitude, all_components. rewrite H. destruct (Nat.ltb_spec (length al) 2); [auto|lia].
Qed.

(** *** calls with a uniform padder *)
Lemma uniform_for n (p : padder F) m : uniform p m -> padder_for n p (repeat m n).
Proof.
  intros [H1 [[c H2] [[d H3] [s H4]]]]. split; [rewrite H1; reflexivity|rewrite H2; discriminate|rewrite H3; discriminate|rewrite H4; discriminate].
Qed.
Lemma edge_image_call fuel p m (x : T) ax al k ax' al' kers : edge_image fuel p m x ax al k -> (0 < ndim x)%nat ->
  check_axes (Z.of_nat (ndim x)) ax' = Ok (map Z.of_nat al') -> incl al' al -> NoDup al' ->
  0 <= k -> (forall ker, In ker kers -> klen ker <= k) ->
  same_call F fuel p x ax' al' (repeat m (length al')) kers (repeat 1 (length al')).
Proof.
  intros [[A1 A2 A3] P0 P1 U M FU] N0 C I ND K0 Hk. split; auto.
  - split; auto.
  - intros r Hr. rewrite nth_repeat. lia.
  - apply uniform_for; auto.
  - intros m' H. apply repeat_spec in H. now subst.
  - intros d k' Hd [->|[ker [H1 ->]]]; specialize (FU d Hd); [lia|]. specialize (Hk ker H1). lia.
Qed.
Lemma edge_image_one fuel p m (x : T) ax al k a ker : edge_image fuel p m x ax al k -> In a al -> klen ker <= k ->
  same_call F fuel p x (AxInt (Z.of_nat a)) [a] [m] [ker] [1].
Proof.
  intros H Ha Hk. pose proof H as [[A1 A2 A3] _ _ _ _ _].
  apply (edge_image_call fuel p m x ax al k (AxInt (Z.of_nat a)) [a] [ker]); auto.
  - specialize (A2 a Ha). lia.
  - apply check_one.
  - intros b [<-|[]]; auto.
  - constructor; [intros []|constructor].
  - unfold klen in Hk. lia.
  - intros ker' [<-|[]]; auto.
Qed.
Lemma edge_image_rest fuel p m (x : T) ax al k a kers : edge_image fuel p m x ax al k -> In a al -> 0 <= k ->
  (forall ker, In ker kers -> klen ker <= k) ->
  same_call F fuel p x (AxSeq (map Z.of_nat (without a al))) (without a al) (repeat m (length (without a al))) kers (repeat 1 (length (without a al))).
Proof.
  intros H Ha K0 Hk. pose proof H as [[A1 A2 A3] _ _ _ _ _].
  apply (edge_image_call fuel p m x ax al k); auto.
  - specialize (A2 a Ha). lia.
  - apply check_axes_seq_nat. intros b Hb. apply A2. unfold without in Hb. apply filter_In in Hb. apply Hb.
  - intros b Hb. unfold without in Hb. apply filter_In in Hb. apply Hb.
  - apply NoDup_filter; auto.
Qed.

(** *** Laplace (C46) *)
Lemma place_ones al (n : nat) j o : length j = length j -> (forall i, valid (repeat 1 n) i -> i = repeat 0 n) -> o = repeat 0 n -> length al = n ->
  place al (repeat 1 n) j o = j.
Proof.
  intros _ _ -> . revert n. induction al as [|a al IH]; intros n L; destruct n; cbn in *; try discriminate; auto.
  rewrite IH by lia. rewrite Z.mul_1_r, Z.add_0_r. apply upd_nth.
Qed.
Lemma corr_none al (t : T) n j : length al = n -> correlation al (repeat [] n) (repeat 1 n) t j = at_ t j.
Proof.
  intros L. unfold correlation.
  assert (E1 : map eff_kernel (repeat (@nil F) n) = repeat [f1] n) by (clear; induction n; cbn; congruence).
  assert (E2 : map2 eff_stride (repeat (@nil F) n) (repeat 1 n) = repeat 1 n) by (clear; induction n; cbn; congruence).
  rewrite E1, E2. clear E1 E2. revert n j L. induction al as [|a al IH]; intros n j L; destruct n; cbn in L; try discriminate.
  - cbn. ring.
  - cbn [repeat map bsum weight place]. change (klen [@f1 F]) with 1. rewrite fsum_1. cbn [Z.to_nat nth].
    assert (E : forall o, upd a (nth a j 0 * 1 + 0) (place al (repeat 1 n) j o) = place al (repeat 1 n) (upd a (nth a j 0) j) o -> True) by auto.
    clear E. injection L as L.
    rewrite <- (IH n j L). apply bsum_ext. intros o Vo.
    assert (P : place al (repeat 1 n) j o = j).
    { apply (place_ones al n j o); auto; [intros i V|]; cycle 1.
      - assert (Em : map klen (repeat [@f1 F] n) = repeat 1 n) by (clear; induction n; cbn; congruence). rewrite Em in Vo.
        clear - Vo. revert o Vo. induction n; intros o V; cbn in *; inv V; auto. f_equal; [lia|auto].
      - clear - V. revert i V. induction n; intros o V; cbn in *; inv V; auto. f_equal; [lia|auto]. }
    rewrite P. rewrite Z.mul_1_r, Z.add_0_r, upd_nth. ring.
Qed.
(** Smoothing with an empty kernel changes nothing. *)
Lemma smooth_none fuel junk (m : pool F) (c : T) al p ms : built (length al) (repeat [] (length al)) (repeat 1 (length al)) (Some p) m ->
  same_call F fuel p c (AxSeq (map Z.of_nat al)) al ms (repeat [] (length al)) (repeat 1 (length al)) ->
  exists y, snd (sep_forward fuel junk m c (AxSeq (map Z.of_nat al))) = Ok y /\ teq y c.
Proof.
  intros B SC. destruct (pool_same F fuel junk m c _ al _ _ p ms B SC) as [ws [cp [y [Q1 [Q2 [Q3 [Q4 [Q5 [Q6 [Q7 [Q8 Q9]]]]]]]]]]].
  pose proof SC as [[A1 A2 A3] N0 P0 P1 S1 PF FM FU].
  assert (Sy : shp y = shp c).
  { apply list_ext with (d := 0); auto. intros d Hd. destruct (in_dec Nat.eq_dec d al) as [Hi|Hi]; [|auto].
    destruct (In_pos d _ 0%nat Hi) as [r [Hr <-]]. apply Q7; auto. apply nth_repeat. }
  exists y. split; auto. split; auto. intros j Vj. rewrite Q9 by auto. rewrite corr_none by auto.
  assert (Hw : forall r, (r < length al)%nat -> is_same_width (klen (nth r (repeat (@nil F) (length al)) [])) (nth r (repeat 1 (length al)) 1) (nth (nth r al 0%nat) (shp c) 0) (nth r ws (0, 0))) by exact Q2.
  destruct (same_pad_call F fuel p c _ al ms (repeat [] (length al)) (repeat 1 (length al)) ws SC Q1 (repeat_length _ _) Hw) as [PC [AF _]].
  destruct (forward_keeps F fuel junk (with_width p ws) c _ al PC AF) as [cp' [K1 [K2 K3]]].
  rewrite Q3 in K1. injection K1 as <-. specialize (K3 j). rewrite Sy in Vj. specialize (K3 Vj).
  destruct (with_width_par F (length al) p ms ws al PF Q1 eq_refl A3) as [Lx Q].
  rewrite <- K3. f_equal. symmetry. apply list_ext with (d := 0).
  - rewrite map_length, seq_length. symmetry. apply (valid_length _ _ Vj).
  - intros d Hd. rewrite map_length, seq_length in Hd. rewrite nth_map_seq by auto. rewrite Lx.
    destruct (in_dec Nat.eq_dec d al) as [Hi|Hi]; [|rewrite axis_par_notin by auto; lia].
    destruct (In_pos d _ 0%nat Hi) as [r [Hr <-]]. destruct (Q r Hr) as [q [E1 [E2 _]]]. rewrite E1, E2.
    specialize (Q2 r Hr). rewrite !nth_repeat in Q2. change (klen (@nil F)) with 0 in Q2.
    pose proof (same_width_bounds 0 1 _ _ ltac:(lia) ltac:(lia) Q2). lia.
Qed.
Lemma same_width_3 n w : 1 <= n -> is_same_width 3 1 n w -> w = (1, 1).
Proof.
  intros Hn H. eapply same_width_unique; [|exact H|]; [lia|]. exists n. unfold is_ceil_div. cbn. lia.
Qed.

(** The padded axis contains the image, shifted by the width before. *)
Lemma keeps_one fuel junk (p : padder F) (x xp : T) a w m : padder_for 1 p [m] -> (a < ndim x)%nat ->
  pad_call fuel (with_width p [w]) x (AxInt (Z.of_nat a)) [a] -> all_fine F (with_width p [w]) x [a] ->
  padder_forward fuel junk (with_width p [w]) x (AxInt (Z.of_nat a)) = Ok xp ->
  forall i, valid (shp x) i -> at_ xp (upd a (nth a i 0 + fst w) i) = at_ x i.
Proof.
  intros PF Ha PC AF E i V. destruct (forward_keeps F fuel junk (with_width p [w]) x _ [a] PC AF) as [xp' [K1 [K2 K3]]].
  rewrite E in K1. injection K1 as <-. rewrite <- (K3 i V). f_equal. pose proof (valid_length _ _ V) as Li.
  destruct (with_width_par F 1 p [m] [w] [a] PF eq_refl eq_refl) as [Lx Q]; [constructor; [intros []|constructor]|].
  apply list_ext with (d := 0); [rewrite upd_length, map_length, seq_length; auto|].
  intros d Hd. rewrite upd_length in Hd. rewrite nth_map_seq by (unfold ndim; lia). rewrite Lx, nth_upd.
  destruct (Nat.eqb_spec a d) as [->|Hne]; cbn [andb].
  - destruct (Nat.ltb_spec d (length i)); [|lia]. destruct (Q 0%nat ltac:(lia)) as [q [E1 [E2 _]]]. cbn [nth] in E1, E2. now rewrite E1, E2.
  - rewrite axis_par_notin by (intros [?|[]]; auto). lia.
Qed.

Theorem laplace_ok fuel junk p m shared (e : edge_filter F) (x : T) ax al : truncates trunc ->
  laplace_init (Some p) shared = Ok e -> edge_image fuel p m x ax al 3 -> m <> MPeriodize -> (2 <= length al)%nat ->
  exists (xp : nat -> T) y,
    (forall a, In a al -> padder_forward fuel junk (with_width p [(1, 1)]) x (AxInt (Z.of_nat a)) = Ok (xp a)) /\
    snd (laplace_forward trunc fuel junk e x ax) = Ok y /\ shp y = shp x /\
    (forall j, valid (shp x) j -> at_ y j =
       axis_sum (fun a => fadd (fsub (at_ (xp a) (upd a (nth a j 0 + 2) j)) (fmul (fofZ 2) (at_ (xp a) (upd a (nth a j 0 + 1) j)))) (at_ (xp a) j)) al) /\
    (forall a i, In a al -> valid (shp x) i -> at_ (xp a) (upd a (nth a i 0 + 1) i) = at_ x i).
Proof.
  intros TR HI EI Hm Hl. unfold laplace_init in HI. pose proof EI as [[A1 A2 A3] P0 Pos1 U M FU].
  assert (UK : used_kernel trunc (@laplace_kernel F) = laplace_kernel).
  { unfold used_kernel, laplace_kernel, ints. cbn [map]. rewrite !trunc_int by auto. reflexivity. }
  assert (Comp : forall a, In a al -> exists xp c, padder_forward fuel junk (with_width p [(1, 1)]) x (AxInt (Z.of_nat a)) = Ok xp /\
     snd (component trunc fuel junk e x (AxInt (Z.of_nat a)) (AxSeq (map Z.of_nat al))) = Ok c /\ shp c = shp x /\
     (forall j, valid (shp x) j -> at_ c j = fadd (fsub (at_ xp (upd a (nth a j 0 + 2) j)) (fmul (fofZ 2) (at_ xp (upd a (nth a j 0 + 1) j)))) (at_ xp j)) /\
     (forall i, valid (shp x) i -> at_ xp (upd a (nth a i 0 + 1) i) = at_ x i)).
  { intros a Ha. pose proof (edge_image_one fuel p m x ax al 3 a laplace_kernel EI Ha ltac:(reflexivity)) as SC.
    destruct (conv_edge_same F trunc fuel junk laplace_kernel (NItem []) false p shared e x a [m] HI ltac:(discriminate) SC) as
      [w [xp [c [W1 [W2 [W3 [W4 [W5 [W6 [C1 [C2 [CX [CB [C3 C4]]]]]]]]]]]]]].
    assert (w = (1, 1)) by (apply (same_width_3 (nth a (shp x) 0)); auto). subst w.
    assert (Sc : shp c = shp x) by (apply C3; intros [E|[]]; congruence).
    destruct (edge_init_built F _ _ _ _ _ _ HI) as [I1 [I2 [I3 I4]]].
    specialize (I4 (length (without a al)) (repeat [] (length (without a al))) eq_refl). cbn [smoothers] in I4.
    pose proof (edge_image_rest fuel p m x ax al 3 a (repeat [] (length (without a al))) EI Ha ltac:(lia)
      (fun k Hk => ltac:(apply repeat_spec in Hk; subst; unfold klen; cbn; lia))) as SC2.
    destruct (smooth_none fuel junk (ef_smooth e) c (without a al) p _ I4 (same_call_shape F _ _ _ c _ _ _ _ _ Sc SC2)) as [y [Y1 [Y2 Y3]]].
    exists xp, y. split; auto. split.
    { rewrite (component_smooths fuel junk laplace_kernel (NItem []) false (Some p) shared e x c _ _ a al); auto.
      - apply check_one.
      - apply check_axes_seq_nat; auto. }
    split; [congruence|]. split.
    - intros j Vj. rewrite Y3 by congruence. rewrite C4 by congruence. rewrite UK. unfold laplace_kernel, ints. cbn [map].
      rewrite line_corr3. rewrite upd_nth. unfold fofZ; cbn [fofpos]. ring.
    - apply (keeps_one fuel junk p x xp a (1, 1) m); auto. apply (uniform_for 1); auto. }
  assert (Ch : exists f : nat -> T * T, forall a, In a al ->
     padder_forward fuel junk (with_width p [(1, 1)]) x (AxInt (Z.of_nat a)) = Ok (fst (f a)) /\
     snd (component trunc fuel junk e x (AxInt (Z.of_nat a)) (AxSeq (map Z.of_nat al))) = Ok (snd (f a)) /\ shp (snd (f a)) = shp x /\
     (forall j, valid (shp x) j -> at_ (snd (f a)) j =
        fadd (fsub (at_ (fst (f a)) (upd a (nth a j 0 + 2) j)) (fmul (fofZ 2) (at_ (fst (f a)) (upd a (nth a j 0 + 1) j)))) (at_ (fst (f a)) j)) /\
     (forall i, valid (shp x) i -> at_ (fst (f a)) (upd a (nth a i 0 + 1) i) = at_ x i)).
  { exists (fun a => (match padder_forward fuel junk (with_width p [(1, 1)]) x (AxInt (Z.of_nat a)) with Ok t => t | Err _ => x end,
                      match snd (component trunc fuel junk e x (AxInt (Z.of_nat a)) (AxSeq (map Z.of_nat al))) with Ok t => t | Err _ => x end)).
    intros a Ha. destruct (Comp a Ha) as [xp [c [E1 [E2 [E3 [E4 E5]]]]]]. cbn [fst snd]. rewrite E1, E2. auto. }
  destruct Ch as [f Hf].
  destruct (magnitude_ok fuel junk laplace_kernel (NItem []) false (Some p) shared e x ax al f0 P1 (fun a => snd (f a)) (shp x) HI A1 Hl) as [y [Y1 [Y2 Y3]]].
  { intros a Ha. destruct (Hf a Ha) as [_ [E2 [E3 _]]]. auto. }
  { discriminate. }
  exists (fun a => fst (f a)), y. split; [intros a Ha; apply (Hf a Ha)|]. split; [exact Y1|]. split; auto. split.
  - intros j Vj. rewrite Y3 by auto. cbn [take_root raise_to].
    assert (E : axis_sum (fun a => at_ (snd (f a)) j) al = axis_sum (fun a =>
      fadd (fsub (at_ (fst (f a)) (upd a (nth a j 0 + 2) j)) (fmul (fofZ 2) (at_ (fst (f a)) (upd a (nth a j 0 + 1) j)))) (at_ (fst (f a)) j)) al).
    { unfold axis_sum. f_equal. apply map_ext_in. intros a Ha. apply (Hf a Ha). auto. }
    rewrite E. ring.
  - intros a i Ha. apply (Hf a Ha).
Qed.
(** Away from the border, directly in x. *)
Theorem laplace_interior fuel junk p m shared (e : edge_filter F) (x : T) ax al : truncates trunc ->
  laplace_init (Some p) shared = Ok e -> edge_image fuel p m x ax al 3 -> m <> MPeriodize -> (2 <= length al)%nat ->
  exists y, snd (laplace_forward trunc fuel junk e x ax) = Ok y /\ shp y = shp x /\
    forall j, valid (shp x) j -> (forall a, In a al -> 1 <= nth a j 0 <= nth a (shp x) 0 - 2) ->
      at_ y j = axis_sum (fun a => fadd (fsub (at_ x (upd a (nth a j 0 + 1) j)) (fmul (fofZ 2) (at_ x j))) (at_ x (upd a (nth a j 0 - 1) j))) al.
Proof.
  intros TR HI EI Hm Hl. destruct (laplace_ok fuel junk p m shared e x ax al TR HI EI Hm Hl) as [xp [y [E1 [E2 [E3 [E4 E5]]]]]].
  pose proof EI as [[A1 A2 A3] _ _ _ _ _].
  exists y. split; auto. split; auto. intros j Vj Hj. rewrite E4 by auto. unfold axis_sum. f_equal. apply map_ext_in. intros a Ha.
  specialize (A2 a Ha). specialize (Hj a Ha). pose proof (valid_length _ _ Vj) as Lj. unfold ndim in A2.
  assert (G : forall k, 0 <= k < nth a (shp x) 0 -> at_ (xp a) (upd a (k + 1) j) = at_ x (upd a k j)).
  { intros k Hk. rewrite <- (E5 a (upd a k j) Ha).
    - rewrite nth_upd_eq by lia. now rewrite upd_upd.
    - rewrite <- (upd_nth a (shp x) 0). apply valid_upd; auto. }
  replace (nth a j 0 + 2) with (nth a j 0 + 1 + 1) by lia. rewrite !G by lia.
  replace (at_ (xp a) j) with (at_ (xp a) (upd a (nth a j 0 - 1 + 1) j)).
  - rewrite G by lia. now rewrite (upd_nth a j 0).
  - replace (nth a j 0 - 1 + 1) with (nth a j 0) by lia. now rewrite (upd_nth a j 0).
Qed.
End EC.
