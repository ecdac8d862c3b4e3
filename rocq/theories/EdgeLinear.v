(** Edge filters are linear in the image (C78) and on a constant image give the kernel sums (C79). *)
From Verif Require Export EdgeConst.
Open Scope Z_scope.

(** A Padder with single items whose mode extends linearly (zero constants, zero end values). *)
Definition linear_padder {F : ofield} (p : padder F) (m : mode F) : Prop :=
  exists c e, p_const p = NItem c /\ p_end p = NItem e /\ linear_mode m c e.
(** Product of a list of scalars. *)
Definition fprod {F : ofield} (l : list F) : F := fold_right fmul f1 l.
(** Gain of a smoothing kernel: its sum; an empty kernel skips the axis. *)
Definition gain {F : ofield} (ker : list F) : F := match ker with [] => f1 | _ => wsum ker end.

Section EL.
Variable F : ofield.
Add Field Fel : (f_field F).
Notation T := (tensor F).
Variable trunc : F -> Z.

Lemma uniform_linear n (p : padder F) m : uniform p m -> linear_padder p m -> every_axis n p linear_mode.
Proof.
  intros [H1 _] [c [e [H2 [H3 H]]]]. exists (repeat m n), (repeat c n), (repeat e n). rewrite H1, H2, H3. do 3 (split; [reflexivity|]).
  intros r Hr. assert (G : forall A (v d : A), nth r (repeat v n) d = v).
  { intros A v d. apply (repeat_spec n). apply nth_In. now rewrite repeat_length. }
  now rewrite !G.
Qed.
Lemma line_lin (x y z : T) a b ker ax j : (forall q, 0 <= q < klen ker -> valid (shp x) (upd ax (nth ax j 0 + q) j)) ->
  combination a b x y z -> line_corr F z ker ax j = fadd (fmul a (line_corr F x ker ax j)) (fmul b (line_corr F y ker ax j)).
Proof.
  intros V [S1 [S2 C]]. unfold line_corr. rewrite <- !fsum_mul, <- fsum_add. apply fsum_ext. intros q Hq. rewrite C by auto. ring.
Qed.

(** _conv_edge, with a padder. *)
Lemma conv_linear fuel junk ker smooth normalize p m shared (e : edge_filter F) a b (x y z : T) ax al k c :
  edge_init (NItem ker) smooth normalize (Some p) shared = Ok e -> ker <> [] -> In c al ->
  edge_image fuel p m x ax al (k + 1) -> klen ker <= k -> linear_padder p m -> combination a b x y z ->
  exists x' y' z', snd (conv_edge trunc fuel junk e x (Z.of_nat c)) = Ok x' /\ snd (conv_edge trunc fuel junk e y (Z.of_nat c)) = Ok y' /\
    snd (conv_edge trunc fuel junk e z (Z.of_nat c)) = Ok z' /\ combination a b x' y' z' /\
    ndim x' = ndim x /\ (forall d, (d < ndim x)%nat -> nth d (shp x) 0 <= nth d (shp x') 0 <= nth d (shp x) 0 + 1).
Proof.
  intros HI Hk Hin EI Hlk LP C. pose proof C as [S1 [S2 _]]. pose proof EI as [[A1 A2 A3] P0 Pos1 U M FU].
  pose proof (edge_image_one F fuel p m x ax al (k + 1) c ker EI Hin ltac:(lia)) as SC.
  destruct (conv_edge_same F trunc fuel junk ker smooth normalize p shared e x c [m] HI Hk SC) as
    [w [xp [x' [W1 [W2 [W3 [W4 [W5 [W6 [C1 [C2 [CX [CB [C3 C4]]]]]]]]]]]]]].
  destruct (conv_edge_same F trunc fuel junk ker smooth normalize p shared e y c [m] HI Hk (same_call_shape _ _ _ _ _ _ _ _ _ _ S1 SC)) as
    [wy [yp [y' [V1 [V2 [V3 [V4 [V5 [V6 [D1 [D2 [DX [DB [D3 D4]]]]]]]]]]]]]].
  destruct (conv_edge_same F trunc fuel junk ker smooth normalize p shared e z c [m] HI Hk (same_call_shape _ _ _ _ _ _ _ _ _ _ S2 SC)) as
    [wz [zp [z' [U1 [U2 [U3 [U4 [U5 [U6 [E1 [E2 [EX [EB [E3 E4]]]]]]]]]]]]]].
  assert (wy = w) by (eapply same_width_unique; [|exact V1|rewrite S1; exact W1]; lia).
  assert (wz = w) by (eapply same_width_unique; [|exact U1|rewrite S2; exact W1]; lia). subst wy wz.
  destruct (forward_linear F fuel junk (with_width p [w]) a b x y z (AxInt (Z.of_nat c)) [c] W2 W3 W4) as [x1 [y1 [z1 [F1 [F2 [F3 F4]]]]]]; auto.
  { eapply (every_axis_par F 1 p [m] [w] [c] linear_mode); auto.
    - apply (uniform_for F 1); auto.
    - apply (uniform_linear 1 p m); auto.
    - constructor; [intros []|constructor]. }
  rewrite W6 in F1. rewrite V6 in F2. rewrite U6 in F3. injection F1 as <-. injection F2 as <-. injection F3 as <-.
  pose proof F4 as [T1 [T2 T3]].
  assert (Sy : shp y' = shp x') by (rewrite D2, C2, T1, S1; auto).
  assert (Sz : shp z' = shp x') by (rewrite E2, C2, T2, S2; auto).
  exists x', y', z'. do 3 (split; auto). split; [split; [auto|split; [auto|]]|split].
  - intros j Vj. rewrite C4 by auto. rewrite D4, E4 by congruence. apply line_lin; auto.
    intros q Hq. rewrite used_klen in Hq. rewrite CX. rewrite C2 in Vj.
    pose proof (valid_nth _ _ c Vj) as Vn. rewrite upd_length in Vn. specialize (A2 c Hin). unfold ndim in A2. specialize (Vn A2).
    rewrite nth_upd_eq in Vn by auto.
    replace (upd c (nth c (shp xp) 0) (shp x)) with (upd c (nth c (shp xp) 0) (upd c (nth c (shp xp) 0 - klen ker + 1) (shp x))) by apply upd_upd.
    apply valid_upd; auto. lia.
  - unfold ndim. rewrite C2. apply upd_length.
  - intros d Hd. rewrite C2, nth_upd. destruct (Nat.eqb_spec c d); cbn [andb]; [|lia]. subst. destruct (Nat.ltb_spec d (length (shp x))); lia.
Qed.
Lemma edge_image_shape fuel p m (x y : T) ax al k : edge_image fuel p m x ax al (k + 1) -> ndim y = ndim x ->
  (forall d, (d < ndim x)%nat -> nth d (shp x) 0 <= nth d (shp y) 0 <= nth d (shp x) 0 + 1) ->
  edge_image fuel p m y (AxSeq (map Z.of_nat al)) al k.
Proof.
  intros [[A1 A2 A3] P0 Pos1 U M FU] Nd Dn. split; auto.
  - split; auto.
    + rewrite Nd. apply check_axes_seq_nat; auto.
    + intros b Hb2. rewrite Nd. auto.
  - intros b Hb2. rewrite Nd in Hb2. specialize (P0 b Hb2). specialize (Dn b Hb2). lia.
  - intros b Hb2. specialize (Pos1 b Hb2). specialize (Dn b (A2 b Hb2)). lia.
  - intros b Hb2. rewrite Nd in Hb2. specialize (FU b Hb2). specialize (Dn b Hb2). lia.
Qed.
Theorem component_linear fuel junk ker smooth raw normalize p m shared (e : edge_filter F) a b (x y z : T) ea ax ax' c al k :
  edge_init (NItem ker) smooth normalize (Some p) shared = Ok e -> ker <> [] ->
  check_axes (Z.of_nat (ndim x)) ea = Ok [Z.of_nat c] -> In c al ->
  edge_image fuel p m x ax al (k + 1) -> check_axes (Z.of_nat (ndim x)) ax' = Ok (map Z.of_nat al) -> klen ker <= k -> linear_padder p m ->
  expand (length (without c al)) smooth = Some raw -> (forall s, In s raw -> klen s <= k) ->
  combination a b x y z ->
  exists x' y' z', snd (component trunc fuel junk e x ea ax') = Ok x' /\ snd (component trunc fuel junk e y ea ax') = Ok y' /\
    snd (component trunc fuel junk e z ea ax') = Ok z' /\ combination a b x' y' z'.
Proof.
  intros HI Hk Ha Hin EI Hax Hlk LP Hr Hs C.
  assert (K0 : 0 <= k) by (unfold klen in Hlk; lia). pose proof EI as [_ _ _ U _ _].
  destruct (conv_linear fuel junk ker smooth normalize p m shared e a b x y z ax al k c HI Hk Hin EI Hlk LP C) as
    [xc [yc [zc [C1 [C2 [C3 [CC [Nd Dn]]]]]]]].
  destruct (edge_init_built F _ _ _ _ _ _ HI) as [I1 [I2 [I3 I4]]]. specialize (I4 _ _ Hr).
  destruct (built_par F _ _ _ _ _ I4) as [PP [Pd [E1 [E2 _]]]].
  pose proof (edge_image_rest F fuel p m xc _ al k c (smoothers normalize raw) (edge_image_shape _ _ _ _ _ _ _ _ EI Nd Dn) Hin K0 (smoothers_len F normalize raw k Hs)) as SC2.
  destruct (pool_linear_same F fuel junk (ef_smooth e) a b xc yc zc _ (without c al) _ _ p _ PP E1 E2 Pd SC2 (uniform_linear _ p m U LP) CC)
    as [x' [y' [z' [X1 [X2 [X3 X4]]]]]].
  pose proof C as [S1 [S2 _]].
  exists x', y', z'. split; [|split; [|split; [|exact X4]]].
  - rewrite (component_smooths F trunc fuel junk ker smooth normalize (Some p) shared e x xc ea ax' c al); auto.
  - rewrite (component_smooths F trunc fuel junk ker smooth normalize (Some p) shared e y yc ea ax' c al); auto; unfold ndim in *; now rewrite S1.
  - rewrite (component_smooths F trunc fuel junk ker smooth normalize (Some p) shared e z zc ea ax' c al); auto; unfold ndim in *; now rewrite S2.
Qed.

(** *** constant images *)
Lemma gain_eff (ker : list F) : wsum (eff_kernel ker) = gain ker.
Proof. destruct ker; [cbn; ring|reflexivity]. Qed.
Lemma weight_gain (kers : list (list F)) : bsum (map klen kers) (weight kers) = fprod (map wsum kers).
Proof.
  induction kers as [|k kers IH]; simpl; auto.
  rewrite (fsum_ext F _ _ (fun i => fmul (nth (Z.to_nat i) k f0) (fprod (map wsum kers)))).
  - now rewrite fsum_mul_r, <- wsum_fsum.
  - intros i Hi. now rewrite bsum_mul, IH.
Qed.
Lemma correlate_gain al (kers : list (list F)) sts c (x : T) : steps_ok F al kers sts (shp x) ->
  constant_image c x -> constant_image (fmul c (fprod (map wsum kers))) (correlate al kers sts x).
Proof.
  intros [Hn [Hl [Hk [Hs Hw]]]] C j Vj. cbn [correlate shp at_] in *.
  rewrite (bsum_ext F _ _ (fun o => fmul c (weight kers o))).
  - rewrite bsum_mul, weight_gain. ring.
  - intros o Vo. rewrite C by (eapply place_valid; eauto). ring.
Qed.
Lemma smooth_gain fuel junk (m : pool F) p md (x : T) ax al kers c : built (length al) kers (repeat 1 (length al)) (Some p) m ->
  same_call F fuel p x ax al (repeat md (length al)) kers (repeat 1 (length al)) -> uniform p md -> keeps_constants F md -> constant_image c x ->
  exists y, snd (sep_forward fuel junk m x ax) = Ok y /\ constant_image (fmul c (fprod (map gain kers))) y.
Proof.
  intros B SC U KC Hx. destruct (built_par F _ _ _ _ _ B) as [PP [Pd [E1 [E2 _]]]].
  destruct (sep_forward_same F fuel junk m x ax al kers _ p _ PP E1 E2 Pd SC) as [wx [xp [x' [X1 [X2 [X3 [X4 [X5 [X6 [X7 [X8 [X9 _]]]]]]]]]]]].
  pose proof SC as [OA N0 _ _ SS PF _ _]. pose proof OA as [A1 A2 A3].
  exists x'. rewrite X8. split; auto. apply (const_teq F _ _ _ X9).
  destruct (forward_constant F fuel junk (with_width p wx) c x ax al X3 X4 X5) as [x1 [G1 G2]]; auto.
  { eapply every_axis_par; eauto. eapply uniform_const; eauto. }
  rewrite X6 in G1. injection G1 as <-.
  assert (E : map gain kers = map wsum (map eff_kernel kers)).
  { rewrite map_map. apply map_ext. intros k. symmetry. apply gain_eff. }
  rewrite E. apply correlate_gain; auto. apply (eff_steps F m); auto. intros b Hc. rewrite X7.
  unfold full_shape. rewrite map_length, seq_length. apply A2; auto.
Qed.
Theorem component_const fuel junk ker smooth raw normalize p m shared (e : edge_filter F) (x : T) ea ax ax' a al k c :
  edge_init (NItem ker) smooth normalize (Some p) shared = Ok e -> ker <> [] ->
  check_axes (Z.of_nat (ndim x)) ea = Ok [Z.of_nat a] -> In a al ->
  edge_image fuel p m x ax al (k + 1) -> check_axes (Z.of_nat (ndim x)) ax' = Ok (map Z.of_nat al) -> klen ker <= k -> keeps_constants F m ->
  expand (length (without a al)) smooth = Some raw -> (forall s, In s raw -> klen s <= k) ->
  constant_image c x ->
  exists y, snd (component trunc fuel junk e x ea ax') = Ok y /\
    constant_image (fmul (fmul c (wsum (used_kernel trunc ker))) (fprod (map gain (smoothers normalize raw)))) y.
Proof.
  intros HI Hk Ha Hin EI Hax Hlk KC Hr Hs Hc. pose proof EI as [[A1 A2 A3] P0 Pos1 U M FU].
  assert (K0 : 0 <= k) by (unfold klen in Hlk; lia).
  pose proof (edge_image_one F fuel p m x ax al (k + 1) a ker EI Hin ltac:(lia)) as SC.
  destruct (conv_edge_same F trunc fuel junk ker smooth normalize p shared e x a [m] HI Hk SC) as
    [w [xp [d [W1 [W2 [W3 [W4 [W5 [W6 [C1 [C2 [CX [CB [C3 C4]]]]]]]]]]]]]].
  assert (Hd0 : constant_image (fmul c (wsum (used_kernel trunc ker))) d).
  { intros j Vj. rewrite C4 by auto.
    destruct (forward_constant F fuel junk (with_width p [w]) c x _ [a] W2 W3 W4) as [xp' [X1 X2]]; auto.
    { eapply (every_axis_par F 1 p [m] [w] [a] const_mode); auto.
      - apply (uniform_for F 1); auto.
      - apply (uniform_const F 1 p m); auto.
      - constructor; [intros []|constructor]. }
    rewrite W6 in X1. injection X1 as <-.
    apply line_const. intros q Hq. apply X2. rewrite used_klen in Hq. rewrite CX. rewrite C2 in Vj.
    pose proof (valid_nth _ _ a Vj) as Vn. rewrite upd_length in Vn. specialize (A2 a Hin). unfold ndim in A2. specialize (Vn A2).
    rewrite nth_upd_eq in Vn by auto.
    replace (upd a (nth a (shp xp) 0) (shp x)) with (upd a (nth a (shp xp) 0) (upd a (nth a (shp xp) 0 - klen ker + 1) (shp x))) by apply upd_upd.
    apply valid_upd; auto. lia. }
  destruct (edge_init_built F _ _ _ _ _ _ HI) as [I1 [I2 [I3 I4]]]. specialize (I4 _ _ Hr).
  assert (EI2 : edge_image fuel p m d (AxSeq (map Z.of_nat al)) al k).
  { apply (edge_image_shape _ _ _ x d ax); auto.
    - unfold ndim; rewrite C2; apply upd_length.
    - intros b Hb2. rewrite C2, nth_upd. destruct (Nat.eqb_spec a b); cbn [andb]; [|lia]. subst. destruct (Nat.ltb_spec b (length (shp x))); lia. }
  pose proof (edge_image_rest F fuel p m d _ al k a (smoothers normalize raw) EI2 Hin K0 (smoothers_len F normalize raw k Hs)) as SC2.
  destruct (smooth_gain fuel junk (ef_smooth e) p m d _ (without a al) _ _ I4 SC2 U KC Hd0) as [y [Y1 Y2]].
  exists y. split; auto. rewrite (component_smooths F trunc fuel junk ker smooth normalize (Some p) shared e x d ea ax' a al) by auto. auto.
Qed.

(** *** all_components and magnitude *)
(** List of combinations, axis by axis. *)
Theorem all_linear fuel junk ker smooth raw normalize p m shared (e : edge_filter F) a b (x y z : T) ax al k :
  edge_init (NItem ker) smooth normalize (Some p) shared = Ok e -> ker <> [] -> (2 <= length al)%nat ->
  edge_image fuel p m x ax al (k + 1) -> klen ker <= k -> linear_padder p m ->
  (forall c, In c al -> expand (length (without c al)) smooth = Some (raw c)) -> (forall c s, In s (raw c) -> klen s <= k) ->
  combination a b x y z ->
  exists xs ys zs : list T, snd (all_components trunc fuel junk e x ax) = Ok xs /\ snd (all_components trunc fuel junk e y ax) = Ok ys /\
    snd (all_components trunc fuel junk e z ax) = Ok zs /\ length xs = length al /\ length ys = length al /\ length zs = length al /\
    forall r dx dy dz, (r < length al)%nat -> combination a b (nth r xs dx) (nth r ys dy) (nth r zs dz).
Proof.
  intros HI Hk Hl EI Hlk LP Hr Hs C. pose proof C as [S1 [S2 _]]. pose proof EI as [[A1 A2 A3] _ _ _ _ _].
  assert (L : forall c, In c al -> exists t : T * T * T,
     snd (component trunc fuel junk e x (AxInt (Z.of_nat c)) (AxSeq (map Z.of_nat al))) = Ok (fst (fst t)) /\
     snd (component trunc fuel junk e y (AxInt (Z.of_nat c)) (AxSeq (map Z.of_nat al))) = Ok (snd (fst t)) /\
     snd (component trunc fuel junk e z (AxInt (Z.of_nat c)) (AxSeq (map Z.of_nat al))) = Ok (snd t) /\
     combination a b (fst (fst t)) (snd (fst t)) (snd t)).
  { intros c Hc. destruct (component_linear fuel junk ker smooth (raw c) normalize p m shared e a b x y z (AxInt (Z.of_nat c)) ax
      (AxSeq (map Z.of_nat al)) c al k) as [x' [y' [z' [X1 [X2 [X3 X4]]]]]]; auto.
    - apply check_one.
    - apply check_axes_seq_nat; auto.
    - intros s; apply Hs.
    - exists (x', y', z'). auto. }
  assert (G : exists g : nat -> T * T * T, forall c, In c al ->
     snd (component trunc fuel junk e x (AxInt (Z.of_nat c)) (AxSeq (map Z.of_nat al))) = Ok (fst (fst (g c))) /\
     snd (component trunc fuel junk e y (AxInt (Z.of_nat c)) (AxSeq (map Z.of_nat al))) = Ok (snd (fst (g c))) /\
     snd (component trunc fuel junk e z (AxInt (Z.of_nat c)) (AxSeq (map Z.of_nat al))) = Ok (snd (g c)) /\
     combination a b (fst (fst (g c))) (snd (fst (g c))) (snd (g c))).
  { exists (fun c => (match snd (component trunc fuel junk e x (AxInt (Z.of_nat c)) (AxSeq (map Z.of_nat al))) with Ok v => v | Err _ => x end,
       match snd (component trunc fuel junk e y (AxInt (Z.of_nat c)) (AxSeq (map Z.of_nat al))) with Ok v => v | Err _ => x end,
       match snd (component trunc fuel junk e z (AxInt (Z.of_nat c)) (AxSeq (map Z.of_nat al))) with Ok v => v | Err _ => x end)).
    intros c Hc. destruct (L c Hc) as [t [T1 [T2 [T3 T4]]]]. cbn [fst snd]. rewrite T1, T2, T3. auto. }
  destruct G as [g G]. exists (map (fun c => fst (fst (g c))) al), (map (fun c => snd (fst (g c))) al), (map (fun c => snd (g c)) al).
  split; [|split; [|split]].
  - apply (all_components_ok F trunc fuel junk ker smooth normalize (Some p) shared e x ax al); auto. apply G.
  - apply (all_components_ok F trunc fuel junk ker smooth normalize (Some p) shared e y ax al); auto; [unfold ndim in *; now rewrite S1|]. apply G.
  - apply (all_components_ok F trunc fuel junk ker smooth normalize (Some p) shared e z ax al); auto; [unfold ndim in *; now rewrite S2|]. apply G.
  - rewrite !map_length. do 3 (split; auto). intros r dx dy dz Hr2.
    assert (N : forall (h : nat -> T) d, nth r (map h al) d = h (nth r al 0%nat)).
    { intros h d. rewrite nth_indep with (d' := h 0%nat) by now rewrite map_length. apply map_nth. }
    rewrite !N. apply G. apply nth_In; auto.
Qed.
Lemma component_shape fuel junk ker smooth raw normalize p m shared (e : edge_filter F) (x x' : T) ea ax ax' c al k :
  edge_init (NItem ker) smooth normalize (Some p) shared = Ok e -> ker <> [] ->
  check_axes (Z.of_nat (ndim x)) ea = Ok [Z.of_nat c] -> In c al ->
  edge_image fuel p m x ax al k -> check_axes (Z.of_nat (ndim x)) ax' = Ok (map Z.of_nat al) -> klen ker <= k ->
  expand (length (without c al)) smooth = Some raw -> (forall s, In s raw -> klen s <= k) -> m <> MPeriodize ->
  snd (component trunc fuel junk e x ea ax') = Ok x' -> shp x' = shp x.
Proof.
  intros HI Hk Ha Hin EI Hax Hlk Hr Hs Hm H. assert (K0 : 0 <= k) by (unfold klen in Hlk; lia).
  assert (N : forall n, ~ In (@MPeriodize F) (repeat m n)) by (intros n I; apply repeat_spec in I; auto).
  destruct (component_same F trunc fuel junk ker smooth raw normalize p shared e x ea ax' c al [m] (repeat m (length (without c al)))
    HI Hk Ha Hax (edge_image_one F fuel p m x ax al k c ker EI Hin Hlk) (N 1%nat) Hr
    (edge_image_rest F fuel p m x ax al k c _ EI Hin K0 (smoothers_len F normalize raw k Hs)))
    as [w [xp [d [ws [cp [y [_ [_ [_ [_ [_ [_ [_ [Y1 [Y2 _]]]]]]]]]]]]]]].
  rewrite H in Y1. injection Y1 as ->. auto.
Qed.
Lemma choose {A B} (P : A -> B -> Prop) (d : B) (l : list A) (dec : forall a a' : A, {a = a'} + {a <> a'}) :
  (forall a, In a l -> exists b, P a b) -> exists g, forall a, In a l -> P a (g a).
Proof.
  induction l as [|a l IH]; intros H; [exists (fun _ => d); intros a []|].
  destruct IH as [g G]; [intros; apply H; now right|]. destruct (H a (or_introl eq_refl)) as [b Hb].
  exists (fun a' => if dec a' a then b else g a'). intros a' [->|I]; destruct (dec a' _); subst; try congruence; auto.
Qed.
Lemma axis_sum_lin (a b : F) (f g h : nat -> F) al : (forall c, In c al -> h c = fadd (fmul a (f c)) (fmul b (g c))) ->
  axis_sum h al = fadd (fmul a (axis_sum f al)) (fmul b (axis_sum g al)).
Proof.
  unfold axis_sum. induction al as [|c al IH]; intros H; cbn; [ring|]. rewrite IH by (intros; apply H; now right). rewrite H by now left. ring.
Qed.
(** magnitude with p = 1 and epsilon = 0, the sum of the components (Laplace). *)
Theorem sum_linear fuel junk ker smooth raw normalize p m shared (e : edge_filter F) a b (x y z : T) ax al k :
  edge_init (NItem ker) smooth normalize (Some p) shared = Ok e -> ker <> [] -> (2 <= length al)%nat -> m <> MPeriodize ->
  edge_image fuel p m x ax al (k + 1) -> klen ker <= k -> linear_padder p m ->
  (forall c, In c al -> expand (length (without c al)) smooth = Some (raw c)) -> (forall c s, In s (raw c) -> klen s <= k) ->
  combination a b x y z ->
  exists x' y' z', snd (magnitude trunc fuel junk e x ax f0 P1) = Ok x' /\ snd (magnitude trunc fuel junk e y ax f0 P1) = Ok y' /\
    snd (magnitude trunc fuel junk e z ax f0 P1) = Ok z' /\ combination a b x' y' z' /\ shp x' = shp x.
Proof.
  intros HI Hk Hl Hm EI Hlk LP Hr Hs C. pose proof C as [S1 [S2 _]]. pose proof EI as [[A1 A2 A3] _ _ _ _ _].
  destruct (choose (fun c (t : T * T * T) =>
     snd (component trunc fuel junk e x (AxInt (Z.of_nat c)) (AxSeq (map Z.of_nat al))) = Ok (fst (fst t)) /\
     snd (component trunc fuel junk e y (AxInt (Z.of_nat c)) (AxSeq (map Z.of_nat al))) = Ok (snd (fst t)) /\
     snd (component trunc fuel junk e z (AxInt (Z.of_nat c)) (AxSeq (map Z.of_nat al))) = Ok (snd t) /\
     combination a b (fst (fst t)) (snd (fst t)) (snd t) /\ shp (fst (fst t)) = shp x) (x, x, x) al Nat.eq_dec) as [g G].
  { intros c Hc. destruct (component_linear fuel junk ker smooth (raw c) normalize p m shared e a b x y z (AxInt (Z.of_nat c)) ax
      (AxSeq (map Z.of_nat al)) c al k) as [x' [y' [z' [X1 [X2 [X3 X4]]]]]]; auto.
    - apply check_one.
    - apply check_axes_seq_nat; auto.
    - intros s; apply Hs.
    - exists (x', y', z'). do 4 (split; auto). cbn.
      apply (component_shape fuel junk ker smooth (raw c) normalize p m shared e x x' (AxInt (Z.of_nat c)) ax (AxSeq (map Z.of_nat al)) c al (k + 1)); auto; try lia.
      + apply check_one.
      + apply check_axes_seq_nat; auto.
      + intros s I. specialize (Hs c s I). lia. }
  assert (Gy : forall c, In c al -> shp (snd (fst (g c))) = shp x /\ shp (snd (g c)) = shp x).
  { intros c Hc. destruct (G c Hc) as [_ [_ [_ [[E1 [E2 _]] E3]]]]. split; congruence. }
  destruct (magnitude_ok F trunc fuel junk ker smooth normalize (Some p) shared e x ax al f0 P1 (fun c => fst (fst (g c))) (shp x) HI A1 Hl) as [x' [X1 [X2 X3]]].
  { intros c Hc. split; apply G; auto. } { auto. }
  destruct (magnitude_ok F trunc fuel junk ker smooth normalize (Some p) shared e y ax al f0 P1 (fun c => snd (fst (g c))) (shp x) HI) as [y' [Y1 [Y2 Y3]]]; auto.
  { unfold ndim in *; now rewrite S1. } { intros c Hc. split; [apply G; auto|apply Gy; auto]. }
  destruct (magnitude_ok F trunc fuel junk ker smooth normalize (Some p) shared e z ax al f0 P1 (fun c => snd (g c)) (shp x) HI) as [z' [Z1 [Z2 Z3]]]; auto.
  { unfold ndim in *; now rewrite S2. } { intros c Hc. split; [apply G; auto|apply Gy; auto]. }
  exists x', y', z'. do 3 (split; auto). split; auto. split; [congruence|]. split; [congruence|].
  intros i V. rewrite X2 in V. rewrite X3, Y3, Z3 by auto. cbn [take_root raise_to].
  rewrite (axis_sum_lin a b (fun c => at_ (fst (fst (g c))) i) (fun c => at_ (snd (fst (g c))) i)).
  - ring.
  - intros c Hc. destruct (G c Hc) as [_ [_ [_ [[E1 [E2 E3]] E4]]]]. apply E3. congruence.
Qed.

(** *** without a padder *)
Theorem component_linear_valid fuel junk ker smooth raw normalize shared (e : edge_filter F) a b (x y z : T) ea sx c al :
  edge_init (NItem ker) smooth normalize None shared = Ok e -> ker <> [] ->
  check_axes (Z.of_nat (ndim x)) ea = Ok [Z.of_nat c] -> check_axes (Z.of_nat (ndim x)) sx = Ok (map Z.of_nat al) ->
  (c < ndim x)%nat -> (forall d, In d al -> (d < ndim x)%nat) -> NoDup al ->
  (forall d, (d < ndim x)%nat -> 0 <= nth d (shp x) 0) -> klen ker <= nth c (shp x) 0 ->
  expand (length (without c al)) smooth = Some raw ->
  (forall r, (r < length (without c al))%nat -> klen (nth r (smoothers normalize raw) []) <= nth (nth r (without c al) 0%nat) (shp x) 0) ->
  combination a b x y z ->
  exists x' y' z', snd (component trunc fuel junk e x ea sx) = Ok x' /\ snd (component trunc fuel junk e y ea sx) = Ok y' /\
    snd (component trunc fuel junk e z ea sx) = Ok z' /\ combination a b x' y' z'.
Proof.
  intros HI Hk Ha Hs Hlt Hin Hnd Hnn Hfit Hr Hfit2 C. pose proof C as [S1 [S2 _]].
  destruct (conv_edge_valid F trunc fuel junk ker smooth normalize shared e x c HI Hk Hlt Hnn Hfit) as [xc [C1 [C2 C3]]].
  destruct (conv_edge_valid F trunc fuel junk ker smooth normalize shared e y c HI Hk) as [yc [D1 [D2 D3]]]; try (unfold ndim in *; rewrite S1; auto).
  destruct (conv_edge_valid F trunc fuel junk ker smooth normalize shared e z c HI Hk) as [zc [E1 [E2 E3]]]; try (unfold ndim in *; rewrite S2; auto).
  assert (CC : combination a b xc yc zc).
  { split; [rewrite D2, C2, S1; auto|]. split; [rewrite E2, C2, S2; auto|].
    intros j Vj. rewrite C3 by auto. rewrite D3 by (rewrite D2, S1, <- C2; auto). rewrite E3 by (rewrite E2, S2, <- C2; auto).
    apply line_lin; auto. intros q Hq. rewrite used_klen in Hq. rewrite C2 in Vj.
    pose proof (valid_nth _ _ c Vj) as Vn. rewrite upd_length in Vn. unfold ndim in Hlt. specialize (Vn Hlt).
    rewrite nth_upd_eq in Vn by auto. eapply valid_upd_back; eauto. lia. }
  destruct (edge_init_built F _ _ _ _ _ _ HI) as [I1 [I2 [I3 I4]]]. specialize (I4 _ _ Hr).
  assert (Nc : ndim xc = ndim x) by (unfold ndim; rewrite C2; apply upd_length).
  assert (OA : on_axes xc (AxSeq (map Z.of_nat (without c al))) (without c al)).
  { split; [apply check_axes_seq_nat|..]; try (intros d Hb2; rewrite Nc; apply Hin; eapply rest_in; eauto). apply NoDup_filter. auto. }
  destruct (built_par F _ _ _ _ _ I4) as [PP [Pd _]].
  destruct (pool_linear_valid F fuel junk (ef_smooth e) a b xc yc zc _ _ _ _ OA PP Pd) as [x' [y' [z' [X1 [X2 [X3 X4]]]]]]; auto.
  { intros r Hr2. rewrite C2, nth_upd_ne; auto. intros E. destruct (rest_in c al (nth r (without c al) 0%nat)); [apply nth_In; auto|]. auto. }
  exists x', y', z'. split; [|split; [|split; [|exact X4]]].
  - rewrite (component_smooths F trunc fuel junk ker smooth normalize None shared e x xc ea sx c al); auto. now rewrite X1.
  - rewrite (component_smooths F trunc fuel junk ker smooth normalize None shared e y yc ea sx c al); auto; try (unfold ndim in *; now rewrite S1). now rewrite X2.
  - rewrite (component_smooths F trunc fuel junk ker smooth normalize None shared e z zc ea sx c al); auto; try (unfold ndim in *; now rewrite S2). now rewrite X3.
Qed.
End EL.
