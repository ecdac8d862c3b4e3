(** The shape of one component of an edge filter for every padding mode (C45). *)
From Verif Require Export EdgeConst PoolExact.
Open Scope Z_scope.

Section ESH.
Variable F : ofield.
Variable trunc : F -> Z.
Notation T := (tensor F).

Lemma smoothers_klen normalize (raw : list (list F)) r : klen (nth r (smoothers normalize raw) []) = klen (nth r raw []).
Proof.
  unfold smoothers. destruct normalize; auto. revert r.
  induction raw as [|k l IH]; intros [|r]; cbn [map nth]; auto. unfold klen. now rewrite map_length.
Qed.
Lemma klen_nil (k : list F) : klen k = 0 <-> k = [].
Proof. destruct k; unfold klen; simpl; split; intros; auto; try lia; try discriminate. Qed.

(** [span d] is the length of the kernel used along axis d. *)
Theorem component_shape fuel junk ker smooth raw normalize p m shared (e : edge_filter F) (x : T) ea ax ax' a al k span :
  edge_init (NItem ker) smooth normalize (Some p) shared = Ok e -> ker <> [] ->
  check_axes (Z.of_nat (ndim x)) ea = Ok [Z.of_nat a] -> In a al ->
  edge_image fuel p m x ax al (k + 1) -> check_axes (Z.of_nat (ndim x)) ax' = Ok (map Z.of_nat al) -> klen ker <= k ->
  expand (length (without a al)) smooth = Some raw -> (forall s, In s raw -> klen s <= k) ->
  span a = klen ker -> (forall r, (r < length (without a al))%nat -> span (nth r (without a al) 0%nat) = klen (nth r raw [])) ->
  exists y, snd (component trunc fuel junk e x ea ax') = Ok y /\ ndim y = ndim x /\
    (forall d, In d al -> m = MPeriodize -> Z.odd (nth d (shp x) 0) = true -> 2 <= span d ->
       nth d (shp y) 0 = nth d (shp x) 0 + 1) /\
    (forall d, ~ (In d al /\ m = MPeriodize /\ Z.odd (nth d (shp x) 0) = true /\ 2 <= span d) ->
       nth d (shp y) 0 = nth d (shp x) 0).
Proof.
  intros HI Hk Ha Hin EI Hax Hlk Hr Hs Sa Sr. pose proof EI as [[A1 A2 A3] P0 Pos1 U M FU].
  assert (K0 : 0 <= k) by (unfold klen in Hlk; lia).
  assert (K1 : 1 <= klen ker) by (destruct ker; [congruence|]; unfold klen; simpl length; lia).
  assert (C1n : forall n, is_ceil_div n 1 n) by (intros n; unfold is_ceil_div; lia).
  pose proof (edge_image_one F fuel p m x ax al (k + 1) a ker EI Hin ltac:(lia)) as SC.
  destruct (conv_edge_same F trunc fuel junk ker smooth normalize p shared e x a [m] HI Hk SC) as
    [w [xp [d [W1 [W2 [W3 [W4 [W5 [W6 [C1 [C2 [CX [CB [C3 C4]]]]]]]]]]]]]].
  destruct (edge_init_built F _ _ _ _ _ _ HI) as [I1 [I2 [I3 I4]]]. specialize (I4 _ _ Hr).
  assert (La : (a < length (shp x))%nat) by (apply A2; auto).
  assert (Nd : ndim d = ndim x) by (unfold ndim; rewrite C2; apply upd_length).
  assert (Dn : forall b, (b < ndim x)%nat -> nth b (shp x) 0 <= nth b (shp d) 0 <= nth b (shp x) 0 + 1).
  { intros b Hb2. rewrite C2, nth_upd. destruct (Nat.eqb_spec a b); cbn [andb]; [|lia]. subst. destruct (Nat.ltb_spec b (length (shp x))); lia. }
  assert (Hwt : forall r, (r < length [a])%nat -> is_same_width (klen (nth r [ker] [])) (nth r [1] 1) (nth (nth r [a] 0%nat) (shp x) 0) (nth r [w] (0, 0))).
  { intros [|r] Hr0; [exact W1|simpl in Hr0; lia]. }
  destruct (same_pad_call F fuel p x _ [a] [m] [ker] [1] [w] SC eq_refl eq_refl Hwt) as [_ [_ [_ [_ [_ FS]]]]].
  specialize (FS 0%nat ltac:(simpl; lia)). cbn [nth] in FS. rewrite <- W5 in FS. cbv zeta in FS.
  assert (Hda : (m = MPeriodize /\ Z.odd (nth a (shp x) 0) = true /\ 2 <= klen ker -> nth a (shp d) 0 = nth a (shp x) 0 + 1) /\
    (~ (m = MPeriodize /\ Z.odd (nth a (shp x) 0) = true /\ 2 <= klen ker) -> nth a (shp d) 0 = nth a (shp x) 0)).
  { rewrite C2, nth_upd_eq by auto. rewrite FS.
    assert (Pa : 1 <= nth a (shp x) 0) by auto.
    destruct (same_width_windows _ _ _ _ _ (Z.le_refl 1) K1 Pa W1 (C1n _)) as [_ B]. rewrite Z.div_1_r in B.
    split.
    - intros [G1 [G2 G3]]. destruct (grow_windows _ _ _ _ _ (Z.le_refl 1) K1 Pa W1 (C1n _) G2) as [H1 _].
      specialize (H1 (conj eq_refl G3)). rewrite Z.div_1_r in H1. rewrite <- H1, G1. cbn [is_periodize].
      rewrite Zmod_odd, G2. lia.
    - intros Hno. destruct (is_periodize m) eqn:Em.
      + assert (Em2 : m = MPeriodize) by (destruct m; try discriminate; auto).
        destruct (Z.odd (nth a (shp x) 0)) eqn:Eo.
        * destruct (grow_windows _ _ _ _ _ (Z.le_refl 1) K1 Pa W1 (C1n _) Eo) as [_ H1].
          rewrite Zmod_odd, Eo. rewrite Z.div_1_r in H1. rewrite <- H1 at 3; [lia|]. intros [_ H2]. apply Hno. auto.
        * rewrite Zmod_odd, Eo. destruct (_ && _) eqn:Ez; bdestr; lia.
      + destruct (_ && _) eqn:Ez; bdestr; lia. }
  assert (EI2 : edge_image fuel p m d (AxSeq (map Z.of_nat al)) al k).
  { split; auto.
    - split; auto.
      + rewrite Nd. apply check_axes_seq_nat; auto.
      + intros b Hb2. rewrite Nd. auto.
    - intros b Hb2. rewrite Nd in Hb2. specialize (P0 b Hb2). specialize (Dn b Hb2). lia.
    - intros b Hb2. specialize (Pos1 b Hb2). specialize (Dn b (A2 b Hb2)). lia.
    - intros b Hb2. rewrite Nd in Hb2. specialize (FU b Hb2). specialize (Dn b Hb2). lia. }
  pose proof (edge_image_rest F fuel p m d _ al k a (smoothers normalize raw) EI2 Hin K0 (smoothers_len F normalize raw k Hs)) as SC2.
  destruct (pool_same_exact F fuel junk (ef_smooth e) d _ _ _ _ p _ I4 SC2) as [y [Y1 [Y2 [Y3 Y4]]]].
  exists y. rewrite (component_smooths F trunc fuel junk ker smooth normalize (Some p) shared e x d ea ax' a al) by auto.
  split; auto. split; [congruence|].
  assert (Na : forall r, (r < length (without a al))%nat -> nth r (without a al) 0%nat <> a /\ In (nth r (without a al) 0%nat) al).
  { intros r Hr2. destruct (rest_in a al (nth r (without a al) 0%nat)) as [H1 H2]; [apply nth_In; auto|]. auto. }
  assert (Ya : nth a (shp y) 0 = nth a (shp d) 0).
  { apply Y4. intros r Hr2 E. destruct (Na r Hr2). congruence. }
  assert (Yb : forall b, ~ In b al -> nth b (shp y) 0 = nth b (shp x) 0).
  { intros b Hb. rewrite Y4.
    - rewrite C2, nth_upd_ne; auto. intros ->. contradiction.
    - intros r Hr2 E. destruct (Na r Hr2). subst b. contradiction. }
  assert (Yr : forall r, (r < length (without a al))%nat -> let b := nth r (without a al) 0%nat in
     (m = MPeriodize /\ Z.odd (nth b (shp x) 0) = true /\ 2 <= span b -> nth b (shp y) 0 = nth b (shp x) 0 + 1) /\
     (~ (m = MPeriodize /\ Z.odd (nth b (shp x) 0) = true /\ 2 <= span b) -> nth b (shp y) 0 = nth b (shp x) 0)).
  { intros r Hr2 b. destruct (Na r Hr2) as [N1 N2]. fold b in N1, N2.
    assert (Db : nth b (shp d) 0 = nth b (shp x) 0) by (rewrite C2; apply nth_upd_ne; auto).
    rewrite (Sr r Hr2 : span b = _). rewrite <- (smoothers_klen normalize).
    assert (Rm : nth r (repeat m (length (without a al))) MUnknown = m).
    { assert (In (nth r (repeat m (length (without a al))) MUnknown) (repeat m (length (without a al)))) by (apply nth_In; now rewrite repeat_length).
      eapply repeat_spec; eauto. }
    assert (R1 : nth r (repeat 1 (length (without a al))) 1 = 1) by apply nth_repeat.
    destruct (nth r (smoothers normalize raw) []) as [|k0 ks] eqn:Ek.
    - assert (E : nth b (shp y) 0 = nth b (shp x) 0).
      { rewrite <- Db. apply Y4. intros r' Hr' E. assert (r' = r); [|now subst].
        eapply NoDup_nth in E; eauto. apply NoDup_filter. auto. }
      split; auto. intros [_ [_ G]]. change (klen (@nil F)) with 0 in G. lia.
    - destruct (Y3 r (nth b (shp d) 0) Hr2) as [H1 H2]; [rewrite Ek; discriminate|rewrite R1; apply C1n|].
      fold b in H1, H2. rewrite Rm, Ek, R1 in *. unfold grows in *. rewrite Db in *.
      split; [intros [G1 [G2 G3]]; apply H1; auto|]. intros Hno. apply H2. intros [G1 [G2 [_ G3]]]. apply Hno. auto. }
  split.
  - intros b Hb G1 G2 G3. destruct (Nat.eq_dec b a) as [->|Nb].
    + rewrite Ya. apply Hda. rewrite <- Sa. auto.
    + destruct (In_pos b (without a al) 0%nat) as [r [Hr2 E]].
      { apply filter_In. split; auto. apply negb_true_iff, Nat.eqb_neq. auto. }
      subst b. apply (Yr r Hr2). auto.
  - intros b Hno. destruct (in_dec Nat.eq_dec b al) as [Hb|Hb]; auto. destruct (Nat.eq_dec b a) as [->|Nb].
    + rewrite Ya. apply Hda. intros [G1 [G2 G3]]. apply Hno. rewrite Sa. auto.
    + destruct (In_pos b (without a al) 0%nat) as [r [Hr2 E]].
      { apply filter_In. split; auto. apply negb_true_iff, Nat.eqb_neq. auto. }
      subst b. apply (Yr r Hr2). intros [G1 [G2 G3]]. apply Hno. auto.
Qed.
End ESH.
