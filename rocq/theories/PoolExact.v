(** The lengths of a same-padded pooling for every mode, periodize included (C37). *)
From Verif Require Export PoolPropLemmas.
Open Scope Z_scope.

Section PX.
Variable F : ofield.
Notation T := (tensor F).

(** The axes on which periodize makes the output one longer. *)
Definition grows (m : mode F) (n k s : Z) : Prop := m = MPeriodize /\ Z.odd n = true /\ s = 1 /\ 2 <= k.

Lemma grow_windows k s n w c : 1 <= s -> 1 <= k -> 1 <= n -> is_same_width k s n w -> is_ceil_div n s c -> Z.odd n = true ->
  let p := if (fst w =? 0) && (snd w =? 0) then n else fst w + n + snd w + 1 in
  (s = 1 /\ 2 <= k -> (p - k) / s + 1 = c + 1) /\ (~ (s = 1 /\ 2 <= k) -> (p - k) / s + 1 = c).
Proof.
  intros Hs Hk Hn Hw Hc Ho p. pose proof (same_width_windows _ _ _ _ _ Hs Hk Hn Hw Hc) as [_ B].
  assert (K0 : 0 <= k) by lia. pose proof (same_width_bounds _ _ _ _ Hs K0 Hw) as [B1 [B2 _]].
  destruct Hw as [c' [H1 [H2 H3]]].
  assert (c' = c) by (eapply is_ceil_div_unique; eauto; lia). subst c'. unfold is_ceil_div in Hc.
  assert (1 <= c) by nia. split.
  - intros [-> Hk2]. assert (c = n) by lia. subst c. unfold p.
    destruct (Z.eqb_spec (fst w) 0); destruct (Z.eqb_spec (snd w) 0); cbn [andb]; try lia; rewrite Z.div_1_r; lia.
  - intros Hno. unfold p. destruct (Z.eqb_spec (fst w) 0) as [E1|E1]; destruct (Z.eqb_spec (snd w) 0) as [E2|E2]; cbn [andb].
    1:{ rewrite E1, E2 in B. rewrite <- B. f_equal. f_equal. lia. }
    all: assert (Hw : fst w + snd w = (c - 1) * s + k - n) by lia.
    all: assert (1 < s) by (destruct (Z.eq_dec s 1) as [Es|Es]; [exfalso; rewrite Es in *; apply Hno; split; [auto|]; lia|lia]).
    all: replace (fst w + n + snd w + 1 - k) with (1 + (c - 1) * s) by lia; rewrite Z.div_add by lia; rewrite Z.div_small by lia; lia.
Qed.

Theorem pool_same_exact fuel junk (m : pool F) (x : T) ax al kers sts p ms : built (length al) kers sts (Some p) m ->
  same_call F fuel p x ax al ms kers sts ->
  exists y, snd (sep_forward fuel junk m x ax) = Ok y /\ ndim y = ndim x /\
    (forall r c, (r < length al)%nat -> nth r kers [] <> [] ->
       is_ceil_div (nth (nth r al 0%nat) (shp x) 0) (nth r sts 1) c ->
       let g := grows (nth r ms MUnknown) (nth (nth r al 0%nat) (shp x) 0) (klen (nth r kers [])) (nth r sts 1) in
       (g -> nth (nth r al 0%nat) (shp y) 0 = c + 1) /\ (~ g -> nth (nth r al 0%nat) (shp y) 0 = c)) /\
    (forall d, (forall r, (r < length al)%nat -> nth r al 0%nat = d -> nth r kers [] = []) -> nth d (shp y) 0 = nth d (shp x) 0).
Proof.
  intros B SC.
  destruct (pool_same_shape F fuel junk m x ax al kers sts p ms B SC) as [y0 [Y1 [Y2 [Y3 Y4]]]].
  destruct (pool_same_corr F fuel junk m x ax al kers sts p ms B SC) as [ws [xp [y [W1 [W2 [W3 [W4 [W5 [W6 _]]]]]]]]].
  rewrite Y1 in W4. inv W4. exists y. split; auto. split; auto. split; auto.
  intros r c Hr Hk Hc g.
  pose proof SC as [[O1 O2 O3] N0 P0 P1 SS PF FM FU].
  assert (Lk : length kers = length al).
  { destruct (built_par _ _ _ _ _ _ B) as [[L1 _] _]. exact L1. }
  destruct (same_pad_call F fuel p x ax al ms kers sts ws SC W1 Lk W2) as [PC [AF [_ [_ [_ FS]]]]].
  destruct (forward_keeps F fuel junk (with_width p ws) x ax al PC AF) as [xp' [X1 [X2 _]]].
  rewrite W3 in X1. inv X1.
  assert (Hn : 1 <= nth (nth r al 0%nat) (shp x) 0) by (apply P1, nth_In; auto).
  assert (K1 : 1 <= klen (nth r kers [])) by (destruct (nth r kers []); [congruence|]; unfold klen; simpl length; lia).
  split.
  - intros [G1 [G2 [G3 G4]]]. rewrite W6, X2, FS by auto. rewrite G1. cbn [is_periodize]. cbv zeta.
    destruct (grow_windows _ _ _ _ _ (SS r Hr) K1 Hn (W2 r Hr) Hc G2) as [H1 _]. rewrite <- H1 by auto.
    assert (E : nth (nth r al 0%nat) (shp x) 0 mod 2 = 1) by (rewrite Zmod_odd, G2; reflexivity).
    rewrite E. reflexivity.
  - intros Ng. destruct (is_periodize (nth r ms MUnknown)) eqn:Em.
    + assert (Em2 : nth r ms MUnknown = MPeriodize) by (destruct (nth r ms MUnknown); try discriminate; auto).
      rewrite W6, X2, FS by auto. rewrite Em. cbv zeta.
      destruct (Z.odd (nth (nth r al 0%nat) (shp x) 0)) eqn:Eo.
      * destruct (grow_windows _ _ _ _ _ (SS r Hr) K1 Hn (W2 r Hr) Hc Eo) as [_ H1].
        rewrite <- H1; [|intros [A1 A2]; apply Ng; split; auto].
        assert (E : nth (nth r al 0%nat) (shp x) 0 mod 2 = 1) by (rewrite Zmod_odd, Eo; reflexivity). rewrite E. reflexivity.
      * assert (E : nth (nth r al 0%nat) (shp x) 0 mod 2 = 0) by (rewrite Zmod_odd, Eo; reflexivity). rewrite E.
        destruct (same_width_windows _ _ _ _ _ (SS r Hr) K1 Hn (W2 r Hr) Hc) as [_ <-].
        destruct (_ && _) eqn:Ez; bdestr; f_equal; f_equal; lia.
    + apply Y3; auto. intros E. rewrite E in Em. discriminate.
Qed.

(** A filter keeps the shape exactly when no axis grows. *)
Theorem filter_shape_iff fuel junk (m0 m : pool F) (x : T) ax al kers sts0 pd0 pd p ms : built (length al) kers sts0 pd0 m0 ->
  to_filter m0 pd = Ok m -> match pd with None => pd0 | Some _ => pd end = Some p ->
  same_call F fuel p x ax al ms kers (repeat 1 (length al)) ->
  exists y, snd (sep_forward fuel junk m x ax) = Ok y /\ ndim y = ndim x /\
    (shp y = shp x <-> ~ exists r, (r < length al)%nat /\ nth r ms MUnknown = MPeriodize /\
       Z.odd (nth (nth r al 0%nat) (shp x) 0) = true /\ 2 <= klen (nth r kers [])).
Proof.
  intros B Hf Hp SC. pose proof (built_filter _ _ _ _ _ _ _ B Hf) as B2. rewrite Hp in B2.
  destruct (pool_same_exact fuel junk m x ax al kers _ p ms B2 SC) as [y [Y1 [Y2 [Y3 Y4]]]].
  exists y. split; auto. split; auto.
  assert (C1 : forall n, is_ceil_div n 1 n) by (intros n; unfold is_ceil_div; lia). split.
  - intros E [r [Hr [G1 [G2 G3]]]]. 
    assert (Hk : nth r kers [] <> []) by (intros E0; rewrite E0 in G3; change (klen (@nil F)) with 0 in G3; lia).
    destruct (Y3 r (nth (nth r al 0%nat) (shp x) 0) Hr Hk) as [H1 _]; [rewrite nth_repeat; apply C1|].
    rewrite E in H1. assert (H2 := H1 ltac:(split; [auto|split; [auto|split; [apply nth_repeat|auto]]])). lia.
  - intros Hno. apply list_ext with (d := 0); auto. intros d Hd.
    pose proof SC as [[O1 O2 O3] N0 P0 P1 SS PF FM FU].
    destruct (in_dec Nat.eq_dec d al) as [Hi|Hi].
    + destruct (In_pos d al 0%nat Hi) as [r [Hr <-]]. destruct (nth r kers []) as [|c0 k0] eqn:Ek.
      * apply Y4. intros r' Hr' E. assert (r' = r) by (eapply NoDup_nth in E; eauto). now subst.
      * apply Y3; auto; [rewrite Ek; discriminate|rewrite nth_repeat; apply C1|].
        intros [G1 [G2 [_ G4]]]. apply Hno. exists r. auto.
    + apply Y4. intros r Hr <-. exfalso. apply Hi, nth_In. auto.
Qed.
End PX.
