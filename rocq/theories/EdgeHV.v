(** horizontal and vertical in closed form for the copying padding modes (C91). *)
From Verif Require Export IndexLemmas EdgePropLemmas EdgeConst EdgeLinear.
Open Scope Z_scope.

(** The modes that copy pixels, and the coordinate they copy from at offset t of an axis of length n. *)
Definition copying {F : ofield} (m : mode F) : Prop := m = MCircular \/ m = MSymmetric \/ m = MReflect \/ m = MReplicate.
Definition spot {F : ofield} (m : mode F) (n t : Z) : Z :=
  match m with
  | MCircular => t mod n
  | MSymmetric => let k := t mod (2 * n) in if k <? n then k else 2 * n - 1 - k
  | MReflect => if n =? 1 then 0 else let k := t mod (2 * n - 2) in if k <? n then k else 2 * n - 2 - k
  | _ => Z.max 0 (Z.min (n - 1) t)
  end.

Section HV.
Variable F : ofield.
Add Field Fhv : (f_field F).
Notation T := (tensor F).
Variable trunc : F -> Z.

Lemma spot_bounds (m : mode F) n t : copying m -> 1 <= n -> 0 <= spot m n t < n.
Proof.
  intros [->|[->|[->| ->]]] Hn; cbn [spot].
  - apply Z.mod_pos_bound. lia.
  - cbv zeta. pose proof (Z.mod_pos_bound t (2 * n)). destruct (Z.ltb_spec (t mod (2 * n)) n); lia.
  - destruct (Z.eqb_spec n 1); [lia|]. cbv zeta. pose proof (Z.mod_pos_bound t (2 * n - 2)). destruct (Z.ltb_spec (t mod (2 * n - 2)) n); lia.
  - lia.
Qed.
Lemma spot_inside (m : mode F) n t : copying m -> 0 <= t < n -> spot m n t = t.
Proof.
  intros [->|[->|[->| ->]]] Hn; cbn [spot]; cbv zeta.
  - apply Z.mod_small. lia.
  - rewrite Z.mod_small by lia. destruct (Z.ltb_spec t n); lia.
  - destruct (Z.eqb_spec n 1); [lia|]. rewrite Z.mod_small by lia. destruct (Z.ltb_spec t n); lia.
  - lia.
Qed.
Lemma copying_fills (m : mode F) : copying m -> fills m /\ m <> MPeriodize.
Proof. intros [->|[->|[->| ->]]]; split; try exact I; discriminate. Qed.
Lemma spot_src (m : mode F) n t : copying m -> src_coord m n t = Some (spot m n t).
Proof. intros [->|[->|[->| ->]]]; cbn [src_coord spot]; auto. destruct (n =? 1); reflexivity. Qed.

Lemma width_one k n w : 1 <= k -> is_same_width k 1 n w -> w = (k / 2, (k - 1) / 2).
Proof.
  intros Hk [m [C [E1 E2]]]. unfold is_ceil_div in C. destruct w as [b a]. cbn [fst snd] in *.
  assert (m = n) by lia. subst. pose proof (Z.div_mod k 2). pose proof (Z.div_mod (k - 1) 2).
  pose proof (Z.mod_pos_bound k 2). pose proof (Z.mod_pos_bound (k - 1) 2). f_equal; lia.
Qed.

(** One padded axis. *)
Lemma pad_copies fuel junk (p : padder F) m (x xp : T) ax a ker w : copying m -> same_call F fuel p x ax [a] [m] [ker] [1] ->
  is_same_width (klen ker) 1 (nth a (shp x) 0) w -> padder_forward fuel junk (with_width p [w]) x ax = Ok xp ->
  shp xp = upd a (fst w + nth a (shp x) 0 + snd w) (shp x) /\
  forall j, valid (shp xp) j -> at_ xp j = at_ x (upd a (spot m (nth a (shp x) 0) (nth a j 0 - fst w)) j).
Proof.
  intros Cm SC Hw E. pose proof SC as [[A1 A2 A3] N0 P0 P1 S1 PF FM FU].
  assert (Ws : forall r, (r < length [a])%nat -> is_same_width (klen (nth r [ker] [])) (nth r [1] 1) (nth (nth r [a] 0%nat) (shp x) 0) (nth r [w] (0, 0))).
  { intros [|r] Hr; [exact Hw|cbn in Hr; lia]. }
  destruct (same_pad_call F fuel p x ax [a] [m] [ker] [1] [w] SC eq_refl eq_refl Ws) as [PC [AF _]].
  destruct (with_width_par F 1 p [m] [w] [a] PF eq_refl eq_refl A3) as [Lx Q].
  destruct (Q 0%nat ltac:(lia)) as [q [E1 [E2 [E3 E4]]]]. cbn [nth] in E1, E2, E3, E4.
  pose proof (same_width_bounds (klen ker) 1 _ w ltac:(lia) ltac:(unfold klen; lia) Hw) as [B1 [B2 B3]].
  destruct (copying_fills m Cm) as [_ Np].
  destruct (copy_mode F fuel junk (with_width p [w]) x ax [a] m (spot m) Np) as [y [Y1 [Y2 Y3]]]; auto.
  - intros n t _. apply spot_src; auto.
  - intros n t Ht. apply spot_inside; auto.
  - intros n t. rewrite spot_src by auto. discriminate.
  - intros b Hb. rewrite Lx in Hb |- *. destruct Hb as [<-|[]]. exists q. rewrite E1. split; auto. rewrite E2, E3.
    split; [lia|]. split; [lia|]. split; auto. apply P1. cbn; auto.
  - rewrite E in Y1. injection Y1 as <-.
    assert (Ha : (a < ndim x)%nat) by (apply A2; cbn; auto).
    assert (G : shp xp = upd a (fst w + nth a (shp x) 0 + snd w) (shp x)).
    { rewrite Y2. apply list_ext with (d := 0); [unfold grown; now rewrite map_length, seq_length, upd_length|].
      intros d Hd. unfold grown in *. rewrite map_length, seq_length in Hd. rewrite nth_map_seq by auto. rewrite Lx, nth_upd.
      destruct (Nat.eqb_spec a d) as [->|Hne]; cbn [andb].
      - destruct (Nat.ltb_spec d (length (shp x))); [|lia]. now rewrite E1, E2, E3.
      - rewrite axis_par_notin by (intros [?|[]]; auto). reflexivity. }
    split; auto. intros j V. rewrite Y3 by auto. f_equal. pose proof (valid_length _ _ V) as Lj. rewrite G, upd_length in Lj.
    apply list_ext with (d := 0); [unfold from; rewrite map_length, seq_length, upd_length; congruence|].
    intros d Hd. unfold from in *. rewrite map_length, seq_length in Hd. rewrite nth_map_seq by auto. rewrite Lx, nth_upd.
    destruct (Nat.eqb_spec a d) as [->|Hne]; cbn [andb].
    + destruct (Nat.ltb_spec d (length j)); [|lia]. now rewrite E1, E2.
    + rewrite axis_par_notin by (intros [?|[]]; auto). reflexivity.
Qed.

Lemma correlation_one b (s : list F) (x : T) j : s <> [] ->
  correlation [b] [s] [1] x j = fsum (klen s) (fun r => fmul (nth (Z.to_nat r) s f0) (at_ x (upd b (nth b j 0 + r) j))).
Proof.
  intros Hs. unfold correlation. cbn [map map2 bsum]. destruct s as [|s0 s]; [congruence|]. cbn [eff_kernel eff_stride].
  apply fsum_ext. intros r Hr. cbn [weight place]. rewrite Z.mul_1_r. ring.
Qed.

Theorem component_two fuel junk ker s s' normalize p m shared (e : edge_filter F) (x : T) ea ax sx al a b k :
  truncates trunc -> exact_path trunc ker -> copying m ->
  edge_init (NItem ker) (NItem s) normalize (Some p) shared = Ok e -> ker <> [] -> s <> [] -> smoothers normalize [s] = [s'] ->
  check_axes (Z.of_nat (ndim x)) ea = Ok [Z.of_nat a] -> check_axes (Z.of_nat (ndim x)) sx = Ok (map Z.of_nat al) -> without a al = [b] ->
  edge_image fuel p m x ax [a; b] k -> klen ker <= k -> klen s <= k ->
  exists y, snd (component trunc fuel junk e x ea sx) = Ok y /\ shp y = shp x /\
    forall j, valid (shp x) j -> at_ y j =
      fsum (klen ker) (fun q => fsum (klen s) (fun r => fmul (fmul (nth (Z.to_nat q) ker f0) (nth (Z.to_nat r) s' f0))
        (at_ x (upd a (spot m (nth a (shp x) 0) (nth a j 0 + q - klen ker / 2))
               (upd b (spot m (nth b (shp x) 0) (nth b j 0 + r - klen s / 2)) j))))).
Proof.
  intros TR EP Cm HI Hk Hs0 Hs' Ha Hsx Hw EI K1 K2.
  pose proof EI as [[A1 A2 A3] P0 P1 U M FU]. destruct (copying_fills m Cm) as [_ Np].
  assert (Nab : a <> b) by (intros ->; inversion A3 as [|? ? Q _]; apply Q; cbn; auto).
  assert (La : (a < ndim x)%nat) by (apply A2; cbn; auto). assert (Lb : (b < ndim x)%nat) by (apply A2; cbn; auto).
  assert (Ks : klen s' = klen s /\ s' <> []).
  { assert (L : length (smoothers normalize [s]) = 1%nat) by (rewrite Hs'; reflexivity). unfold smoothers in Hs'. destruct normalize; cbn [map] in Hs'; injection Hs' as <-; [|auto].
    split; [unfold klen; now rewrite map_length|]. destruct s; [congruence|discriminate]. }
  destruct Ks as [Ks Ns].
  pose proof (edge_image_one F fuel p m x ax [a; b] k a ker EI ltac:(cbn; auto) K1) as SC1.
  assert (Wab : without a [a; b] = [b]). { unfold without. cbn. rewrite Nat.eqb_refl. cbn. destruct (Nat.eqb_spec b a); [congruence|reflexivity]. }
  pose proof (edge_image_rest F fuel p m x ax [a; b] k a [s'] EI ltac:(cbn; auto) ltac:(unfold klen in K1; lia) (fun z Hz => ltac:(destruct Hz as [<-|[]]; lia))) as SC2.
  rewrite Wab in SC2. cbn [length repeat] in SC2.
  destruct (component_exact F trunc fuel junk ker (NItem s) [s] normalize p shared e x ea sx a al [m] [m] TR EP HI Hk Ha Hsx SC1) as
    [w [xp [c [ws [cp [y [H1 [H2 [H3 [H4 [H5 [H6 [H7 [H8 [H9 H10]]]]]]]]]]]]]]].
  - intros [?|[]]; congruence.
  - rewrite Hw. reflexivity.
  - rewrite Hw, Hs'. exact SC2.
  - rewrite Hw, Hs' in H6, H10. rewrite Hw in H5, H7. destruct ws as [|w2 [|? ?]]; try discriminate.
    specialize (H6 0%nat ltac:(cbn; lia)). cbn [nth] in H6.
    assert (Sy : shp y = shp x) by (apply H9; intros [?|[]]; congruence).
    destruct (pad_copies fuel junk p m x xp _ a ker w Cm SC1 H1 H2) as [X1 X2].
    assert (SC2' : same_call F fuel p c (AxSeq (map Z.of_nat [b])) [b] [m] [s'] [1]) by (apply (same_call_shape F _ _ x); auto).
    destruct (pad_copies fuel junk p m c cp _ b s' w2 Cm SC2') as [Y1 Y2]; [rewrite H3; exact H6|exact H7|].
    assert (W1 : w = (klen ker / 2, (klen ker - 1) / 2)).
    { apply (width_one _ (nth a (shp x) 0)); auto. destruct ker; [congruence|unfold klen; cbn [length]; lia]. }
    assert (S1 : 1 <= klen s). { destruct s; [congruence|unfold klen; cbn [length]; lia]. }
    assert (W2 : w2 = (klen s / 2, (klen s - 1) / 2)).
    { apply (width_one _ (nth b (shp x) 0)); [lia|]. rewrite <- Ks. auto. }
    exists y. split; auto. split; auto. intros j V. rewrite Sy in H10. rewrite H10 by auto. cbn [length repeat]. rewrite correlation_one by auto.
    rewrite Ks. pose proof (valid_length _ _ V) as Lj. change (length (shp x)) with (ndim x) in Lj.
    assert (K0 : 1 <= klen ker). { destruct ker; [congruence|unfold klen; cbn [length]; lia]. }
    assert (Hd1 := Z.div_mod (klen ker) 2 ltac:(lia)). assert (Hd1' := Z.div_mod (klen ker - 1) 2 ltac:(lia)).
    assert (Hm1 := Z.mod_pos_bound (klen ker) 2 ltac:(lia)). assert (Hm1' := Z.mod_pos_bound (klen ker - 1) 2 ltac:(lia)).
    assert (Hd2 := Z.div_mod (klen s) 2 ltac:(lia)). assert (Hd2' := Z.div_mod (klen s - 1) 2 ltac:(lia)).
    assert (Hm2 := Z.mod_pos_bound (klen s) 2 ltac:(lia)). assert (Hm2' := Z.mod_pos_bound (klen s - 1) 2 ltac:(lia)).
    rewrite (fsum_swap F). apply fsum_ext. intros r Hr.
    assert (Vj : forall d, (d < length (shp x))%nat -> 0 <= nth d j 0 < nth d (shp x) 0) by (intros d Hd; apply valid_nth; auto).
    rewrite W2 in Y1, Y2. cbn [fst snd] in Y1, Y2. rewrite H3 in Y1, Y2.
    rewrite Y2.
    2:{ rewrite Y1. apply valid_iff. rewrite !upd_length. split; [unfold ndim in *; lia|]. intros d Hd. rewrite !nth_upd.
        specialize (Vj d Hd). destruct (Nat.eqb_spec b d) as [->|?]; cbn [andb]; [|lia].
        destruct (Nat.ltb_spec d (length j)); [|unfold ndim in *; lia]. destruct (Nat.ltb_spec d (length (shp x))); [|lia]. lia. }
    rewrite nth_upd, Nat.eqb_refl, upd_upd. cbn [andb]. destruct (Nat.ltb_spec b (length j)); [|lia].
    set (t := spot m (nth b (shp x) 0) (nth b j 0 + r - klen s / 2)).
    assert (Ht : 0 <= t < nth b (shp x) 0) by (apply spot_bounds; auto; apply P1; cbn; auto).
    assert (Vt : valid (shp x) (upd b t j)).
    { apply valid_iff. rewrite upd_length. split; [unfold ndim in *; lia|]. intros d Hd. rewrite nth_upd. destruct (Nat.eqb_spec b d) as [->|?]; cbn [andb]; [|auto].
      destruct (Nat.ltb_spec d (length j)); auto. }
    rewrite H4 by auto. rewrite <- fsum_mul. apply fsum_ext. intros q Hq.
    rewrite W1 in X1, X2. cbn [fst snd] in X1, X2.
    assert (En : nth a (upd b t j) 0 = nth a j 0). { rewrite nth_upd. destruct (Nat.eqb_spec b a); [congruence|reflexivity]. }
    rewrite En. rewrite X2.
    2:{ rewrite X1. apply valid_iff. rewrite !upd_length. split; [unfold ndim in *; lia|]. intros d Hd. rewrite !nth_upd, !upd_length.
        specialize (Vj d Hd). destruct (Nat.eqb_spec a d) as [->|?]; cbn [andb].
        - destruct (Nat.ltb_spec d (length j)); [|unfold ndim in *; lia]. destruct (Nat.ltb_spec d (length (shp x))); [|lia]. lia.
        - destruct (Nat.eqb_spec b d) as [->|?]; cbn [andb]; [|lia]. destruct (Nat.ltb_spec d (length j)); lia. }
    rewrite nth_upd, upd_length, Nat.eqb_refl, upd_upd. cbn [andb]. destruct (Nat.ltb_spec a (length j)); [|lia].
    replace (nth a j 0 + q - klen ker / 2) with (nth a j 0 + q - klen ker / 2) by lia. ring.
Qed.

(** *** horizontal and vertical *)
Record hv_call fuel ker s s' normalize p m shared (e : edge_filter F) (x : T) ax (k : Z) : Prop := {
  hv_trunc : truncates trunc;
  hv_exact : exact_path trunc ker;
  hv_mode : copying m;
  hv_init : edge_init (NItem ker) (NItem s) normalize (Some p) shared = Ok e;
  hv_ker : ker <> [];
  hv_s : s <> [];
  hv_used : smoothers normalize [s] = [s'];
  hv_nd : (2 <= ndim x)%nat;
  hv_image : edge_image fuel p m x ax [(ndim x - 2)%nat; (ndim x - 1)%nat] k;
  hv_k1 : klen ker <= k;
  hv_k2 : klen s <= k }.
Lemma check_neg nd d : (1 <= d <= nd)%nat -> check_axes (Z.of_nat nd) (AxInt (- Z.of_nat d)) = Ok [Z.of_nat (nd - d)].
Proof. intros H. unfold check_axes. destruct (Z.leb_spec 0 (- Z.of_nat d)); [lia|]. do 2 f_equal. lia. Qed.
Lemma edge_image_swap fuel p m (x : T) ax a b k : edge_image fuel p m x ax [a; b] k -> edge_image fuel p m x (AxSeq (map Z.of_nat [b; a])) [b; a] k.
Proof.
  intros [[A1 A2 A3] P0 P1 U M FU]. assert (A2' : forall c, In c [b; a] -> (c < ndim x)%nat) by (intros c [<-|[<-|[]]]; apply A2; cbn; auto).
  split; auto.
  - split; auto; [apply check_axes_seq_nat; auto|]. inversion A3 as [|? ? N _]; subst. constructor; [|constructor; [intros []|constructor]].
    intros [E|[]]. apply N. cbn. auto.
  - intros c [<-|[<-|[]]]; apply P1; cbn; auto.
Qed.

Theorem horizontal_ok fuel junk ker s s' normalize p m shared (e : edge_filter F) (x : T) ax k :
  hv_call fuel ker s s' normalize p m shared e x ax k ->
  exists y, snd (horizontal trunc fuel junk e x) = Ok y /\ shp y = shp x /\
    forall j, valid (shp x) j -> let a := (ndim x - 2)%nat in let b := (ndim x - 1)%nat in at_ y j =
      fsum (klen ker) (fun q => fsum (klen s) (fun r => fmul (fmul (nth (Z.to_nat q) ker f0) (nth (Z.to_nat r) s' f0))
        (at_ x (upd a (spot m (nth a (shp x) 0) (nth a j 0 + q - klen ker / 2))
               (upd b (spot m (nth b (shp x) 0) (nth b j 0 + r - klen s / 2)) j))))).
Proof.
  intros [TR EP Cm HI Hk Hs Hs' Nd EI K1 K2]. cbv zeta.
  apply (component_two fuel junk ker s s' normalize p m shared e x (AxInt (-2)) ax (AxInt (-1)) [(ndim x - 1)%nat] _ _ k); auto.
  - apply (check_neg (ndim x) 2); lia.
  - apply (check_neg (ndim x) 1); lia.
  - unfold without. cbn. destruct (Nat.eqb_spec (ndim x - 1) (ndim x - 2)); [lia|reflexivity].
Qed.
Theorem vertical_ok fuel junk ker s s' normalize p m shared (e : edge_filter F) (x : T) ax k :
  hv_call fuel ker s s' normalize p m shared e x ax k ->
  exists y, snd (vertical trunc fuel junk e x) = Ok y /\ shp y = shp x /\
    forall j, valid (shp x) j -> let a := (ndim x - 2)%nat in let b := (ndim x - 1)%nat in at_ y j =
      fsum (klen ker) (fun q => fsum (klen s) (fun r => fmul (fmul (nth (Z.to_nat q) ker f0) (nth (Z.to_nat r) s' f0))
        (at_ x (upd b (spot m (nth b (shp x) 0) (nth b j 0 + q - klen ker / 2))
               (upd a (spot m (nth a (shp x) 0) (nth a j 0 + r - klen s / 2)) j))))).
Proof.
  intros [TR EP Cm HI Hk Hs Hs' Nd EI K1 K2]. cbv zeta. apply edge_image_swap in EI.
  eapply (component_two fuel junk ker s s' normalize p m shared e x (AxInt (-1)) _ (AxInt (-2)) [(ndim x - 2)%nat] _ _ k); eauto.
  - apply (check_neg (ndim x) 1); lia.
  - apply (check_neg (ndim x) 2); lia.
  - unfold without. cbn. destruct (Nat.eqb_spec (ndim x - 2) (ndim x - 1)); [lia|reflexivity].
Qed.

(** Images that do not change along an axis. *)
Definition constant_along (a : nat) (x : T) : Prop := forall j t, valid (shp x) j -> 0 <= t < nth a (shp x) 0 -> at_ x (upd a t j) = at_ x j.

Lemma valid_upd sh j d t : valid sh j -> 0 <= t < nth d sh 0 -> valid sh (upd d t j).
Proof.
  intros V Ht. apply valid_iff. apply valid_iff in V. destruct V as [L V]. rewrite upd_length. split; auto.
  intros n Hn. rewrite nth_upd. destruct (Nat.eqb_spec d n) as [->|?]; cbn [andb]; [|auto]. destruct (Nat.ltb_spec n (length j)); auto.
Qed.
Lemma fsum_wsum_nth (l : list F) : fsum (klen l) (fun q => nth (Z.to_nat q) l f0) = wsum l.
Proof.
  induction l as [|v l IH]; [reflexivity|]. unfold klen in *. cbn [length]. rewrite Nat2Z.inj_succ. unfold Z.succ.
  rewrite fsum_S_l by lia. cbn [nth Z.to_nat]. change (wsum (v :: l)) with (fadd v (wsum l)). rewrite <- IH. f_equal.
  apply fsum_ext. intros k Hk. replace (Z.to_nat (k + 1)) with (S (Z.to_nat k)) by lia. reflexivity.
Qed.
Theorem horizontal_zero fuel junk ker s s' normalize p m shared (e : edge_filter F) (x : T) ax k :
  hv_call fuel ker s s' normalize p m shared e x ax k -> wsum ker = f0 -> constant_along (ndim x - 2) x ->
  exists y, snd (horizontal trunc fuel junk e x) = Ok y /\ shp y = shp x /\ forall j, valid (shp x) j -> at_ y j = f0.
Proof.
  intros H W C. destruct (horizontal_ok fuel junk ker s s' normalize p m shared e x ax k H) as [y [Y1 [Y2 Y3]]].
  exists y. split; auto. split; auto. intros j V. rewrite Y3 by auto. destruct H as [TR EP Cm HI Hk Hs Hs' Nd EI K1 K2].
  rewrite fsum_swap. apply fsum_zero. intros r Hr.
  set (a := (ndim x - 2)%nat) in *. set (b := (ndim x - 1)%nat) in *.
  set (j2 := upd b (spot m (nth b (shp x) 0) (nth b j 0 + r - klen s / 2)) j).
  assert (V2 : valid (shp x) j2). { apply valid_upd; auto. apply spot_bounds; auto. apply (ei_pos1 _ _ _ _ _ _ _ EI). cbn; auto. }
  transitivity (fsum (klen ker) (fun q => fmul (nth (Z.to_nat q) ker f0) (fmul (nth (Z.to_nat r) s' f0) (at_ x j2)))).
  - apply fsum_ext. intros q Hq. rewrite C; auto; [ring|]. apply spot_bounds; auto. apply (ei_pos1 _ _ _ _ _ _ _ EI). cbn; auto.
  - rewrite fsum_mul_r, fsum_wsum_nth, W. ring.
Qed.
Theorem vertical_zero fuel junk ker s s' normalize p m shared (e : edge_filter F) (x : T) ax k :
  hv_call fuel ker s s' normalize p m shared e x ax k -> wsum ker = f0 -> constant_along (ndim x - 1) x ->
  exists y, snd (vertical trunc fuel junk e x) = Ok y /\ shp y = shp x /\ forall j, valid (shp x) j -> at_ y j = f0.
Proof.
  intros H W C. destruct (vertical_ok fuel junk ker s s' normalize p m shared e x ax k H) as [y [Y1 [Y2 Y3]]].
  exists y. split; auto. split; auto. intros j V. rewrite Y3 by auto. destruct H as [TR EP Cm HI Hk Hs Hs' Nd EI K1 K2].
  rewrite fsum_swap. apply fsum_zero. intros r Hr.
  set (a := (ndim x - 2)%nat) in *. set (b := (ndim x - 1)%nat) in *.
  set (j2 := upd a (spot m (nth a (shp x) 0) (nth a j 0 + r - klen s / 2)) j).
  assert (V2 : valid (shp x) j2). { apply valid_upd; auto. apply spot_bounds; auto. apply (ei_pos1 _ _ _ _ _ _ _ EI). cbn; auto. }
  transitivity (fsum (klen ker) (fun q => fmul (nth (Z.to_nat q) ker f0) (fmul (nth (Z.to_nat r) s' f0) (at_ x j2)))).
  - apply fsum_ext. intros q Hq. rewrite C; auto; [ring|]. apply spot_bounds; auto. apply (ei_pos1 _ _ _ _ _ _ _ EI). cbn; auto.
  - rewrite fsum_mul_r, fsum_wsum_nth, W. ring.
Qed.

(** x' is x with the last two axes exchanged. *)
Definition transposed (x x' : T) : Prop := exists bs h w, shp x = bs ++ [h; w] /\ shp x' = bs ++ [w; h] /\
  forall b i j, valid (shp x) (b ++ [i; j]) -> at_ x' (b ++ [j; i]) = at_ x (b ++ [i; j]).
Lemma split_last2 (bs j : list Z) h w : valid (bs ++ [h; w]) j -> exists b i k, j = b ++ [i; k] /\ length b = length bs /\ valid bs b /\ 0 <= i < h /\ 0 <= k < w.
Proof.
  intros V. unfold valid in *. apply Forall2_app_inv_l in V. destruct V as [b [c [V1 [V2 ->]]]].
  inversion V2 as [|? i ? c' Hi V3]; subst. inversion V3 as [|? k ? c'' Hk V4]; subst. inversion V4; subst.
  exists b, i, k. split; auto. split; [apply (valid_length _ _ V1)|]. auto.
Qed.
Theorem hv_transposed fuel junk ker s s' normalize p m shared (e : edge_filter F) (x x' : T) ax ax' k :
  hv_call fuel ker s s' normalize p m shared e x ax k -> hv_call fuel ker s s' normalize p m shared e x' ax' k -> transposed x x' ->
  exists y y', snd (horizontal trunc fuel junk e x) = Ok y /\ snd (vertical trunc fuel junk e x') = Ok y' /\ transposed y y'.
Proof.
  intros H H' [bs [h [w [E1 [E2 E3]]]]].
  destruct (horizontal_ok fuel junk ker s s' normalize p m shared e x ax k H) as [y [Y1 [Y2 Y3]]].
  destruct (vertical_ok fuel junk ker s s' normalize p m shared e x' ax' k H') as [y' [Z1 [Z2 Z3]]].
  exists y, y'. split; auto. split; auto. exists bs, h, w. split; [congruence|]. split; [congruence|].
  intros b i j V. rewrite Y2 in V. assert (V0 := V). rewrite E1 in V. destruct (split_last2 _ _ _ _ V) as [b' [i' [j' [Q [Lb [Vb [Hi Hj]]]]]]].
  assert (Lq : length b = length b') by (apply (f_equal (@length Z)) in Q; rewrite !app_length in Q; cbn in Q; lia).
  assert (Q2 : b = b' /\ i = i' /\ j = j').
  { clear - Q Lq. revert b' Q Lq. induction b as [|u b IH]; intros [|u' b'] Q Lq; cbn in Q, Lq; try lia; [injection Q as <- <-; auto|].
    injection Q as <- Q. destruct (IH b' Q ltac:(lia)) as [<- ?]. auto. }
  destruct Q2 as [<- [<- <-]].
  assert (N1 : ndim x = (length b + 2)%nat) by (unfold ndim; rewrite E1, app_length; cbn; lia).
  assert (N2 : ndim x' = (length b + 2)%nat) by (unfold ndim; rewrite E2, app_length; cbn; lia).
  assert (V' : valid (shp x') (b ++ [j; i])). { rewrite E2. apply Forall2_app; auto. }
  rewrite Y3, Z3 by auto. cbv zeta. rewrite N1, N2, E1, E2.
  replace (length b + 2 - 2)%nat with (length b + 0)%nat by lia. replace (length b + 2 - 1)%nat with (length b + 1)%nat by lia.
  assert (Nt : forall (c : list Z) u v, length c = length b -> nth (length b + 0) (c ++ [u; v]) 0 = u /\ nth (length b + 1) (c ++ [u; v]) 0 = v).
  { intros c u v Hc. rewrite <- Hc. rewrite !app_nth2 by lia. replace (length c + 0 - length c)%nat with 0%nat by lia.
    replace (length c + 1 - length c)%nat with 1%nat by lia. auto. }
  destruct (Nt bs h w ltac:(lia)) as [-> ->]. destruct (Nt bs w h ltac:(lia)) as [-> ->].
  destruct (Nt b i j eq_refl) as [-> ->]. destruct (Nt b j i eq_refl) as [-> ->].
  apply fsum_ext. intros q Hq. apply fsum_ext. intros r Hr. rewrite !upd_app_r. cbn [upd]. f_equal. apply E3.
  rewrite E1. apply Forall2_app; auto. destruct H as [_ _ Cm _ _ _ _ _ _ _ _].
  constructor; [apply spot_bounds; auto; lia|]. constructor; [apply spot_bounds; auto; lia|constructor].
Qed.

(** *** errors of component *)
Theorem component_errors fuel junk (e : edge_filter F) (x : T) ea sx :
  (forall l, check_axes (Z.of_nat (ndim x)) ea = Ok l -> length l <> 1%nat -> component trunc fuel junk e x ea sx = (e, Err ValueError)) /\
  (forall er, check_axes (Z.of_nat (ndim x)) ea = Err er -> component trunc fuel junk e x ea sx = (e, Err er)) /\
  (forall a er, check_axes (Z.of_nat (ndim x)) ea = Ok [a] -> check_axes (Z.of_nat (ndim x)) sx = Err er -> component trunc fuel junk e x ea sx = (e, Err er)).
Proof.
  unfold component. split; [|split].
  - intros l -> Hl. destruct l as [|? [|? ?]]; auto. cbn in Hl. congruence.
  - intros er ->. reflexivity.
  - intros a er -> ->. reflexivity.
Qed.
End HV.
