(** What MS_SSIM computes without padding (C110). *)
From Verif Require Export SsimValue.
Open Scope Z_scope.

(** The contrast and structure part of SSIM. *)
Definition cs_at {F : ofield} (K2 c m1 m2 e11 e22 e12 : F) : F :=
  fdiv (fadd (fmul two (fmul c (fsub e12 (fmul m1 m2)))) (fmul K2 K2))
       (fadd (fadd (fmul c (fsub e11 (fmul m1 m1))) (fmul c (fsub e22 (fmul m2 m2)))) (fmul K2 K2)).

(** y is x with the axes al halved (rounding down), each pixel the mean of a block of 2 x ... x 2. *)
Definition halves {F : ofield} (al : list nat) (x y : tensor F) : Prop :=
  shp y = halved al 1 (shp x) /\
  forall j, valid (shp y) j -> at_ y j =
    fdiv (bsum (repeat 2 (length al)) (fun o => at_ x (place al (repeat 2 (length al)) j o))) (fofZ (2 ^ Z.of_nat (length al))).
(** sc j is the mean, over the axes al, of the map g of the windowed moments of x and y. *)
Definition level_mean {F : ofield} (al : list nat) (kers : list (list F)) (g : F -> F -> F -> F -> F -> F) (x y : tensor F) (sc : list Z -> F) : Prop :=
  let E z j := correlation al kers (repeat 1 (length al)) z j in
  exists full : tensor F, ndim full = ndim x /\
    (forall r, (r < length al)%nat -> nth (nth r al 0%nat) (shp full) 0 = nth (nth r al 0%nat) (shp x) 0 - Z.max 1 (klen (nth r kers [])) + 1) /\
    (forall d, ~ In d al -> nth d (shp full) 0 = nth d (shp x) 0) /\
    (forall j, valid (shp full) j -> at_ full j = g (E x j) (E y j) (E (prodt x x) j) (E (prodt y y) j) (E (prodt x y) j)) /\
    (forall j L, valid (ones_at al (shp x)) j -> block_of (shp full) al (outside al j) L ->
       0 < Z.of_nat (length L) /\ sc j = fdiv (lsum (map (at_ full) L)) (fofZ (Z.of_nat (length L)))).
(** The contribution of a level. *)
Definition weighted {F : ofield} (pow : F -> F -> F) (m : msssim F) (w v : F) : F :=
  if ms_prod m then pow (if fleb (ms_eps m) v then v else ms_eps m) w else fmul v w.
Definition joined {F : ofield} (m : msssim F) (u v : F) : F := if ms_prod m then fmul u v else fadd u v.
(** v j is the score of x and y for the weights ws: every level but the last contributes its contrast and
    structure part and is halved for the next. *)
Fixpoint levels_value {F : ofield} (al : list nat) (kers : list (list F)) (K1 K2 c : F) (pow : F -> F -> F) (m : msssim F)
    (ws : list F) (x y : tensor F) (v : list Z -> F) : Prop :=
  match ws with
  | [] => False
  | [w] => exists sc, level_mean al kers (ssim_at K1 K2 c) x y sc /\ forall j, valid (ones_at al (shp x)) j -> v j = weighted pow m w (sc j)
  | w :: ws' => exists sc x' y' v', level_mean al kers (cs_at K2 c) x y sc /\ halves al x x' /\ halves al y y' /\
      levels_value al kers K1 K2 c pow m ws' x' y' v' /\
      forall j, valid (ones_at al (shp x)) j -> v j = joined m (weighted pow m w (sc j)) (v' j)
  end.

Section MV.
Variable F : ofield.
Add Field Fmv : (f_field F).
Notation T := (tensor F).

Section Run.
Variables (fuel : nat) (junk : list Z -> F) (b : pool F) (al : list nat) (kers : list (list F)).
Variables (K1 K2 : F) (crop : bool) (c : F) (pow : F -> F -> F) (m : msssim F).
Hypothesis Hal : al <> [].
Notation level := (level F fuel junk b al kers None).
Notation levels := (levels F fuel junk b al kers None).
Notation level_scored := (level_scored F fuel junk b al kers None crop).
Notation csn := (cs_n F fuel junk al kers None K2 c).
Notation csd := (cs_d F fuel junk al kers None K2 c).
Notation ssn := (ss_n F fuel junk al kers None K1 K2 c).
Notation ssd := (ss_d F fuel junk al kers None K1 K2 c).
Notation trace := (trace F fuel junk b al kers None K2 crop c pow m).

Lemma kept_ones sh : kept_shape al sh = ones_at al sh.
Proof. unfold kept_shape. now rewrite reduced_some. Qed.

Lemma scored_mean n d g (y1 y2 score : T) : level (shp y1) -> level_scored n d y1 y2 score ->
  (forall ws j, let E z j := correlation al kers (repeat 1 (length al)) z j in
     fdiv (n ws y1 y2 j) (d ws y1 y2 j) = g (E y1 j) (E y2 j) (E (prodt y1 y1) j) (E (prodt y2 y2) j) (E (prodt y1 y2) j)) ->
  level_mean al kers g y1 y2 (at_ score) /\ shp score = ones_at al (shp y1).
Proof.
  intros Lv [psh [osh [ws [BF [full [cr [S [V [Co [Pc M]]]]]]]]]] Hg. cbv zeta in Hg.
  assert (Pe : psh = shp y1) by (rewrite <- (bf_psh _ _ _ _ _ _ _ _ _ _ BF y1 eq_refl); reflexivity).
  assert (Nf : ndim full = ndim y1) by (unfold ndim; rewrite S; eapply (osh_len F); eauto).
  pose proof (lv_axes _ _ _ _ _ _ _ _ Lv) as LA. pose proof (lv_nodup _ _ _ _ _ _ _ _ Lv) as ND.
  assert (Lf : forall a, In a al -> (a < ndim full)%nat) by (rewrite Nf; exact LA).
  assert (Tc : teq full cr).
  { eapply (crop_teq F); [| | |exact Co]; [exact Lf|apply teq_refl|apply crop_of_refl; auto]. }
  destruct Tc as [Tc Tv].
  assert (Lc : forall a, In a al -> (a < ndim cr)%nat) by (unfold ndim in *; rewrite <- Tc; exact Lf).
  destruct (tmean_ok F cr al true Lc ND) as [y' [Y1 [Y2 Y3]]].
  { rewrite (reduced_some _ _ Hal). intros a Ha. assert (1 <= nth a (shp cr) 0); [|lia]. apply Pc, nth_In, Lc, Ha. }
  rewrite M in Y1. injection Y1 as <-. rewrite (reduced_some _ _ Hal) in Y2, Y3.
  assert (So : shp score = ones_at al (shp y1)).
  { rewrite Y2, <- Tc. apply list_ext with (d := 0); [rewrite !ones_at_length; exact Nf|]. intros d0 _. rewrite !ones_at_nth by auto.
    destruct (existsb (Nat.eqb d0) al) eqn:E; auto. rewrite S. eapply (osh_other F); eauto. intros Hi.
    assert (existsb (Nat.eqb d0) al = true); [|congruence]. apply existsb_exists. exists d0. split; auto. apply Nat.eqb_refl. }
  split; [|exact So]. exists full. split; [exact Nf|]. split; [|split; [|split]].
  - intros r Hr. rewrite S, (osh_al F _ _ _ _ _ _ _ _ _ _ BF) by auto. now rewrite Pe.
  - intros d0 Hd. rewrite S, (osh_other F _ _ _ _ _ _ _ _ _ _ BF) by auto. reflexivity.
  - intros j Vj. rewrite S in Vj. destruct (V j Vj) as [_ ->]. apply Hg.
  - intros j L Vj B. rewrite Tc in B.
    assert (Vo : valid (outside al (shp cr)) (outside al j)).
    { rewrite <- (outside_ones al (shp cr)) by auto. rewrite <- Y2, So. apply outside_valid. exact Vj. }
    assert (Ll : Z.of_nat (length L) = red_count F cr al).
    { apply (block_length (shp cr) al (outside al j)); auto. intros q Hq; specialize (Pc q Hq); lia. }
    split.
    + rewrite Ll. apply count_pos. intros a Ha. assert (1 <= nth a (shp cr) 0); [|lia]. apply Pc, nth_In, Lc, Ha.
    + rewrite (Y3 j L B), Ll. f_equal. apply lsum_ext. intros i Hi. symmetry. apply Tv. rewrite Tc. apply (proj1 (proj2 B i) Hi).
Qed.
Lemma cs_mean (y1 y2 score : T) : level (shp y1) -> level_scored csn csd y1 y2 score ->
  level_mean al kers (cs_at K2 c) y1 y2 (at_ score) /\ shp score = ones_at al (shp y1).
Proof. intros L S. apply (scored_mean csn csd); auto. Qed.
Lemma ssim_mean (y1 y2 score : T) : level (shp y1) -> level_scored ssn ssd y1 y2 score ->
  level_mean al kers (ssim_at K1 K2 c) y1 y2 (at_ score) /\ shp score = ones_at al (shp y1).
Proof. intros L S. apply (scored_mean ssn ssd); auto. Qed.

Lemma zprod_two n : zprod (repeat 2 n) = 2 ^ Z.of_nat n.
Proof.
  induction n; [reflexivity|]. replace (Z.of_nat (S n)) with (Z.of_nat n + 1) by lia. rewrite Z.pow_add_r by lia. rewrite <- IHn. cbn [repeat]. unfold zprod. cbn [fold_right]. lia.
Qed.
Lemma downsample_halves (x y : T) : (forall a, In a al -> (a < ndim x)%nat) -> NoDup al -> (forall a, In a al -> 2 <= nth a (shp x) 0) ->
  downsample (avg_forward fuel junk true) x (map Z.of_nat al) = Ok y -> halves al x y.
Proof.
  intros A N P E. destruct (downsample_ok F fuel junk x al A N P) as [z [E' [S V]]]. rewrite E in E'. injection E' as <-. split; auto.
  intros j Vj. rewrite (V j Vj), zprod_two. reflexivity.
Qed.
Lemma level_score_at w (t : T) j : at_ (level_score pow m w t) j = weighted pow m w (at_ t j).
Proof. unfold level_score, weighted. destruct (ms_prod m); reflexivity. Qed.

Lemma trace_value wl score final : forall ws y1 y2 f r1 r2 rf, trace ws y1 y2 f r1 r2 rf -> forall t, rf = Some t -> shp y2 = shp y1 ->
  levels (Z.of_nat (length ws)) (shp y1) -> (forall u, f = Some u -> shp u = ones_at al (shp y1)) ->
  level_scored ssn ssd r1 r2 score -> add_score m (Some t) (level_score pow m wl score) = Ok final ->
  exists v, levels_value al kers K1 K2 c pow m (ws ++ [wl]) y1 y2 v /\ shp final = ones_at al (shp y1) /\
    forall j, valid (ones_at al (shp y1)) j -> at_ final j = match f with None => v j | Some u => joined m (at_ u j) (v j) end.
Proof.
  induction 1 as [y1 y2 f|w ws y1 y2 f sc g z1 z2 r1 r2 rf LS Ss A D1 D2 Tr IH]; intros t Et Hs Lv Hf LSc AS.
  - subst f. cbn [app levels_value]. pose proof (levels_here _ _ _ _ _ _ _ _ _ (Z.le_refl 0) Lv) as L0.
    destruct (ssim_mean _ _ _ L0 LSc) as [Q1 Q2].
    exists (fun j => weighted pow m wl (at_ score j)). split; [exists (at_ score); auto|].
    destruct (add_score_ok F m (Some t) (level_score pow m wl score)) as [q [R1 [R2 R3]]].
    { intros u [= <-]. rewrite level_score_shape, Q2. auto. }
    rewrite AS in R1. injection R1 as <-. rewrite level_score_shape in R2, R3. split; [congruence|].
    intros j Vj. rewrite R3 by (now rewrite Q2). rewrite level_score_at. reflexivity.
  - cbn [length] in Lv. replace (Z.of_nat (S (length ws))) with (Z.of_nat (length ws) + 1) in Lv by lia.
    pose proof (levels_here _ _ _ _ _ _ _ _ _ (ltac:(lia) : 0 <= Z.of_nat (length ws) + 1) Lv) as L0.
    pose proof (lv_axes _ _ _ _ _ _ _ _ L0) as LA. pose proof (lv_nodup _ _ _ _ _ _ _ _ L0) as ND.
    assert (T2 : forall a, In a al -> 2 <= nth a (shp y1) 0) by (intros a Ha; eapply levels_two with (n := Z.of_nat (length ws)); eauto; lia).
    assert (H1 : halves al y1 z1) by (apply downsample_halves; auto).
    assert (H2 : halves al y2 z2) by (apply downsample_halves; auto; [unfold ndim; rewrite Hs; exact LA|now rewrite Hs]).
    destruct (cs_mean _ _ _ L0 LS) as [Q1 Q2].
    destruct (add_score_ok F m f (level_score pow m w sc)) as [q [R1 [R2 R3]]].
    { intros u Eu. rewrite level_score_shape, Q2. auto. }
    rewrite A in R1. injection R1 as <-. rewrite level_score_shape in R2, R3.
    assert (Ko : ones_at al (shp z1) = ones_at al (shp y1)).
    { rewrite <- !kept_ones. rewrite (proj1 H1). apply kept_half. exact LA. }
    destruct (IH t Et) as [v [V1 [V2 V3]]]; auto.
    + rewrite (proj1 H1), (proj1 H2). now rewrite Hs.
    + rewrite (proj1 H1). apply levels_next; auto. lia.
    + intros u [= <-]. congruence.
    + exists (fun j => joined m (weighted pow m w (at_ sc j)) (v j)). split; [|split; [congruence|]].
      * change ((w :: ws) ++ [wl]) with (w :: (ws ++ [wl])). cbn [levels_value]. destruct (ws ++ [wl]) as [|w' ws'] eqn:Ew; [destruct ws; discriminate|].
        exists (at_ sc), z1, z2, v. auto 8.
      * intros j Vj. rewrite V3 by (now rewrite Ko). rewrite R3 by (now rewrite Q2). rewrite level_score_at. unfold joined.
        destruct f as [u|]; destruct (ms_prod m); reflexivity || ring.
Qed.
End Run.

Theorem ms_value fuel junk (s : ssim F) (x y : T) cax rax al rl kers pow (m : msssim F) score : ms_call fuel s x y cax rax al rl kers None -> al <> [] -> rl <> [] -> ms_weights m <> [] ->
  snd (ms_forward (sep_forward fuel junk) pow (avg_forward fuel junk true) m x y cax rax s) = Ok score ->
  let n := zprod (map klen kers) in
  let c := if ss_sample s then fdiv (fofZ n) (fofZ (n - 1)) else f1 in
  exists v, levels_value al kers (ss_K1 s) (ss_K2 s) c pow m (ms_weights m) x y v /\
    shp score = outside rl (ones_at al (shp x)) /\
    forall j L, valid (shp score) j -> block_of (ones_at al (shp x)) rl j L ->
      0 < Z.of_nat (length L) /\ at_ score j = fdiv (lsum (map v L)) (fofZ (Z.of_nat (length L))).
Proof.
  intros MC Hal Hrl Hw R n c.
  assert (LE : large_enough (Z.of_nat (length (ms_weights m))) kers al (shp x)).
  { intros r Hr. destruct (Z.lt_ge_cases (klen (nth r kers []) * 2 ^ (Z.of_nat (length (ms_weights m)) - 1)) (nth (nth r al 0%nat) (shp x) 0)) as [|Hge]; auto.
    exfalso. rewrite (forward_fails F fuel junk s x y cax rax al rl kers None MC pow m r Hw Hr Hge) in R. discriminate. }
  destruct (forward_run F fuel junk s x y cax rax al rl kers None MC pow m Hw LE) as [c' [_ [Lv [Sc [[w [_ E]]|[[final [score' [L2 [Rn [Af [Pf [M E]]]]]]]|[E _]]]]]]]; rewrite R in E; try discriminate.
  injection E as <-.
  destruct (scale_ok F s (length al) kers _ None (mc_blur _ _ _ _ _ _ _ _ _ _ MC) (mc_scale _ _ _ _ _ _ _ _ _ _ MC)) as [c2 [Sc1 [_ Sc3]]].
  rewrite (Sc1 (map Z.of_nat al) (map_length _ _)) in Sc. injection Sc as Sc. fold n in Sc3. fold c in Sc3. rewrite Sc3 in Sc. clear c2 Sc1 Sc3. subst c'.
  destruct Rn as [r1 [r2 [t [sc [Tr [_ [_ [LS [_ [_ [AS Sf]]]]]]]]]]].
  pose proof (removelast_length (ms_weights m)) as Lr.
  destruct (trace_value fuel junk (ss_blur s) al kers (ss_K1 s) (ss_K2 s) (ss_crop s) c pow m Hal (last (ms_weights m) f0) sc final _ _ _ _ _ _ _ Tr t eq_refl (mc_shape _ _ _ _ _ _ _ _ _ _ MC)) as [v [V1 [V2 V3]]]; auto.
  { replace (Z.of_nat (length (removelast (ms_weights m)))) with (Z.of_nat (length (ms_weights m)) - 1) by lia. exact Lv. }
  { intros u E. discriminate. }
  rewrite <- (app_removelast_last f0 Hw) in V1. exists v. split; auto.
  pose proof (mc_reduce _ _ _ _ _ _ _ _ _ _ MC) as OR.
  destruct (tmean_ok F final rl false Af (oa_distinct _ _ _ OR)) as [y' [Y1 [Y2 Y3]]].
  { rewrite (reduced_some _ _ Hrl). intros a Ha. assert (1 <= nth a (shp final) 0); [|lia]. apply Pf, nth_In, Af, Ha. }
  rewrite M in Y1. injection Y1 as <-. rewrite (reduced_some _ _ Hrl) in Y2, Y3. split; [congruence|].
  intros j L Vj B. rewrite <- V2 in B.
  assert (Ll : Z.of_nat (length L) = red_count F final rl).
  { apply (block_length (shp final) rl j); auto; [apply (oa_distinct _ _ _ OR)|intros q Hq; specialize (Pf q Hq); lia|]. now rewrite <- Y2. }
  split.
  - rewrite Ll. apply count_pos. intros a Ha. assert (1 <= nth a (shp final) 0); [|lia]. apply Pf, nth_In, Af, Ha.
  - rewrite (Y3 j L B), Ll. f_equal. apply lsum_ext. intros i Hi. apply V3. rewrite <- V2. apply (proj1 (proj2 B i) Hi).
Qed.
End MV.
