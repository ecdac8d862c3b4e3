(** MS_SSIM of images with changed contrast (C111). *)
From Verif Require Export SsimLaws MsForward.
Open Scope Z_scope.

(** x' is a times x. *)
Definition times {F : ofield} (a : F) (x x' : tensor F) : Prop := shp x' = shp x /\ forall i, valid (shp x) i -> at_ x' i = fmul a (at_ x i).

Section ML.
Variable F : ofield.
Add Field Fmlaws : (f_field F).
Notation T := (tensor F).

Section Scale.
Variables (fuel : nat) (junk : list Z -> F) (b : pool F) (al : list nat) (kers : list (list F)) (pd : option (padder F)).
Variables (K1 K2 K1' K2' : F) (crop : bool) (c a : F) (pow : F -> F -> F) (m : msssim F).
Hypothesis LM : match pd with None => True | Some p => every_axis (length al) p linear_mode end.
Hypothesis Ha : a <> f0.
Hypothesis HK1 : fmul K1' K1' = fmul (fmul a a) (fmul K1 K1).
Hypothesis HK2 : fmul K2' K2' = fmul (fmul a a) (fmul K2 K2).
Notation axes := (map Z.of_nat al).
Notation level := (level F fuel junk b al kers pd).
Notation levels := (levels F fuel junk b al kers pd).
Notation level_scored := (level_scored F fuel junk b al kers pd crop).
Notation level_zero := (level_zero F fuel junk b al kers pd).
Notation csn := (cs_n F fuel junk al kers pd K2 c).
Notation csd := (cs_d F fuel junk al kers pd K2 c).
Notation ssn := (ss_n F fuel junk al kers pd K1 K2 c).
Notation ssd := (ss_d F fuel junk al kers pd K1 K2 c).
Notation csn' := (cs_n F fuel junk al kers pd K2' c).
Notation csd' := (cs_d F fuel junk al kers pd K2' c).
Notation ssn' := (ss_n F fuel junk al kers pd K1' K2' c).
Notation ssd' := (ss_d F fuel junk al kers pd K1' K2' c).
Notation kept := (kept_shape al).
Notation pyr := (pyr F fuel junk al).
Notation trace := (trace F fuel junk b al kers pd K2 crop c pow m).
Notation trace' := (MsLoop.trace F fuel junk b al kers pd K2' crop c pow m).
Notation ms_run := (ms_run F fuel junk b al kers pd K1 K2 crop c pow m).
Notation ms_run' := (MsLoop.ms_run F fuel junk b al kers pd K1' K2' crop c pow m).
Notation ms_zero := (ms_zero F fuel junk b al kers pd K1 K2 c m).
Notation ms_zero' := (MsLoop.ms_zero F fuel junk b al kers pd K1' K2' c m).

(** Two maps whose numerators and denominators are in a fixed nonzero ratio. *)
Definition in_ratio (n d n' d' : list (Z * Z) -> T -> T -> list Z -> F) (y1 y2 y1' y2' : T) : Prop :=
  forall psh osh ws j, blur_facts fuel junk b al kers pd (shp y1) psh osh ws -> valid osh j ->
    exists q, q <> f0 /\ n' ws y1' y2' j = fmul q (n ws y1 y2 j) /\ d' ws y1' y2' j = fmul q (d ws y1 y2 j).

Lemma moments_scale (y1 y2 y1' y2' : T) : shp y2 = shp y1 -> times a y1 y1' -> times a y2 y2' ->
  in_ratio csn csd csn' csd' y1 y2 y1' y2' /\ in_ratio ssn ssd ssn' ssd' y1 y2 y1' y2'.
Proof.
  intros Hs [S1 V1] [S2 V2].
  assert (Haa : fmul a a <> f0) by (intros Z; apply fmul_integral in Z; destruct Z; auto).
  assert (Q : forall psh osh ws j, blur_facts fuel junk b al kers pd (shp y1) psh osh ws -> valid osh j ->
     let E := blur_at fuel junk al kers pd ws in E y1' j = fmul a (E y1 j) /\ E y2' j = fmul a (E y2 j) /\
     E (prodt y1' y2') j = fmul (fmul a a) (E (prodt y1 y2) j) /\ E (prodt y1' y1') j = fmul (fmul a a) (E (prodt y1 y1) j) /\
     E (prodt y2' y2') j = fmul (fmul a a) (E (prodt y2 y2) j)).
  { intros psh osh ws j BF Vj E.
    assert (Q : forall k u w, shp u = shp y1 -> shp w = shp y1 -> (forall i, valid (shp y1) i -> at_ w i = fmul k (at_ u i)) -> E w j = fmul k (E u j)).
    { intros k u w Hu Hw H. unfold E. rewrite (blur_comb F _ _ _ _ _ _ _ _ _ _ BF LM j k f0 u u w Vj Hu); [ring|]. split; [auto|]. split; [congruence|]. intros i Vi. rewrite H by congruence. ring. }
    rewrite Hs in V2, S2. split; [apply Q; auto|]. split; [apply Q; auto|].
    split; [|split]; apply Q; auto; intros i Vi; cbn; rewrite ?V1, ?V2 by auto; ring. }
  split; intros psh osh ws j BF Vj; destruct (Q psh osh ws j BF Vj) as [E1 [E2 [E12 [E11 E22]]]]; cbv zeta in *.
  - exists (fmul a a). split; auto. unfold cs_n, cs_d. cbv zeta. rewrite E1, E2, E12, E11, E22, HK2. unfold cs_num, cs_den. split; ring.
  - exists (fmul (fmul a a) (fmul a a)). split; [intros Z; apply fmul_integral in Z; destruct Z; auto|].
    unfold ss_n, ss_d. cbv zeta. rewrite E1, E2, E12, E11, E22, HK1, HK2. unfold ssim_num, ssim_den, lum_den, cs_num, cs_den. split; ring.
Qed.

Lemma score_ratio n d n' d' y1 y2 y1' y2' score score' : in_ratio n d n' d' y1 y2 y1' y2' -> shp y1' = shp y1 -> level (shp y1) ->
  level_scored n d y1 y2 score -> level_scored n' d' y1' y2' score' -> teq score score'.
Proof.
  intros Sw Hs L [psh [osh [ws [BF [full [cr [S [V [C [P M]]]]]]]]]] [psh' [osh' [ws' [BF' [full' [cr' [S' [V' [C' [P' M']]]]]]]]]].
  rewrite Hs in BF'. destruct (facts_unique F _ _ _ _ _ _ _ _ _ _ _ _ _ BF BF') as [-> [-> ->]].
  assert (TF : teq full full').
  { split; [congruence|]. intros j Vj. rewrite S in Vj. destruct (V j Vj) as [N1 ->]. destruct (V' j Vj) as [N2 ->]. destruct (Sw psh osh ws j BF Vj) as [q [Hq [-> ->]]]. field. auto. }
  assert (Lf : forall e, In e al -> (e < ndim full)%nat) by (intros e He; unfold ndim; rewrite S, (osh_len _ _ _ _ _ _ _ _ _ _ _ BF); apply (lv_axes _ _ _ _ _ _ _ _ L); auto).
  pose proof (crop_teq F _ _ _ _ _ _ Lf TF C C') as TC.
  destruct (tmean_teq F cr cr' al true) as [t1 [t2 [E1 [E2 TT]]]]; auto.
  - rewrite (co_nd _ _ _ _ _ C). exact Lf.
  - apply (lv_nodup _ _ _ _ _ _ _ _ L).
  - rewrite M in E1. injection E1 as <-. rewrite M' in E2. injection E2 as <-. exact TT.
Qed.
Lemma zero_ratio n d n' d' y1 y2 y1' y2' : in_ratio n d n' d' y1 y2 y1' y2' -> shp y1' = shp y1 -> (level_zero d' y1' y2' <-> level_zero d y1 y2).
Proof.
  intros Sw Hs. split; intros [psh [osh [ws [j [BF [Vj Z]]]]]].
  - rewrite Hs in BF. exists psh, osh, ws, j. split; auto. split; auto. destruct (Sw psh osh ws j BF Vj) as [q [Hq [_ E]]]. rewrite E in Z. apply fmul_integral in Z. destruct Z; [contradiction|auto].
  - exists psh, osh, ws, j. split; [now rewrite Hs|]. split; auto. destruct (Sw psh osh ws j BF Vj) as [q [Hq [_ ->]]]. rewrite Z. ring.
Qed.

Lemma half_valid (sh j o : list Z) : (forall e, In e al -> (e < length sh)%nat) -> NoDup al -> valid (halved al 1 sh) j -> valid (repeat 2 (length al)) o ->
  valid sh (place al (repeat 2 (length al)) j o).
Proof.
  intros A N Vj Vo. assert (Lj := valid_length _ _ Vj). rewrite halved_length in Lj. apply valid_iff. rewrite place_length. split; auto. intros d Hd.
  pose proof (valid_nth _ _ d Vj) as Q. rewrite halved_length in Q. specialize (Q Hd). destruct (in_dec Nat.eq_dec d al) as [Hi|Hi].
  - destruct (In_pos d al 0%nat Hi) as [r [Hr <-]]. rewrite halved_in in Q by auto. rewrite place_nth; auto.
    + rewrite (nth_indep (repeat 2 (length al)) 1 2) by (now rewrite repeat_length). rewrite nth_repeat.
      pose proof (valid_nth _ _ r Vo) as W. rewrite repeat_length in W. specialize (W Hr). rewrite (nth_indep (repeat 2 _) 0 2) in W by (now rewrite repeat_length). rewrite nth_repeat in W.
      replace (2 ^ 1) with 2 in Q by reflexivity. Z.div_mod_to_equations. lia.
    + intros e He. rewrite Lj. auto.
    + now rewrite repeat_length.
    + rewrite (valid_length _ _ Vo). now rewrite repeat_length.
  - rewrite place_notin by auto. rewrite halved_notin in Q by auto. exact Q.
Qed.
Lemma down_scale (x x' y y' : T) : (forall e, In e al -> (e < ndim x)%nat) -> NoDup al -> (forall e, In e al -> 2 <= nth e (shp x) 0) -> times a x x' ->
  downsample (avg_forward fuel junk true) x axes = Ok y -> downsample (avg_forward fuel junk true) x' axes = Ok y' -> times a y y' /\ shp y = halved al 1 (shp x).
Proof.
  intros L N P [S V] E E'. destruct (downsample_ok F fuel junk x al L N P) as [u [U1 [U2 U3]]]. rewrite E in U1. injection U1 as <-.
  destruct (downsample_ok F fuel junk x' al) as [v [V1 [V2 V3]]]; [unfold ndim; now rewrite S|auto|now rewrite S|]. rewrite E' in V1. injection V1 as <-.
  split; [|exact U2]. split; [congruence|]. intros j Vj. rewrite U3 by auto. rewrite V3 by (rewrite V2, S, <- U2; auto).
  rewrite (bsum_ext _ _ _ (fun o => fmul a (at_ x (place al (repeat 2 (length al)) j o)))).
  - rewrite bsum_mul. rewrite !(Fdiv_def (f_field F)). ring.
  - intros o Vo. apply V. apply half_valid; auto. now rewrite <- U2.
Qed.
Lemma pyr_scale i : forall n x x' z z', times a x x' -> pyr i x z -> pyr i x' z' -> levels n (shp x) -> Z.of_nat i <= n -> times a z z' /\ shp z = halved al (Z.of_nat i) (shp x).
Proof.
  induction i as [|i IH]; intros n x x' z z' H A B Lv Hn; inversion A; subst; inversion B; subst.
  - split; auto. cbn. now rewrite halved_0.
  - assert (L0 : level (shp x)) by (eapply levels_here; [|exact Lv]; lia).
    assert (Lv' : levels (n - 1 + 1) (shp x)) by (now replace (n - 1 + 1) with n by lia).
    destruct (down_scale x x' y y0) as [D1 D2]; auto.
    + exact (lv_axes _ _ _ _ _ _ _ _ L0).
    + exact (lv_nodup _ _ _ _ _ _ _ _ L0).
    + intros e He. eapply levels_two with (n := n - 1); eauto. lia.
    + destruct (IH (n - 1) y y0 z z') as [Q1 Q2]; auto; [rewrite D2; apply levels_next; auto; lia|lia|].
      split; auto. rewrite Q2, D2, halved_add by lia. f_equal. lia.
Qed.

Lemma trace_scale ws : forall y1 y2 f r1 r2 rf, trace ws y1 y2 f r1 r2 rf -> forall y1' y2' f' r1' r2' rf', trace' ws y1' y2' f' r1' r2' rf' -> shp y2 = shp y1 ->
  times a y1 y1' -> times a y2 y2' ->
  levels (Z.of_nat (length ws)) (shp y1) -> match f, f' with None, None => True | Some u, Some u' => teq u u' /\ shp u = kept (shp y1) | _, _ => False end ->
  times a r1 r1' /\ times a r2 r2' /\ shp r2 = shp r1 /\ shp r1 = halved al (Z.of_nat (length ws)) (shp y1) /\
  match rf, rf' with None, None => True | Some u, Some u' => teq u u' /\ shp u = kept (shp y1) | _, _ => False end.
Proof.
  induction 1 as [y1 y2 f|w ws y1 y2 f score g z1 z2 r1 r2 rf LS Ss A D1 D2 Tr IH]; intros y1' y2' f' r1' r2' rf' H' Hs T1 T2 Lv Hf.
  - inversion H'; subst. cbn [length]. rewrite halved_0. auto 8.
  - inversion H' as [|w0 ws0 a1 a2 f0' score' g' x1 x2 b1 b2 bf LS' Ss' A' D1' D2' Tr']; subst.
    cbn [length] in Lv. replace (Z.of_nat (S (length ws))) with (Z.of_nat (length ws) + 1) in Lv by lia.
    pose proof (levels_here _ _ _ _ _ _ _ _ _ (ltac:(lia) : 0 <= Z.of_nat (length ws) + 1) Lv) as L0.
    pose proof (lv_axes _ _ _ _ _ _ _ _ L0) as LA. pose proof (lv_nodup _ _ _ _ _ _ _ _ L0) as ND.
    assert (G2 : forall e, In e al -> 2 <= nth e (shp y1) 0) by (intros e He; eapply levels_two with (n := Z.of_nat (length ws)); eauto; lia).
    destruct (down_scale y1 y1' z1 x1 LA ND G2 T1 D1 D1') as [T1' S1].
    destruct (down_scale y2 y2' z2 x2) as [T2' S2]; auto; [unfold ndim; rewrite Hs; exact LA|now rewrite Hs|].
    assert (TS : teq score score').
    { apply (score_ratio csn csd csn' csd' y1 y2 y1' y2'); auto; [|apply T1]. apply moments_scale; auto. }
    assert (TG : teq g g').
    { eapply add_score_teq; [apply level_score_teq; exact TS| |exact A|exact A']. destruct f as [u|], f' as [u'|]; auto. rewrite level_score_shape, Ss. auto. }
    destruct (IH x1 x2 (Some g') r1' r2' rf' Tr') as [R1 [R2 [R3 [R4 R5]]]]; auto.
    + now rewrite S1, S2, Hs.
    + rewrite S1. apply levels_next; auto. lia.
    + split; auto. rewrite S1, kept_half by auto. destruct (add_score_ok F m f (level_score pow m w score)) as [q [Q1 [Q2 _]]].
      { intros u ->. rewrite level_score_shape, Ss. destruct f' as [u'|]; [apply Hf|contradiction]. }
      rewrite A in Q1. injection Q1 as <-. rewrite Q2, level_score_shape. exact Ss.
    + split; auto. split; auto. split; auto. split; [rewrite R4, S1, halved_add by lia; f_equal; cbn [length]; lia|].
      rewrite S1, kept_half in R5 by auto. exact R5.
Qed.

Lemma run_scale y1 y2 y1' y2' final final' : shp y2 = shp y1 -> times a y1 y1' -> times a y2 y2' -> ms_weights m <> [] -> levels (Z.of_nat (length (ms_weights m)) - 1) (shp y1) ->
  ms_run y1 y2 final -> ms_run' y1' y2' final' -> teq final final'.
Proof.
  intros Hs T1 T2 Hw Lv [r1 [r2 [t [score [Tr [_ [_ [LS [Ss [Sr [A Sf]]]]]]]]]]] [r1' [r2' [t' [score' [Tr' [_ [_ [LS' [Ss' [Sr' [A' Sf']]]]]]]]]]].
  assert (L1 : (1 <= length (ms_weights m))%nat) by (destruct (ms_weights m); [congruence|cbn; lia]).
  pose proof (removelast_length (ms_weights m)) as Lr.
  replace (Z.of_nat (length (ms_weights m)) - 1) with (Z.of_nat (length (removelast (ms_weights m)))) in Lv by lia.
  destruct (trace_scale _ _ _ _ _ _ _ Tr _ _ _ _ _ _ Tr' Hs T1 T2 Lv I) as [R1 [R2 [R3 [R4 [R5 R6]]]]].
  assert (L0 : level (shp r1)) by (rewrite R4; apply Lv; lia).
  assert (TS : teq score score').
  { apply (score_ratio ssn ssd ssn' ssd' r1 r2 r1' r2'); auto; [|apply R1]. apply moments_scale; auto. }
  eapply add_score_teq; [apply level_score_teq; exact TS| |exact A|exact A']. rewrite level_score_shape, Ss. auto.
Qed.
(** A level where the second run has a zero divisor is one where the first has. *)
Lemma run_scale_zero y1 y2 y1' y2' final : shp y2 = shp y1 -> times a y1 y1' -> times a y2 y2' -> ms_weights m <> [] -> levels (Z.of_nat (length (ms_weights m)) - 1) (shp y1) ->
  ms_run y1 y2 final -> ~ ms_zero' y1' y2'.
Proof.
  intros Hs T1 T2 Hw Lv Rn [i [z1' [z2' [P1' [P2' [S1 [S2 Zr]]]]]]].
  assert (L1 : (1 <= length (ms_weights m))%nat) by (destruct (ms_weights m); [congruence|cbn; lia]).
  assert (Hi : (i < length (ms_weights m))%nat) by (destruct Zr as [[? _]|[? _]]; lia).
  assert (EX : exists z1 z2, pyr i y1 z1 /\ pyr i y2 z2).
  { clear - Lv Hi Hs c. remember (Z.of_nat (length (ms_weights m)) - 1) as n. assert (Hn : Z.of_nat i <= n) by lia. clear Heqn Hi. revert n y1 y2 Hs Lv Hn.
    induction i as [|i IH]; intros n y1 y2 Hs Lv Hn; [exists y1, y2; split; constructor|].
    assert (L0 : level (shp y1)) by (eapply levels_here; [|exact Lv]; lia).
    assert (Lv' : levels (n - 1 + 1) (shp y1)) by (now replace (n - 1 + 1) with n by lia).
    assert (G2 : forall e, In e al -> 2 <= nth e (shp y1) 0) by (intros e He; eapply levels_two with (n := n - 1); eauto; lia).
    destruct (downsample_ok F fuel junk y1 al (lv_axes _ _ _ _ _ _ _ _ L0) (lv_nodup _ _ _ _ _ _ _ _ L0) G2) as [u1 [U1 [U2 _]]].
    destruct (downsample_ok F fuel junk y2 al) as [u2 [W1 [W2 _]]]; [unfold ndim; rewrite Hs; exact (lv_axes _ _ _ _ _ _ _ _ L0)|exact (lv_nodup _ _ _ _ _ _ _ _ L0)|now rewrite Hs|].
    destruct (IH (n - 1) u1 u2) as [z1 [z2 [Z1 Z2]]]; [congruence|rewrite U2; apply levels_next; auto; lia|lia|].
    exists z1, z2. split; econstructor; eauto. }
  destruct EX as [z1 [z2 [P1 P2]]].
  destruct (pyr_scale i _ _ _ _ _ T1 P1 P1' Lv) as [Q1 Q1s]; [lia|]. destruct (pyr_scale i (Z.of_nat (length (ms_weights m)) - 1) _ _ _ _ T2 P2 P2') as [Q2 Q2s]; [now rewrite Hs|lia|].
  assert (Hz : shp z2 = shp z1) by congruence.
  destruct (moments_scale z1 z2 z1' z2' Hz Q1 Q2) as [MC MS].
  destruct Rn as [r1 [r2 [t [score [Tr [R1 [R2 [LS _]]]]]]]]. destruct Zr as [[Hi' Zr]|[Hi' Zr]].
  - apply (zero_ratio _ _ _ _ _ _ _ _ MC (proj1 Q1)) in Zr.
    assert (HS : exists sc, level_scored csn csd z1 z2 sc).
    { eapply trace_at; [exact Tr| |exact P1|exact P2]. rewrite removelast_length. lia. }
    destruct HS as [sc SC]. revert Zr. eapply scored_nonzero. exact SC.
  - apply (zero_ratio _ _ _ _ _ _ _ _ MS (proj1 Q1)) in Zr. replace (pred (length (ms_weights m))) with i in * by lia.
    assert (E1 : r1 = z1) by (eapply pyr_fun; eauto). assert (E2 : r2 = z2) by (eapply pyr_fun; eauto). subst r1 r2.
    revert Zr. eapply scored_nonzero. exact LS.
Qed.
End Scale.

(** Both images times a, with K1 and K2 times a (or minus a). *)
Theorem ms_scale fuel junk (s s' : ssim F) (x y x' y' : T) cax rax al rl kers pd pow (m : msssim F) a : ms_call fuel s x y cax rax al rl kers pd -> (2 <= length (ms_weights m))%nat ->
  match pd with None => True | Some p => every_axis (length al) p linear_mode end -> a <> f0 ->
  ss_blur s' = ss_blur s -> ss_sample s' = ss_sample s -> ss_crop s' = ss_crop s ->
  fmul (ss_K1 s') (ss_K1 s') = fmul (fmul a a) (fmul (ss_K1 s) (ss_K1 s)) -> fmul (ss_K2 s') (ss_K2 s') = fmul (fmul a a) (fmul (ss_K2 s) (ss_K2 s)) ->
  times a x x' -> times a y y' ->
  same_result (snd (ms_forward (sep_forward fuel junk) pow (avg_forward fuel junk true) m x y cax rax s)) (snd (ms_forward (sep_forward fuel junk) pow (avg_forward fuel junk true) m x' y' cax rax s')).
Proof.
  intros MC H2 LM Ha Eb Es Ec K1 K2 T1 T2. assert (Hw : ms_weights m <> []) by (destruct (ms_weights m); [cbn in H2; lia|discriminate]). pose proof (mc_shape _ _ _ _ _ _ _ _ _ _ MC) as Hs.
  pose proof (proj1 T1) as Hx. pose proof (proj1 T2) as Hy.
  assert (MC' : ms_call fuel s' x' y' cax rax al rl kers pd).
  { destruct MC as [A B C D E G H I]. constructor; auto.
    - congruence.
    - exact (on_axes_shape F x x' cax al Hx B).
    - exact (on_axes_shape F x x' rax rl Hx C).
    - now rewrite Eb.
    - destruct pd as [p|]; auto. destruct G as [ms G]. exists ms. exact (same_call_shape F fuel p x x' _ al ms kers _ Hx G).
    - now rewrite Hx.
    - now rewrite Es. }
  assert (D : large_enough (Z.of_nat (length (ms_weights m))) kers al (shp x) \/ exists r, (r < length al)%nat /\ nth (nth r al 0%nat) (shp x) 0 <= klen (nth r kers []) * 2 ^ (Z.of_nat (length (ms_weights m)) - 1)).
  { clear. unfold large_enough. induction (length al) as [|n IH]; [left; intros; lia|]. destruct IH as [IH|[r [Hr H]]]; [|right; exists r; auto].
    destruct (Z.lt_ge_cases (klen (nth n kers []) * 2 ^ (Z.of_nat (length (ms_weights m)) - 1)) (nth (nth n al 0%nat) (shp x) 0)).
    - left. intros r Hr. destruct (Nat.eq_dec r n) as [->|]; auto. apply IH. lia.
    - right. exists n. split; auto. }
  destruct D as [LE|[r [Hr H]]].
  2:{ rewrite (forward_fails F fuel junk s x y cax rax al rl kers pd MC pow m r Hw Hr H), (forward_fails F fuel junk s' x' y' cax rax al rl kers pd MC' pow m r Hw Hr) by (now rewrite Hx). reflexivity. }
  assert (LE' : large_enough (Z.of_nat (length (ms_weights m))) kers al (shp x')) by (now rewrite Hx).
  destruct (forward_run F fuel junk s x y cax rax al rl kers pd MC pow m Hw LE) as [c [Hc [Lv [S1 R]]]].
  destruct (forward_run F fuel junk s' x' y' cax rax al rl kers pd MC' pow m Hw LE') as [c' [Hc' [Lv' [S2 R']]]].
  assert (Ecc : scale_factor s' (map Z.of_nat al) = scale_factor s (map Z.of_nat al)) by (unfold scale_factor; now rewrite Eb, Es).
  rewrite Ecc, S1 in S2. injection S2 as <-. rewrite Eb, ?Ec in *.
  destruct R as [[w [W E]]|[[final [sc [L2 [Rn [Af [Pf [M E]]]]]]]|[E Z]]]; [rewrite W in H2; cbn in H2; lia| |];
    (destruct R' as [[w' [W' E']]|[[final' [sc' [L2' [Rn' [Af' [Pf' [M' E']]]]]]]|[E' Z']]]; [rewrite W' in H2; cbn in H2; lia| |]); rewrite E, E'; cbn [same_result]; auto.
  - pose proof (run_scale fuel junk (ss_blur s) al kers pd _ _ _ _ _ c a pow m LM Ha K1 K2 x y x' y' final final' Hs T1 T2 Hw Lv Rn Rn') as TT.
    destruct (tmean_teq F final final' rl false Af (oa_distinct _ _ _ (mc_reduce _ _ _ _ _ _ _ _ _ _ MC)) Pf TT) as [u [u' [U1 [U2 U3]]]]. congruence.
  - revert Z'. exact (run_scale_zero fuel junk (ss_blur s) al kers pd _ _ _ _ _ c a pow m LM Ha K1 K2 x y x' y' final Hs T1 T2 Hw Lv Rn).
  - (* the other direction: scale back by 1/a *)
    revert Z. assert (Hi : finv a <> f0). { intros Z. apply (F_1_neq_0 (f_field F)). transitivity (fmul a (finv a)); [field; auto|]. rewrite Z. ring. }
    assert (KI : forall k k' : F, fmul k' k' = fmul (fmul a a) (fmul k k) -> fmul k k = fmul (fmul (finv a) (finv a)) (fmul k' k')) by (intros k k' ->; field; auto).
    assert (TI : forall u u' : T, times a u u' -> times (finv a) u' u). { intros u u' [A B]. split; auto. intros i Vi. rewrite B by congruence. field. auto. }
    eapply (run_scale_zero fuel junk (ss_blur s) al kers pd (ss_K1 s') (ss_K2 s') (ss_K1 s) (ss_K2 s) (ss_crop s) c (finv a) pow m LM Hi (KI _ _ K1) (KI _ _ K2) x' y' x y final'); auto.
    congruence.
Qed.
End ML.
