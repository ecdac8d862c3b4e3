(** MS_SSIM.forward (C53, C54): symmetry; the size check. *)
From Verif Require Export MsLoop.
Open Scope Z_scope.

Section Sym.
Variable F : ofield.
Add Field Fmm : (f_field F).
Notation T := (tensor F).
Variables (fuel : nat) (junk : list Z -> F) (b : pool F) (al : list nat) (kers : list (list F)) (pd : option (padder F)).
Variables (K1 K2 : F) (sample crop : bool) (c : F).
Variable pow : F -> F -> F.
Variable m : msssim F.
Notation axes := (map Z.of_nat al).
Notation dfwd := (avg_forward fuel junk true).
Notation level := (level F fuel junk b al kers pd).
Notation levels := (levels F fuel junk b al kers pd).
Notation csn := (cs_n F fuel junk al kers pd K2 c).
Notation csd := (cs_d F fuel junk al kers pd K2 c).
Notation ssn := (ss_n F fuel junk al kers pd K1 K2 c).
Notation ssd := (ss_d F fuel junk al kers pd K1 K2 c).
Notation level_scored := (level_scored F fuel junk b al kers pd crop).
Notation level_zero := (level_zero F fuel junk b al kers pd).
Notation kept := (kept_shape al).
Notation pyr := (pyr F fuel junk al).
Notation trace := (trace F fuel junk b al kers pd K2 crop c pow m).
Notation ms_run := (ms_run F fuel junk b al kers pd K1 K2 crop c pow m).
Notation ms_zero := (ms_zero F fuel junk b al kers pd K1 K2 c m).

Lemma facts_unique sh psh osh ws psh' osh' ws' : blur_facts fuel junk b al kers pd sh psh osh ws -> blur_facts fuel junk b al kers pd sh psh' osh' ws' ->
  psh' = psh /\ osh' = osh /\ ws' = ws.
Proof.
  intros A B. destruct (bf_len _ _ _ _ _ _ _ _ _ _ A) as [A1 [A2 A3]]. destruct (bf_len _ _ _ _ _ _ _ _ _ _ B) as [B1 [B2 B3]].
  assert (W : ws' = ws).
  { apply list_ext with (d := (0, 0)); [lia|]. intros r Hr. rewrite B2 in Hr.
    destruct (bf_ws _ _ _ _ _ _ _ _ _ _ A r Hr) as [W1 [W2 W3]]. destruct (bf_ws _ _ _ _ _ _ _ _ _ _ B r Hr) as [V1 [V2 V3]].
    pose proof (bf_before _ _ _ _ _ _ _ _ _ _ A) as WA. pose proof (bf_before _ _ _ _ _ _ _ _ _ _ B) as WB. clear A B.
    assert (E : fst (nth r ws' (0, 0)) = fst (nth r ws (0, 0))).
    { destruct pd as [p|]; [|unfold pair_sum in *; lia]. specialize (WA p eq_refl). specialize (WB p eq_refl).
      change 0 with (fst (0, 0)) in WA. rewrite <- !(map_nth fst). congruence. }
    destruct (nth r ws (0, 0)) as [p q], (nth r ws' (0, 0)) as [p' q']. unfold pair_sum in *. cbn [fst snd] in *. subst p'. f_equal. lia. }
  subst ws'. assert (P : psh' = psh).
  { set (z := mkT sh (fun _ => f0) : T). rewrite <- (bf_psh _ _ _ _ _ _ _ _ _ _ A z eq_refl). symmetry. apply (bf_psh _ _ _ _ _ _ _ _ _ _ B z eq_refl). }
  subst psh'. split; auto. split; auto. rewrite (bf_osh _ _ _ _ _ _ _ _ _ _ A), (bf_osh _ _ _ _ _ _ _ _ _ _ B). reflexivity.
Qed.

Lemma cs_swap sh psh osh ws y1 y2 j : blur_facts fuel junk b al kers pd sh psh osh ws -> shp y1 = sh -> shp y2 = sh -> valid osh j ->
  csn ws y2 y1 j = csn ws y1 y2 j /\ csd ws y2 y1 j = csd ws y1 y2 j /\ ssn ws y2 y1 j = ssn ws y1 y2 j /\ ssd ws y2 y1 j = ssd ws y1 y2 j.
Proof.
  intros BF H1 H2 Vj.
  assert (Ex : blur_at fuel junk al kers pd ws (prodt y2 y1) j = blur_at fuel junk al kers pd ws (prodt y1 y2) j).
  { apply (bl_ext _ _ _ _ _ _ _ (bf_blurs _ _ _ _ _ _ _ _ _ _ BF)); auto. apply prodt_comm. congruence. }
  unfold cs_n, cs_d, ss_n, ss_d. cbv zeta. rewrite Ex. unfold ssim_num, ssim_den, lum_den, cs_num, cs_den. repeat split; ring.
Qed.

Lemma score_swap n d y1 y2 score score' : (forall ws psh osh j, blur_facts fuel junk b al kers pd (shp y1) psh osh ws -> valid osh j -> n ws y2 y1 j = n ws y1 y2 j /\ d ws y2 y1 j = d ws y1 y2 j) ->
  shp y2 = shp y1 -> level (shp y1) -> level_scored n d y1 y2 score -> level_scored n d y2 y1 score' -> teq score score'.
Proof.
  intros Sw Hs L [psh [osh [ws [BF [full [cr [S [V [C [P M]]]]]]]]]] [psh' [osh' [ws' [BF' [full' [cr' [S' [V' [C' [P' M']]]]]]]]]].
  rewrite Hs in BF'. destruct (facts_unique _ _ _ _ _ _ _ BF BF') as [-> [-> ->]].
  assert (TF : teq full full').
  { split; [congruence|]. intros j Vj. rewrite S in Vj. destruct (V j Vj) as [_ ->]. destruct (V' j Vj) as [_ ->]. destruct (Sw ws psh osh j BF Vj) as [-> ->]. reflexivity. }
  assert (Lf : forall a, In a al -> (a < ndim full)%nat) by (intros a Ha; unfold ndim; rewrite S, (osh_len _ _ _ _ _ _ _ _ _ _ _ BF); apply (lv_axes _ _ _ _ _ _ _ _ L); auto).
  pose proof (crop_teq F _ _ _ _ _ _ Lf TF C C') as TC.
  destruct (tmean_teq F cr cr' al true) as [t1 [t2 [E1 [E2 TT]]]]; auto.
  - rewrite (co_nd _ _ _ _ _ C). exact Lf.
  - apply (lv_nodup _ _ _ _ _ _ _ _ L).
  - rewrite M in E1. injection E1 as <-. rewrite M' in E2. injection E2 as <-. exact TT.
Qed.
Lemma level_score_teq w (t t' : T) : teq t t' -> teq (level_score pow m w t) (level_score pow m w t').
Proof. intros [S V]. unfold level_score. destruct (ms_prod m); split; cbn [clamp_min tmap shp at_]; auto; intros j Vj; now rewrite V. Qed.
Lemma add_score_teq (f f' : option T) t t' r r' : teq t t' -> match f, f' with None, None => True | Some u, Some u' => teq u u' /\ shp u = shp t | _, _ => False end ->
  add_score m f t = Ok r -> add_score m f' t' = Ok r' -> teq r r'.
Proof.
  intros [S V] H A A'. destruct f as [u|], f' as [u'|]; try contradiction.
  - destruct H as [[Su Vu] E]. destruct (add_score_ok F m (Some u) t) as [q [Q1 [Q2 Q3]]]. { intros x [= <-]. auto. } rewrite A in Q1. injection Q1 as <-.
    destruct (add_score_ok F m (Some u') t') as [q [Q1 [Q4 Q5]]]. { intros x [= <-]. congruence. } rewrite A' in Q1. injection Q1 as <-.
    split; [congruence|]. intros j Vj. rewrite Q2 in Vj. rewrite Q3 by auto. rewrite Q5 by congruence. rewrite V by auto. rewrite Vu by congruence. reflexivity.
  - cbn in A, A'. injection A as <-. injection A' as <-. split; auto.
Qed.

Lemma trace_swap ws : forall y1 y2 f r1 r2 rf, trace ws y1 y2 f r1 r2 rf -> forall f' r1' r2' rf', trace ws y2 y1 f' r1' r2' rf' -> shp y2 = shp y1 ->
  levels (Z.of_nat (length ws)) (shp y1) -> match f, f' with None, None => True | Some u, Some u' => teq u u' /\ shp u = kept (shp y1) | _, _ => False end ->
  r1' = r2 /\ r2' = r1 /\ shp r2 = shp r1 /\ shp r1 = halved al (Z.of_nat (length ws)) (shp y1) /\ match rf, rf' with None, None => True | Some u, Some u' => teq u u' /\ shp u = kept (shp y1) | _, _ => False end.
Proof.
  induction 1 as [y1 y2 f|w ws y1 y2 f score g z1 z2 r1 r2 rf LS Ss A D1 D2 Tr IH]; intros f' r1' r2' rf' H' Hs Lv Hf.
  - inversion H'; subst. cbn [length]. rewrite halved_0. auto 8.
  - inversion H' as [|w0 ws0 a1 a2 f0 score' g' x1 x2 b1 b2 bf LS' Ss' A' D1' D2' Tr']; subst. rewrite D2 in D1'. injection D1' as <-. rewrite D1 in D2'. injection D2' as <-.
    cbn [length] in Lv. replace (Z.of_nat (S (length ws))) with (Z.of_nat (length ws) + 1) in Lv by lia.
    pose proof (levels_here _ _ _ _ _ _ _ _ _ (ltac:(lia) : 0 <= Z.of_nat (length ws) + 1) Lv) as L0.
    pose proof (lv_axes _ _ _ _ _ _ _ _ L0) as LA.
    assert (T2 : forall a, In a al -> 2 <= nth a (shp y1) 0) by (intros a Ha; eapply levels_two with (n := Z.of_nat (length ws)); eauto; lia).
    destruct (downsample_ok F fuel junk y1 al LA (lv_nodup _ _ _ _ _ _ _ _ L0) T2) as [z [E5 [S5 _]]]. rewrite D1 in E5. injection E5 as <-.
    destruct (downsample_ok F fuel junk y2 al) as [z [E6 [S6 _]]]; [unfold ndim; rewrite Hs; exact LA|exact (lv_nodup _ _ _ _ _ _ _ _ L0)|rewrite Hs; exact T2|]. rewrite D2 in E6. injection E6 as <-.
    assert (TS : teq score score').
    { apply (score_swap csn csd y1 y2); auto. intros ws0 psh osh j BF Vj. destruct (cs_swap (shp y1) psh osh ws0 y1 y2 j BF eq_refl Hs Vj) as [Q1 [Q2 _]]. auto. }
    assert (TG : teq g g').
    { eapply add_score_teq; [apply level_score_teq; exact TS| |exact A|exact A']. destruct f as [u|], f' as [u'|]; auto. rewrite level_score_shape, Ss. auto. }
    destruct (IH (Some g') r1' r2' rf' Tr') as [R1 [R2 [R3 [R4 R5]]]]; auto.
    + congruence.
    + rewrite S5. apply levels_next; auto. lia.
    + split; auto. rewrite S5, kept_half by auto. destruct (add_score_ok F m f (level_score pow m w score)) as [q [Q1 [Q2 _]]].
      { intros u ->. rewrite level_score_shape, Ss. destruct f' as [u'|]; [apply Hf|contradiction]. }
      rewrite A in Q1. injection Q1 as <-. rewrite Q2, level_score_shape. exact Ss.
    + split; auto. split; auto. split; auto. split; [rewrite R4, S5, halved_add by lia; f_equal; cbn [length]; lia|].
      rewrite S5, kept_half in R5 by auto. exact R5.
Qed.

Lemma pyr_fun i : forall x y z, pyr i x y -> pyr i x z -> z = y.
Proof. induction i; intros x y z A B; inversion A; subst; inversion B; subst; auto. replace y1 with y0 in * by congruence. eauto. Qed.
Lemma trace_at ws : forall y1 y2 f r1 r2 rf, trace ws y1 y2 f r1 r2 rf -> forall i z1 z2, (i < length ws)%nat -> pyr i y1 z1 -> pyr i y2 z2 -> exists score, level_scored csn csd z1 z2 score.
Proof.
  induction 1 as [y1 y2 f|w ws y1 y2 f score g z1 z2 r1 r2 rf LS Ss A D1 D2 Tr IH]; intros i u1 u2 Hi P1 P2; cbn [length] in Hi; [lia|].
  destruct i; inversion P1; subst; inversion P2; subst; eauto. replace y with z1 in * by congruence. replace y0 with z2 in * by congruence. eapply IH; eauto. lia.
Qed.
Lemma scored_nonzero n d y1 y2 score : level_scored n d y1 y2 score -> ~ level_zero d y1 y2.
Proof.
  intros [psh [osh [ws [BF [full [cr [S [V _]]]]]]]] [psh' [osh' [ws' [j [BF' [Vj Z]]]]]]. destruct (facts_unique _ _ _ _ _ _ _ BF BF') as [-> [-> ->]].
  destruct (V j Vj) as [Q _]. contradiction.
Qed.
Lemma zero_swap d y1 y2 : shp y2 = shp y1 -> (forall ws psh osh j, blur_facts fuel junk b al kers pd (shp y1) psh osh ws -> valid osh j -> d ws y2 y1 j = d ws y1 y2 j) -> level_zero d y2 y1 -> level_zero d y1 y2.
Proof. intros Hs Sw [psh [osh [ws [j [BF [Vj Z]]]]]]. rewrite Hs in BF. exists psh, osh, ws, j. split; auto. split; auto. rewrite <- Z. symmetry. eapply Sw; eauto. Qed.
Lemma run_nonzero y1 y2 final : shp y2 = shp y1 -> ms_run y1 y2 final -> ~ ms_zero y2 y1.
Proof.
  intros Hs [r1 [r2 [t [score [Tr [P1 [P2 [LS _]]]]]]]] [i [z2 [z1 [Q2 [Q1 [S2 [S1 [[Hi Z]|[Hi Z]]]]]]]]].
  - destruct (trace_at _ _ _ _ _ _ _ Tr i z1 z2) as [sc SC]; auto. { rewrite removelast_length. lia. }
    apply (scored_nonzero _ _ _ _ _ SC). apply zero_swap; auto. intros ws psh osh j BF Vj. apply (cs_swap (shp z1) psh osh ws z1 z2 j BF eq_refl); auto.
  - replace (pred (length (ms_weights m))) with i in * by lia. pose proof (pyr_fun _ _ _ _ P1 Q1) as E1. pose proof (pyr_fun _ _ _ _ P2 Q2) as E2. subst z1 z2.
    apply (scored_nonzero _ _ _ _ _ LS). apply zero_swap; auto. intros ws psh osh j BF Vj. apply (cs_swap (shp r1) psh osh ws r1 r2 j BF eq_refl); auto.
Qed.
Lemma run_swap y1 y2 final final' : shp y2 = shp y1 -> ms_weights m <> [] -> levels (Z.of_nat (length (ms_weights m)) - 1) (shp y1) ->
  ms_run y1 y2 final -> ms_run y2 y1 final' -> teq final final'.
Proof.
  intros Hs Hw Lv [r1 [r2 [t [score [Tr [_ [_ [LS [Ss [Sr [A Sf]]]]]]]]]]] [r1' [r2' [t' [score' [Tr' [_ [_ [LS' [Ss' [Sr' [A' Sf']]]]]]]]]]].
  assert (L1 : (1 <= length (ms_weights m))%nat) by (destruct (ms_weights m); [congruence|cbn; lia]).
  pose proof (removelast_length (ms_weights m)) as Lr.
  replace (Z.of_nat (length (ms_weights m)) - 1) with (Z.of_nat (length (removelast (ms_weights m)))) in Lv by lia.
  destruct (trace_swap _ _ _ _ _ _ _ Tr _ _ _ _ Tr' Hs Lv I) as [-> [-> [R3 [R4 [R5 R6]]]]].
  assert (L0 : level (shp r1)) by (rewrite R4; apply Lv; lia).
  assert (TS : teq score score').
  { apply (score_swap ssn ssd r1 r2); auto. intros ws0 psh osh j BF Vj. destruct (cs_swap (shp r1) psh osh ws0 r1 r2 j BF eq_refl Sr Vj) as [_ [_ [Q1 Q2]]]. auto. }
  eapply add_score_teq; [apply level_score_teq; exact TS| |exact A|exact A']. rewrite level_score_shape, Ss. auto.
Qed.
End Sym.
