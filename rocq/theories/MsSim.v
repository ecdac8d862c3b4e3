(** MS_SSIM of two pairs of images related by a renumbering of the entries that blurring, cropping, averaging and
    halving all respect. *)
From Verif Require Export MsLaws PickSsim PermSsim.
Open Scope Z_scope.

Section MSim.
Variable F : ofield.
Add Field Fmsim : (f_field F).
Notation T := (tensor F).

Section Sim.
Variables (fuel : nat) (junk : list Z -> F) (b : pool F) (al al' : list nat) (kers : list (list F)) (pd : option (padder F)).
Variables (K1 K2 : F) (crop : bool) (c : F) (pow : F -> F -> F) (m : msssim F).
(** Entry i of the second image is entry phi i of the first, and their shapes are related by SR. *)
Variables (phi : list Z -> list Z) (SR : list Z -> list Z -> Prop).
Definition rel (u u' : T) : Prop := SR (shp u) (shp u') /\ forall i, valid (shp u') i -> at_ u' i = at_ u (phi i).
Definition lev (al : list nat) (sh : list Z) : Prop := level F fuel junk b al kers pd sh /\ forall z : T, shp z = sh -> blur_call fuel z al kers pd.
Definition levs (al : list nat) (n : Z) (sh : list Z) : Prop := forall i, 0 <= i <= n -> lev al (halved al i sh).
Hypothesis HL : length al' = length al.
Hypothesis HV : forall s s' i, SR s s' -> valid s' i -> valid s (phi i).
Hypothesis HB : forall (z z' : T) psh osh ws psh' osh' ws', rel z z' -> lev al (shp z) -> lev al' (shp z') ->
  blur_facts fuel junk b al kers pd (shp z) psh osh ws -> blur_facts fuel junk b al' kers pd (shp z') psh' osh' ws' ->
  ws' = ws /\ SR osh osh' /\ forall j, valid osh' j -> blur_at fuel junk al' kers pd ws' z' j = blur_at fuel junk al kers pd ws z (phi j).
Hypothesis HC : forall cw (full full' cr cr' : T), NoDup al -> (forall a, In a al -> (a < ndim full)%nat) -> length cw = length al -> rel full full' ->
  crop_of F al cw full cr -> crop_of F al' cw full' cr' -> rel cr cr'.
Hypothesis HM : forall (cr cr' t t' : T), NoDup al -> (forall a, In a al -> (a < ndim cr)%nat) -> (forall n, In n (shp cr) -> 1 <= n) -> (forall n, In n (shp cr') -> 1 <= n) ->
  rel cr cr' -> tmean cr (map Z.of_nat al) true = Ok t -> tmean cr' (map Z.of_nat al') true = Ok t' -> rel t t'.
Hypothesis HD : forall (x x' y y' : T), NoDup al -> (forall a, In a al -> (a < ndim x)%nat) -> (forall a, In a al -> 2 <= nth a (shp x) 0) ->
  rel x x' -> downsample (avg_forward fuel junk true) x (map Z.of_nat al) = Ok y -> downsample (avg_forward fuel junk true) x' (map Z.of_nat al') = Ok y' -> rel y y'.

Notation level := (level F fuel junk b al kers pd).
Notation levels := (levels F fuel junk b al kers pd).
Notation levels' := (MsLoop.levels F fuel junk b al' kers pd).
Notation level_scored := (level_scored F fuel junk b al kers pd crop).
Notation level_scored' := (MsLevels.level_scored F fuel junk b al' kers pd crop).
Notation level_zero := (level_zero F fuel junk b al kers pd).
Notation level_zero' := (MsLevels.level_zero F fuel junk b al' kers pd).
Notation csn := (cs_n F fuel junk al kers pd K2 c).
Notation csd := (cs_d F fuel junk al kers pd K2 c).
Notation ssn := (ss_n F fuel junk al kers pd K1 K2 c).
Notation ssd := (ss_d F fuel junk al kers pd K1 K2 c).
Notation csn' := (cs_n F fuel junk al' kers pd K2 c).
Notation csd' := (cs_d F fuel junk al' kers pd K2 c).
Notation ssn' := (ss_n F fuel junk al' kers pd K1 K2 c).
Notation ssd' := (ss_d F fuel junk al' kers pd K1 K2 c).
Notation kept := (kept_shape al).
Notation kept' := (kept_shape al').
Notation pyr := (pyr F fuel junk al).
Notation pyr' := (MsLoop.pyr F fuel junk al').
Notation trace := (trace F fuel junk b al kers pd K2 crop c pow m).
Notation trace' := (MsLoop.trace F fuel junk b al' kers pd K2 crop c pow m).
Notation ms_run := (ms_run F fuel junk b al kers pd K1 K2 crop c pow m).
Notation ms_run' := (MsLoop.ms_run F fuel junk b al' kers pd K1 K2 crop c pow m).
Notation ms_zero := (ms_zero F fuel junk b al kers pd K1 K2 c m).
Notation ms_zero' := (MsLoop.ms_zero F fuel junk b al' kers pd K1 K2 c m).

Lemma levs_levels l n sh : levs l n sh -> MsLoop.levels F fuel junk b l kers pd n sh.
Proof. intros H i Hi. apply H. auto. Qed.
Lemma levs_here l n sh : 0 <= n -> levs l n sh -> lev l sh.
Proof. intros H L. rewrite <- (halved_0 l sh). apply L. lia. Qed.
Lemma levs_next l n sh : 0 <= n -> levs l (n + 1) sh -> levs l n (halved l 1 sh).
Proof. intros H L i Hi. rewrite halved_add by lia. apply L. lia. Qed.

Definition map_sim (n d n' d' : list (Z * Z) -> T -> T -> list Z -> F) (y1 y2 y1' y2' : T) : Prop :=
  forall psh osh ws psh' osh' ws', blur_facts fuel junk b al kers pd (shp y1) psh osh ws -> blur_facts fuel junk b al' kers pd (shp y1') psh' osh' ws' ->
    ws' = ws /\ SR osh osh' /\ forall j, valid osh' j -> n' ws' y1' y2' j = n ws y1 y2 (phi j) /\ d' ws' y1' y2' j = d ws y1 y2 (phi j).

Lemma rel_prod (u v u' v' : T) : shp v' = shp u' -> rel u u' -> rel v v' -> rel (prodt u v) (prodt u' v').
Proof.
  intros Hv [U1 U2] [V1 V2]. split; [exact U1|]. intros i Vi. cbn [prodt shp at_] in *. rewrite U2 by auto. rewrite V2 by (now rewrite Hv). reflexivity.
Qed.
Lemma moments_sim (y1 y2 y1' y2' : T) : shp y2 = shp y1 -> shp y2' = shp y1' -> rel y1 y1' -> rel y2 y2' -> lev al (shp y1) -> lev al' (shp y1') ->
  map_sim csn csd csn' csd' y1 y2 y1' y2' /\ map_sim ssn ssd ssn' ssd' y1 y2 y1' y2'.
Proof.
  intros Hs Hs' R1 R2 L L'.
  assert (Q : forall psh osh ws psh' osh' ws', blur_facts fuel junk b al kers pd (shp y1) psh osh ws -> blur_facts fuel junk b al' kers pd (shp y1') psh' osh' ws' ->
     ws' = ws /\ SR osh osh' /\ forall j, valid osh' j ->
     let E := blur_at fuel junk al kers pd ws in let E' := blur_at fuel junk al' kers pd ws' in
     E' y1' j = E y1 (phi j) /\ E' y2' j = E y2 (phi j) /\ E' (prodt y1' y2') j = E (prodt y1 y2) (phi j) /\ E' (prodt y1' y1') j = E (prodt y1 y1) (phi j) /\
     E' (prodt y2' y2') j = E (prodt y2 y2) (phi j)).
  { intros psh osh ws psh' osh' ws' BF BF'.
    assert (Q : forall u u' : T, shp u = shp y1 -> shp u' = shp y1' -> rel u u' -> ws' = ws /\ SR osh osh' /\ forall j, valid osh' j ->
       blur_at fuel junk al' kers pd ws' u' j = blur_at fuel junk al kers pd ws u (phi j)).
    { intros u u' Hu Hu' R. rewrite <- Hu in BF, L. rewrite <- Hu' in BF', L'. eapply HB; eauto. }
    destruct (Q y1 y1' eq_refl eq_refl R1) as [W [S E1]]. destruct (Q y2 y2' Hs Hs' R2) as [_ [_ E2]].
    destruct (Q (prodt y1 y2) (prodt y1' y2') eq_refl eq_refl (rel_prod _ _ _ _ Hs' R1 R2)) as [_ [_ E12]].
    destruct (Q (prodt y1 y1) (prodt y1' y1') eq_refl eq_refl (rel_prod _ _ _ _ eq_refl R1 R1)) as [_ [_ E11]].
    destruct (Q (prodt y2 y2) (prodt y2' y2') Hs Hs' (rel_prod _ _ _ _ eq_refl R2 R2)) as [_ [_ E22]].
    split; auto. split; auto. intros j Vj E E'. unfold E, E'. rewrite E1, E2, E12, E11, E22 by auto. auto 8. }
  split; intros psh osh ws psh' osh' ws' BF BF'; destruct (Q _ _ _ _ _ _ BF BF') as [W [S E]]; (split; [exact W|]); (split; [exact S|]); intros j Vj; destruct (E j Vj) as [E1 [E2 [E12 [E11 E22]]]].
  - unfold cs_n, cs_d. cbv zeta. rewrite E1, E2, E12, E11, E22. auto.
  - unfold ss_n, ss_d. cbv zeta. rewrite E1, E2, E12, E11, E22. auto.
Qed.

Lemma score_sim n d n' d' y1 y2 y1' y2' score score' : map_sim n d n' d' y1 y2 y1' y2' -> level (shp y1) ->
  level_scored n d y1 y2 score -> level_scored' n' d' y1' y2' score' -> rel score score'.
Proof.
  intros Sw L [psh [osh [ws [BF [full [cr [S [V [C [P M]]]]]]]]]] [psh' [osh' [ws' [BF' [full' [cr' [S' [V' [C' [P' M']]]]]]]]]].
  destruct (Sw _ _ _ _ _ _ BF BF') as [-> [So E]].
  assert (RF : rel full full').
  { split; [now rewrite S, S'|]. intros j Vj. rewrite S' in Vj. destruct (V' j Vj) as [_ ->]. destruct (V (phi j) (HV _ _ _ So Vj)) as [_ ->]. destruct (E j Vj) as [-> ->]. reflexivity. }
  assert (Lf : forall e, In e al -> (e < ndim full)%nat) by (intros e He; unfold ndim; rewrite S, (osh_len _ _ _ _ _ _ _ _ _ _ _ BF); apply (lv_axes _ _ _ _ _ _ _ _ L); auto).
  pose proof (lv_nodup _ _ _ _ _ _ _ _ L) as ND. destruct (bf_len _ _ _ _ _ _ _ _ _ _ BF) as [_ [Lw _]].
  assert (EC : crop_widths F crop pd al' ws = crop_widths F crop pd al ws) by (unfold crop_widths; now rewrite HL). rewrite EC in C'.
  assert (RC : rel cr cr').
  { apply (HC (crop_widths F crop pd al ws) full full'); auto. unfold crop_widths. destruct pd; [destruct crop|]; auto; apply repeat_length. }
  apply (HM cr cr'); auto. rewrite (co_nd _ _ _ _ _ C). exact Lf.
Qed.
Lemma zero_sim n d n' d' y1 y2 y1' y2' : map_sim n d n' d' y1 y2 y1' y2' -> level (shp y1) -> level_zero' d' y1' y2' -> level_zero d y1 y2.
Proof.
  intros Sw L [psh' [osh' [ws' [j [BF' [Vj Z]]]]]]. destruct (lv_facts _ _ _ _ _ _ _ _ L) as [psh [osh [ws BF]]].
  destruct (Sw _ _ _ _ _ _ BF BF') as [-> [So E]]. exists psh, osh, ws, (phi j). split; auto. split; [eapply HV; eauto|]. destruct (E j Vj) as [_ <-]. exact Z.
Qed.

Lemma level_score_sim w (t t' : T) : rel t t' -> rel (level_score pow m w t) (level_score pow m w t').
Proof. intros [S V]. unfold level_score. destruct (ms_prod m); split; cbn [clamp_min tmap shp at_]; auto; intros j Vj; now rewrite V. Qed.
Lemma add_score_sim (f f' : option T) t t' r r' : rel t t' ->
  match f, f' with None, None => True | Some u, Some u' => rel u u' /\ shp u = shp t /\ shp u' = shp t' | _, _ => False end ->
  add_score m f t = Ok r -> add_score m f' t' = Ok r' -> rel r r' /\ shp r = shp t /\ shp r' = shp t'.
Proof.
  intros [S V] H A A'. destruct f as [u|], f' as [u'|]; try contradiction.
  - destruct H as [[Su Vu] [E E']]. destruct (add_score_ok F m (Some u) t) as [q [Q1 [Q2 Q3]]]. { intros x [= <-]. auto. } rewrite A in Q1. injection Q1 as <-.
    destruct (add_score_ok F m (Some u') t') as [q [Q1 [Q4 Q5]]]. { intros x [= <-]. congruence. } rewrite A' in Q1. injection Q1 as <-.
    split; auto. split; [now rewrite Q2, Q4|]. intros j Vj. rewrite Q4 in Vj. rewrite Q5, Q3 by (eauto using HV). rewrite Vu, V by congruence. reflexivity.
  - cbn [add_score] in A, A'. injection A as <-. injection A' as <-. split; auto. split; auto.
Qed.

Lemma pyr_sim i : forall n x x' z z', rel x x' -> pyr i x z -> pyr' i x' z' -> levels n (shp x) -> levels' n (shp x') -> Z.of_nat i <= n ->
  rel z z' /\ shp z = halved al (Z.of_nat i) (shp x) /\ shp z' = halved al' (Z.of_nat i) (shp x').
Proof.
  induction i as [|i IH]; intros n x x' z z' H A B Lv Lv' Hn; inversion A; subst; inversion B; subst.
  - split; auto. cbn. now rewrite !halved_0.
  - assert (L0 : level (shp x)) by (eapply levels_here; [|exact Lv]; lia).
    assert (L0' : MsLevels.level F fuel junk b al' kers pd (shp x')) by (eapply levels_here; [|exact Lv']; lia).
    assert (W : levels (n - 1 + 1) (shp x)) by (now replace (n - 1 + 1) with n by lia).
    assert (W' : levels' (n - 1 + 1) (shp x')) by (now replace (n - 1 + 1) with n by lia).
    assert (G : forall e, In e al -> 2 <= nth e (shp x) 0) by (intros e He; eapply levels_two with (n := n - 1); eauto; lia).
    assert (G' : forall e, In e al' -> 2 <= nth e (shp x') 0) by (intros e He; eapply levels_two with (n := n - 1); eauto; lia).
    destruct (downsample_ok F fuel junk x al (lv_axes _ _ _ _ _ _ _ _ L0) (lv_nodup _ _ _ _ _ _ _ _ L0) G) as [u [U1 [U2 _]]].
    destruct (downsample_ok F fuel junk x' al' (lv_axes _ _ _ _ _ _ _ _ L0') (lv_nodup _ _ _ _ _ _ _ _ L0') G') as [u' [U1' [U2' _]]].
    replace y with u in * by congruence. replace y0 with u' in * by congruence.
    assert (RU : rel u u') by (eapply HD; [exact (lv_nodup _ _ _ _ _ _ _ _ L0)|exact (lv_axes _ _ _ _ _ _ _ _ L0)|exact G|exact H|eauto|eauto]).
    destruct (IH (n - 1) u u' z z') as [Q1 [Q2 Q3]]; auto; [rewrite U2; apply levels_next; auto; lia|rewrite U2'; apply levels_next; auto; lia|lia|].
    split; auto. rewrite Q2, Q3, U2, U2', !halved_add by lia. split; f_equal; lia.
Qed.

Definition acc_sim (y1 y1' : T) (f f' : option T) : Prop :=
  match f, f' with None, None => True | Some u, Some u' => rel u u' /\ shp u = kept (shp y1) /\ shp u' = kept' (shp y1') | _, _ => False end.

Lemma trace_sim ws : forall y1 y2 f r1 r2 rf, trace ws y1 y2 f r1 r2 rf -> forall y1' y2' f' r1' r2' rf', trace' ws y1' y2' f' r1' r2' rf' -> shp y2 = shp y1 -> shp y2' = shp y1' ->
  rel y1 y1' -> rel y2 y2' -> levs al (Z.of_nat (length ws)) (shp y1) -> levs al' (Z.of_nat (length ws)) (shp y1') -> acc_sim y1 y1' f f' ->
  rel r1 r1' /\ rel r2 r2' /\ shp r2 = shp r1 /\ shp r2' = shp r1' /\ shp r1 = halved al (Z.of_nat (length ws)) (shp y1) /\ shp r1' = halved al' (Z.of_nat (length ws)) (shp y1') /\
  acc_sim y1 y1' rf rf'.
Proof.
  induction 1 as [y1 y2 f|w ws y1 y2 f score g z1 z2 r1 r2 rf LS Ss A D1 D2 Tr IH]; intros y1' y2' f' r1' r2' rf' H' Hs Hs' T1 T2 Lv Lv' Hf.
  - inversion H'; subst. cbn [length]. rewrite !halved_0. auto 12.
  - inversion H' as [|w0 ws0 a1 a2 f0' score' g' x1 x2 b1 b2 bf LS' Ss' A' D1' D2' Tr']; subst.
    cbn [length] in Lv, Lv'. replace (Z.of_nat (S (length ws))) with (Z.of_nat (length ws) + 1) in Lv, Lv' by lia.
    pose proof (levs_here _ _ _ (ltac:(lia) : 0 <= Z.of_nat (length ws) + 1) Lv) as LL.
    pose proof (levs_here _ _ _ (ltac:(lia) : 0 <= Z.of_nat (length ws) + 1) Lv') as LL'.
    pose proof (proj1 LL) as L0. pose proof (proj1 LL') as L0'.
    pose proof (lv_axes _ _ _ _ _ _ _ _ L0) as LA. pose proof (lv_nodup _ _ _ _ _ _ _ _ L0) as ND.
    pose proof (lv_axes _ _ _ _ _ _ _ _ L0') as LA'. pose proof (lv_nodup _ _ _ _ _ _ _ _ L0') as ND'.
    assert (G2 : forall e, In e al -> 2 <= nth e (shp y1) 0) by (intros e He; pose proof (levs_levels _ _ _ Lv); eapply levels_two with (n := Z.of_nat (length ws)); eauto; lia).
    assert (G2' : forall e, In e al' -> 2 <= nth e (shp y1') 0) by (intros e He; pose proof (levs_levels _ _ _ Lv'); eapply levels_two with (n := Z.of_nat (length ws)); eauto; lia).
    assert (DS : forall (l : list nat) (u v : T), NoDup l -> (forall e, In e l -> (e < ndim u)%nat) -> (forall e, In e l -> 2 <= nth e (shp u) 0) ->
       downsample (avg_forward fuel junk true) u (map Z.of_nat l) = Ok v -> shp v = halved l 1 (shp u)).
    { intros l u v N1 N2 N3 N4. destruct (downsample_ok F fuel junk u l N2 N1 N3) as [v' [V1 [V2 _]]]. congruence. }
    pose proof (DS al y1 z1 ND LA G2 D1) as S1. pose proof (DS al' y1' x1 ND' LA' G2' D1') as S1'.
    assert (S2 : shp z2 = halved al 1 (shp y2)) by (apply DS; auto; unfold ndim; now rewrite Hs).
    assert (S2' : shp x2 = halved al' 1 (shp y2')) by (apply DS; auto; unfold ndim; now rewrite Hs').
    pose proof (HD y1 y1' z1 x1 ND LA G2 T1 D1 D1') as T1'.
    assert (T2' : rel z2 x2) by (apply (HD y2 y2' z2 x2); auto; unfold ndim; now rewrite Hs).
    assert (TS : rel score score').
    { apply (score_sim csn csd csn' csd' y1 y2 y1' y2'); auto. apply moments_sim; auto. }
    assert (TG : rel g g' /\ shp g = shp (level_score pow m w score) /\ shp g' = shp (level_score pow m w score')).
    { eapply add_score_sim; [apply level_score_sim; exact TS| |exact A|exact A']. unfold acc_sim in Hf. destruct f as [u|], f' as [u'|]; auto.
      rewrite !level_score_shape, Ss, Ss'. auto. }
    destruct TG as [TG [Sg Sg']]. rewrite level_score_shape, Ss in Sg. rewrite level_score_shape, Ss' in Sg'.
    destruct (IH x1 x2 (Some g') r1' r2' rf' Tr') as [R1 [R2 [R3 [R3' [R4 [R4' R5]]]]]]; auto.
    + now rewrite S1, S2, Hs.
    + now rewrite S1', S2', Hs'.
    + rewrite S1. apply levs_next; [lia|exact Lv].
    + rewrite S1'. apply levs_next; [lia|exact Lv'].
    + cbn [acc_sim]. split; auto. rewrite S1, S1', !kept_half by auto. auto.
    + split; auto. split; auto. split; auto. split; auto. split; [rewrite R4, S1, halved_add by lia; f_equal; cbn [length]; lia|].
      split; [rewrite R4', S1', halved_add by lia; f_equal; cbn [length]; lia|].
      unfold acc_sim in *. rewrite S1, S1', !kept_half in R5 by auto. exact R5.
Qed.

Lemma run_sim y1 y2 y1' y2' final final' : shp y2 = shp y1 -> shp y2' = shp y1' -> rel y1 y1' -> rel y2 y2' -> ms_weights m <> [] ->
  levs al (Z.of_nat (length (ms_weights m)) - 1) (shp y1) -> levs al' (Z.of_nat (length (ms_weights m)) - 1) (shp y1') ->
  ms_run y1 y2 final -> ms_run' y1' y2' final' -> rel final final'.
Proof.
  intros Hs Hs' T1 T2 Hw Lv Lv' [r1 [r2 [t [score [Tr [_ [_ [LS [Ss [Sr [A Sf]]]]]]]]]]] [r1' [r2' [t' [score' [Tr' [_ [_ [LS' [Ss' [Sr' [A' Sf']]]]]]]]]]].
  assert (L1 : (1 <= length (ms_weights m))%nat) by (destruct (ms_weights m); [congruence|cbn; lia]).
  pose proof (removelast_length (ms_weights m)) as Lr.
  replace (Z.of_nat (length (ms_weights m)) - 1) with (Z.of_nat (length (removelast (ms_weights m)))) in Lv, Lv' by lia.
  destruct (trace_sim _ _ _ _ _ _ _ Tr _ _ _ _ _ _ Tr' Hs Hs' T1 T2 Lv Lv' I) as [R1 [R2 [R3 [R3' [R4 [R4' [R5 [R6 R7]]]]]]]].
  assert (L0 : lev al (shp r1)) by (rewrite R4; apply Lv; lia). assert (L0' : lev al' (shp r1')) by (rewrite R4'; apply Lv'; lia).
  assert (TS : rel score score').
  { apply (score_sim ssn ssd ssn' ssd' r1 r2 r1' r2'); auto; [|apply L0]. apply moments_sim; auto. }
  destruct (add_score_sim (Some t) (Some t') _ _ final final' (level_score_sim (last_weight F m) _ _ TS)) as [Q _]; auto. rewrite !level_score_shape, Ss, Ss'. auto.
Qed.

Lemma pyr_ex l n : forall i (y1 y2 : T), shp y2 = shp y1 -> MsLoop.levels F fuel junk b l kers pd n (shp y1) -> Z.of_nat i <= n ->
  exists z1 z2, MsLoop.pyr F fuel junk l i y1 z1 /\ MsLoop.pyr F fuel junk l i y2 z2.
Proof.
  clear HL HB HC HM HD. intros i. revert n. induction i as [|i IH]; intros n y1 y2 Hs Lv Hn; [exists y1, y2; split; constructor|].
  assert (L0 : MsLevels.level F fuel junk b l kers pd (shp y1)) by (eapply levels_here; [|exact Lv]; lia).
  assert (Lv' : MsLoop.levels F fuel junk b l kers pd (n - 1 + 1) (shp y1)) by (now replace (n - 1 + 1) with n by lia).
  assert (G2 : forall e, In e l -> 2 <= nth e (shp y1) 0) by (intros e He; eapply levels_two with (n := n - 1); eauto; lia).
  destruct (downsample_ok F fuel junk y1 l (lv_axes _ _ _ _ _ _ _ _ L0) (lv_nodup _ _ _ _ _ _ _ _ L0) G2) as [u1 [U1 [U2 _]]].
  destruct (downsample_ok F fuel junk y2 l) as [u2 [W1 [W2 _]]]; [unfold ndim; rewrite Hs; exact (lv_axes _ _ _ _ _ _ _ _ L0)|exact (lv_nodup _ _ _ _ _ _ _ _ L0)|now rewrite Hs|].
  destruct (IH (n - 1) u1 u2) as [z1 [z2 [Z1 Z2]]]; [congruence|rewrite U2; apply levels_next; auto; lia|lia|].
  exists z1, z2. split; econstructor; eauto.
Qed.

(** Where the second pair has a zero divisor, so has the first. *)
Lemma run_sim_zero y1 y2 y1' y2' final : shp y2 = shp y1 -> shp y2' = shp y1' -> rel y1 y1' -> rel y2 y2' -> ms_weights m <> [] ->
  levs al (Z.of_nat (length (ms_weights m)) - 1) (shp y1) -> levs al' (Z.of_nat (length (ms_weights m)) - 1) (shp y1') ->
  ms_run y1 y2 final -> ~ ms_zero' y1' y2'.
Proof.
  intros Hs Hs' T1 T2 Hw Lv Lv' Rn [i [z1' [z2' [P1' [P2' [S1 [S2 Zr]]]]]]].
  assert (L1 : (1 <= length (ms_weights m))%nat) by (destruct (ms_weights m); [congruence|cbn; lia]).
  assert (Hi : (i < length (ms_weights m))%nat) by (destruct Zr as [[? _]|[? _]]; lia).
  destruct (pyr_ex al (Z.of_nat (length (ms_weights m)) - 1) i y1 y2 Hs (levs_levels _ _ _ Lv)) as [z1 [z2 [P1 P2]]]; [lia|].
  destruct (pyr_sim i _ _ _ _ _ T1 P1 P1' (levs_levels _ _ _ Lv) (levs_levels _ _ _ Lv')) as [Q1 [Q1s Q1s']]; [lia|].
  destruct (pyr_sim i (Z.of_nat (length (ms_weights m)) - 1) _ _ _ _ T2 P2 P2') as [Q2 [Q2s Q2s']]; [rewrite Hs; now apply levs_levels|rewrite Hs'; now apply levs_levels|lia|].
  assert (Hz : shp z2 = shp z1) by congruence. assert (Hz' : shp z2' = shp z1') by congruence.
  assert (L0 : lev al (shp z1)) by (rewrite Q1s; apply Lv; lia). assert (L0' : lev al' (shp z1')) by (rewrite Q1s'; apply Lv'; lia).
  destruct (moments_sim z1 z2 z1' z2' Hz Hz' Q1 Q2 L0 L0') as [MC MS].
  destruct Rn as [r1 [r2 [t [score [Tr [R1 [R2 [LS _]]]]]]]]. destruct Zr as [[Hi' Zr]|[Hi' Zr]].
  - apply (zero_sim _ _ _ _ _ _ _ _ MC (proj1 L0)) in Zr.
    assert (HS : exists sc, level_scored csn csd z1 z2 sc).
    { eapply trace_at; [exact Tr| |exact P1|exact P2]. rewrite removelast_length. lia. }
    destruct HS as [sc SC]. revert Zr. eapply scored_nonzero. exact SC.
  - apply (zero_sim _ _ _ _ _ _ _ _ MS (proj1 L0)) in Zr. replace (pred (length (ms_weights m))) with i in * by lia.
    assert (E1 : r1 = z1) by (eapply pyr_fun; eauto). assert (E2 : r2 = z2) by (eapply pyr_fun; eauto). subst r1 r2.
    revert Zr. eapply scored_nonzero. exact LS.
Qed.
End Sim.
End MSim.
