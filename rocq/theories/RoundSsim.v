(** How far rounding can take SSIM from the exact result (C153). *)
From Coq Require Import Sorting.Permutation.
From Verif Require Export RoundSsimModel RoundEdge RoundMetric SsimValue.
Open Scope Z_scope.

(** Bounds on the luminance and the contrast terms of images with pixels of size at most B; on the error of numerator and
    denominator after N roundings of each blur; on the error of a pixel. *)
Definition lum_size {F : ofield} (K1 B : F) : F := fadd (fadd (fmul B B) (fmul B B)) (fmul K1 K1).
Definition cs_size {F : ofield} (K2 f B : F) : F :=
  fadd (fadd (fmul (fadd (fmul B B) (fmul B B)) f) (fmul (fadd (fmul B B) (fmul B B)) f)) (fmul K2 K2).
Definition ssim_delta {F : ofield} (e K1 K2 f B : F) (N : nat) : F :=
  fmul (fsub (fpow (fadd f1 e) (4 * N + 10)) f1) (fmul (lum_size K1 B) (cs_size K2 f B)).
Definition ssim_floor {F : ofield} (K1 K2 : F) : F := fmul (fmul K1 K1) (fmul K2 K2).
Definition ssim_factor {F : ofield} (e K1 K2 f B : F) (N : nat) : F :=
  fmul (fdiv (fadd (ssim_floor K1 K2) (ssim_delta e K1 K2 f B N)) (fsub (ssim_floor K1 K2) (ssim_delta e K1 K2 f B N))) (fadd f1 e).

(** Modes that copy pixels, and zeros. *)
Definition copying_mode {F : ofield} (m : mode F) (cv ev : F * F) : Prop :=
  match m with
  | MReplicate | MCircular | MPeriodize | MSymmetric | MReflect => True
  | MConstant => cv = (f0, f0)
  | _ => False
  end.
Definition copying_padder {F : ofield} (n : nat) (pd : option (padder F)) : Prop := match pd with None => True | Some p => every_axis n p copying_mode end.

Section RS.
Variable F : ofield.
Add Field Frs : (f_field F).
Notation T := (tensor F).
Notation "a <= b" := (fle a b).
Notation "a + b" := (fadd a b).
Notation "a * b" := (fmul a b).
Notation "a - b" := (fsub a b).
Notation "1" := (@f1 F).
Notation "0" := (@f0 F).
Notation errs := (errs F).

(** *** one pixel *)
Lemma abs_le (a b : F) : fabs a <= b -> 0 <= b - a /\ 0 <= b + a.
Proof.
  intros H. split.
  - apply fle_sub1. eapply fle_trans; [apply fabs_le|exact H].
  - replace (b + a) with (b - fopp a) by ring. apply fle_sub1. eapply fle_trans; [apply fabs_le|exact H].
Qed.
Lemma fabs_div_pos (a b : F) : flt 0 b -> fabs (fdiv a b) = fdiv (fabs a) b.
Proof.
  intros H. assert (N : b <> 0) by (intros ->; now apply (flt_ne F _ _ H)). replace (fdiv a b) with (a * finv b) by (field; auto). rewrite fabs_mul, (fabs_pos F (finv b)) by (apply flt_fle, finv_pos, H).
  field; auto.
Qed.
(** A quotient n / d with |n| <= d, both in error by at most D. *)
Lemma quotient_err (C D n d n' d' : F) : 0 <= D -> flt D C -> C <= d -> fabs n <= d -> fabs (n' - n) <= D -> fabs (d' - d) <= D ->
  flt 0 d' /\ errs (fdiv (C + D) (C - D)) 1 (fdiv n' d') (fdiv n d).
Proof.
  intros HD HC Hd Hn En Ed.
  assert (P : flt 0 (C - D)) by (apply fle_ne_flt; [apply fle_sub1, flt_fle, HC|]; intros E; apply (flt_ne F _ _ HC); replace C with (C - D + D) by ring; rewrite <- E; ring).
  assert (L : C - D <= d'). { destruct (abs_le _ _ Ed) as [_ H]. apply fle_sub2. replace (d' - (C - D)) with ((d - C) + (D + (d' - d))) by ring. apply fadd_nonneg; auto. now apply fle_sub1. }
  assert (P' : flt 0 d') by exact (flt_fle_trans F _ _ _ P L).
  assert (Pd : flt 0 d). { eapply flt_fle_trans; [|exact Hd]. eapply fle_flt_trans; [exact HD|exact HC]. }
  assert (N1 : d <> 0) by (intros ->; now apply (flt_ne F _ _ Pd)). assert (N2 : d' <> 0) by (intros E; apply (flt_ne F _ _ P'); auto). assert (N3 : C - D <> 0) by (intros E; apply (flt_ne F _ _ P); auto).
  split; [exact P'|]. split.
  - replace (fdiv n' d' - fdiv n d) with (fdiv (fdiv ((n' - n) * d - n * (d' - d)) d) d') by (field; auto).
    rewrite !fabs_div_pos by auto. replace ((fdiv (C + D) (C - D) - 1) * 1) with (fdiv (D + D) (C - D)) by (field; auto).
    assert (S1 : fdiv (fabs ((n' - n) * d - n * (d' - d))) d <= D + D).
    { replace (D + D) with (fdiv ((D + D) * d) d) by (field; auto). apply fdiv_le; auto. replace ((n' - n) * d - n * (d' - d)) with ((n' - n) * d + n * fopp (d' - d)) by ring.
      eapply fle_trans; [apply fabs_add|]. rewrite !fabs_mul, fabs_opp. rewrite (fabs_pos F d) by now apply flt_fle. replace ((D + D) * d) with (D * d + d * D) by ring. apply fle_add.
      - apply mul_le; auto; [now apply flt_fle|apply fle_refl].
      - apply mul_le; auto; [apply fabs_nonneg|now apply flt_fle]. }
    eapply fle_trans; [apply fdiv_le; [exact P'|exact S1]|].
    apply fle_sub2. replace (fdiv (D + D) (C - D) - fdiv (D + D) d') with (fdiv ((D + D) * (d' - (C - D))) ((C - D) * d')) by (field; auto).
    apply fdiv_nonneg; [|now apply fmul_pos]. apply fmul_nonneg; [now apply fadd_nonneg|now apply fle_sub1].
  - rewrite fabs_div_pos by auto. replace 1 with (fdiv d d) by (field; auto). now apply fdiv_le.
Qed.
Lemma two_add (a : F) : fmul two a = a + a.
Proof. unfold two. ring. Qed.
Lemma err_pow e n k S v w : 0 <= e -> (n <= k)%nat -> errs (fpow (1 + e) n) S v w -> errs (fpow (1 + e) k) S v w.
Proof. intros He H. apply err_mono. now apply pow_mono. Qed.
Lemma err_next e n S v v' w : 0 <= e -> errs (fpow (1 + e) n) S v w -> rounds e v v' -> errs (fpow (1 + e) (n + 1)) S v' w.
Proof. intros He H R. rewrite pow_add. cbn [fpow]. replace ((1 + e) * 1) with (1 + e) by ring. eapply err_round; eauto. Qed.
Lemma err_times e n k S S' v v' w w' : 0 <= e -> errs (fpow (1 + e) n) S v w -> errs (fpow (1 + e) k) S' v' w' -> errs (fpow (1 + e) (n + k)) (S * S') (v * v') (w * w').
Proof. intros He H H'. rewrite pow_add. apply err_mul; auto. now apply pow_ge1. Qed.
Lemma round_pos e v v' : 0 <= e -> 0 <= v -> rounds e v v' -> errs (fpow (1 + e) 1) v v' v.
Proof.
  intros He Hv R. apply (err_next e 0 v v v' v He); auto. apply err_const; [apply fle_refl|]. rewrite fabs_pos by auto. apply fle_refl.
Qed.

Theorem pixel_err e K1 K2 f B N m1 m2 b11 b22 b12 v w1 w2 c11 c22 c12 : 0 <= e -> 0 <= f -> K1 <> 0 -> K2 <> 0 ->
  flt (ssim_delta e K1 K2 f B N) (ssim_floor K1 K2) ->
  errs (fpow (1 + e) N) B m1 w1 -> errs (fpow (1 + e) N) B m2 w2 ->
  errs (fpow (1 + e) (N + 1)) (B * B) b11 c11 -> errs (fpow (1 + e) (N + 1)) (B * B) b22 c22 -> errs (fpow (1 + e) (N + 1)) (B * B) b12 c12 ->
  (w1 - w2) * (w1 - w2) <= c11 + c22 - fmul two c12 -> (w1 + w2) * (w1 + w2) <= c11 + c22 + fmul two c12 ->
  fl_ssim_at e K1 K2 f m1 m2 b11 b22 b12 v ->
  errs (ssim_factor e K1 K2 f B N) 1 v (ssim_at K1 K2 f w1 w2 c11 c22 c12).
Proof.
  intros He Hf NK1 NK2 Hd M1 M2 B11 B22 B12 I1 I2 (C1 & C2 & f' & q1 & q2 & q12 & s1 & s2 & s12 & t1 & t2 & t12 & n1 & n2 & a1 & d1 & a2 & d2 & n & d & RC1 & RC2 & Rf & (Q1 & Q2 & Q12) & (S1 & S2 & S12) & (T1 & T2 & T12) & RN1 & RN2 & (A1 & D1) & (A2 & D2) & RN & RD & RV).
  assert (QE : forall a b wa wb q, errs (fpow (1 + e) N) B a wa -> errs (fpow (1 + e) N) B b wb -> rounds e (a * b) q -> errs (fpow (1 + e) (2 * N + 1)) (B * B) q (wa * wb)).
  { intros a b wa wb q Ea Eb R. replace (2 * N + 1)%nat with (N + N + 1)%nat by lia. eapply err_next; [exact He| |exact R]. now apply err_times. }
  pose proof (QE _ _ _ _ _ M1 M1 Q1) as E1. pose proof (QE _ _ _ _ _ M2 M2 Q2) as E2. pose proof (QE _ _ _ _ _ M1 M2 Q12) as E12.
  assert (SE : forall b c q w s, errs (fpow (1 + e) (N + 1)) (B * B) b c -> errs (fpow (1 + e) (2 * N + 1)) (B * B) q w -> rounds e (b - q) s -> errs (fpow (1 + e) (2 * N + 2)) (B * B + B * B) s (c - w)).
  { intros b c q w s Eb Eq R. replace (2 * N + 2)%nat with (2 * N + 1 + 1)%nat by lia. eapply err_next; [exact He| |exact R]. apply err_sub; auto. eapply err_pow; [exact He| |exact Eb]. lia. }
  pose proof (SE _ _ _ _ _ B11 E1 S1) as V1. pose proof (SE _ _ _ _ _ B22 E2 S2) as V2. pose proof (SE _ _ _ _ _ B12 E12 S12) as V12.
  set (W := (B * B + B * B) * f).
  assert (TE : forall s w t, errs (fpow (1 + e) (2 * N + 2)) (B * B + B * B) s w -> fl_scaled e f f' s t -> errs (fpow (1 + e) (2 * N + 4)) W t (f * w)).
  { intros s w t Es [[-> ->]|[_ R]].
    - unfold W. replace ((B * B + B * B) * 1) with (B * B + B * B) by ring. replace (1 * w) with w by ring. eapply err_pow; [exact He| |exact Es]. lia.
    - replace (2 * N + 4)%nat with (2 * N + 2 + 1 + 1)%nat by lia. replace (f * w) with (w * f) by ring. eapply err_next; [exact He| |exact R]. apply err_times; auto. now apply round_pos. }
  pose proof (TE _ _ _ V1 T1) as G1. pose proof (TE _ _ _ V2 T2) as G2. pose proof (TE _ _ _ V12 T12) as G12.
  assert (P1 : 0 <= K1 * K1) by apply fsq_nonneg. assert (P2 : 0 <= K2 * K2) by apply fsq_nonneg.
  pose proof (round_pos e _ _ He P1 RC1) as EC1. pose proof (round_pos e _ _ He P2 RC2) as EC2.
  assert (EN1 : errs (fpow (1 + e) (2 * N + 3)) (lum_size K1 B) n1 (fmul two (w1 * w2) + K1 * K1)).
  { rewrite two_add in *. replace (2 * N + 3)%nat with (2 * N + 2 + 1)%nat by lia. eapply err_next; [exact He| |exact RN1]. apply err_add; [apply err_add|]; (eapply err_pow; [exact He| |eassumption]; lia). }
  assert (EN2 : errs (fpow (1 + e) (2 * N + 6)) (cs_size K2 f B) n2 (fmul two (f * (c12 - w1 * w2)) + K2 * K2)).
  { rewrite two_add in *. replace (2 * N + 6)%nat with (2 * N + 5 + 1)%nat by lia. eapply err_next; [exact He| |exact RN2]. apply err_add; [apply err_add|]; (eapply err_pow; [exact He| |eassumption]; lia). }
  assert (ED1 : errs (fpow (1 + e) (2 * N + 3)) (lum_size K1 B) d1 (w1 * w1 + w2 * w2 + K1 * K1)).
  { replace (2 * N + 3)%nat with (2 * N + 2 + 1)%nat by lia. eapply err_next; [exact He| |exact D1]. apply err_add; [|eapply err_pow; [exact He| |exact EC1]; lia].
    replace (2 * N + 2)%nat with (2 * N + 1 + 1)%nat by lia. eapply err_next; [exact He| |exact A1]. now apply err_add. }
  assert (ED2 : errs (fpow (1 + e) (2 * N + 6)) (cs_size K2 f B) d2 (f * (c11 - w1 * w1) + f * (c22 - w2 * w2) + K2 * K2)).
  { replace (2 * N + 6)%nat with (2 * N + 5 + 1)%nat by lia. eapply err_next; [exact He| |exact D2]. apply err_add; [|eapply err_pow; [exact He| |exact EC2]; lia].
    replace (2 * N + 5)%nat with (2 * N + 4 + 1)%nat by lia. eapply err_next; [exact He| |exact A2]. now apply err_add. }
  assert (EN : errs (fpow (1 + e) (4 * N + 10)) (lum_size K1 B * cs_size K2 f B) n (ssim_num F f (K1 * K1) (K2 * K2) w1 w2 c12)).
  { replace (4 * N + 10)%nat with (2 * N + 3 + (2 * N + 6) + 1)%nat by lia. eapply err_next; [exact He| |exact RN]. now apply err_times. }
  assert (ED : errs (fpow (1 + e) (4 * N + 10)) (lum_size K1 B * cs_size K2 f B) d (ssim_den F f (K1 * K1) (K2 * K2) w1 w2 c11 c22)).
  { replace (4 * N + 10)%nat with (2 * N + 3 + (2 * N + 6) + 1)%nat by lia. eapply err_next; [exact He| |exact RD]. now apply err_times. }
  destruct (lum_bounds F (K1 * K1) w1 w2 P1) as [L1 [L2 L3]]. destruct (cs_bounds F f (K2 * K2) w1 w2 c11 c22 c12 Hf P2 I1 I2) as [H1 [H2 H3]].
  destruct (abs_mul F _ _ _ _ L1 L2 H1 H2) as [X1 [X2 X3]]. destruct EN as [EN _]. destruct ED as [ED _].
  assert (Z : 0 <= ssim_delta e K1 K2 f B N) by (eapply fle_trans; [apply fabs_nonneg|exact EN]).
  destruct (quotient_err (ssim_floor K1 K2) (ssim_delta e K1 K2 f B N) (ssim_num F f (K1 * K1) (K2 * K2) w1 w2 c12) (ssim_den F f (K1 * K1) (K2 * K2) w1 w2 c11 c22) n d) as [Pd Q]; auto.
  { unfold ssim_floor, ssim_den. apply mul_le; auto. eapply fle_trans; [exact P1|exact L3]. }
  { destruct (fabs_cases F (ssim_num F f (K1 * K1) (K2 * K2) w1 w2 c12)) as [[_ ->]|[_ ->]]; apply fle_sub2; [exact X1|]. match goal with |- fle _ (?a - fopp ?b) => replace (a - fopp b) with (a + b) by ring end. exact X2. }
  assert (Nd : d <> 0) by (intros E; apply (flt_ne F _ _ Pd); auto).
  exact (err_round F e _ _ _ _ _ He Q (RV Nd)).
Qed.

(** *** the blurs *)
Lemma every_weaker n (p : padder F) (P Q : mode F -> F * F -> F * F -> Prop) : (forall m c v, P m c v -> Q m c v) -> every_axis n p P -> every_axis n p Q.
Proof. intros H (ms & cs & es & E1 & E2 & E3 & E). exists ms, cs, es. do 3 (split; [assumption|]). auto. Qed.
Lemma copying_copy S (p : padder F) n : 0 <= S -> every_axis n p copying_mode -> every_axis n p (RoundEdge.copy_mode S).
Proof. intros HS. apply every_weaker. intros [] c v; cbn; auto. intros ->. cbn [fst snd]. rewrite fabs_zero. auto. Qed.
Lemma copying_product (p : padder F) n : every_axis n p copying_mode -> every_axis n p product_mode.
Proof. apply every_weaker. intros [] c v; cbn; auto. intros ->. cbn [fst snd]. auto. Qed.
Lemma valid_err e fuel junk (m : pool F) (x x' y' : T) ax al kers sts c S : 0 <= e -> 1 <= c -> on_axes x ax al -> built (length al) kers sts None m ->
  shp x' = shp x -> (forall j, valid (shp x) j -> errs c S (at_ x' j) (at_ x j)) -> fl_forward e fuel junk m x' ax y' ->
  exists y, snd (sep_forward fuel junk m x ax) = Ok y /\ shp y' = shp y /\
    forall j, valid (shp y) j -> errs (c * fpow (1 + e) (roundings kers)) (gain kers * S) (at_ y' j) (at_ y j).
Proof.
  intros He Hc OA B0 Hs HE [al' [m1 [xp' [C1 [C0 [C2 C3]]]]]]. destruct (built_par _ _ _ _ _ _ B0) as [PP [Pd _]].
  assert (N : ndim x' = ndim x) by (unfold ndim; now rewrite Hs). destruct OA as [A1 A2 A3]. rewrite N, A1 in C1. injection C1 as <-.
  assert (PadOk : forall z : T, ndim z = ndim x -> pool_pad fuel junk m z (AxSeq (map Z.of_nat al)) = (m, Ok z)).
  { intros z Nz. unfold pool_pad. rewrite Nz, check_axes_seq_nat by auto. now rewrite Pd. }
  rewrite (PadOk x' N) in C2. injection C2 as <- <-. destruct PP as [P1 [P2 [P3 P4]]].
  destruct (loop_err F e m He (map Z.of_nat al) 0 x x' y' kers sts c S) as [y [Z1 [Z2 Z3]]]; auto; try (rewrite map_length; auto).
  { intros r Hr. destruct (P4 r Hr) as [Q1 [Q2 [Q3 Q4]]]. unfold step_ok. cbn [Z.add]. split; auto. }
  exists y. split; [|split; auto]. unfold sep_forward. rewrite A1, (PadOk x eq_refl).
  destruct C0 as [C0|C0]; rewrite C0, ?map_length.
  - cbn [Z.eqb orb snd bind]. exact Z1.
  - rewrite Z.eqb_refl, orb_true_r. exact Z1.
Qed.
Lemma blur_err e fuel junk (m : pool F) (x x' y' : T) ax al kers pd sh psh osh ws c S : 0 <= e -> 1 <= c -> 0 <= S -> on_axes x ax al ->
  built (length al) kers (repeat 1%Z (length al)) pd m -> blur_call fuel x al kers pd -> copying_padder (length al) pd -> window F kers ->
  blur_facts fuel junk m al kers pd sh psh osh ws -> shp x = sh ->
  shp x' = shp x -> (forall j, valid (shp x) j -> errs c S (at_ x' j) (at_ x j)) ->
  fl_forward e fuel junk m x' (AxSeq (map Z.of_nat al)) y' ->
  shp y' = osh /\ forall j, valid osh j -> errs (c * fpow (1 + e) (roundings kers)) S (at_ y' j) (blur_at fuel junk al kers pd ws x j).
Proof.
  intros He Hc HS OA B0 BC CP W BF Sh Hs HE HF. pose proof (on_axes_seq F _ _ _ OA) as OS.
  assert (R : exists y, snd (sep_forward fuel junk m x (AxSeq (map Z.of_nat al))) = Ok y /\ shp y' = shp y /\
    forall j, valid (shp y) j -> errs (c * fpow (1 + e) (roundings kers)) (gain kers * S) (at_ y' j) (at_ y j)).
  { destruct pd as [p|]; [|eapply valid_err; eauto]. destruct BC as [ms SC]. cbn [copying_padder] in CP. eapply (round_rel F); eauto. now apply copying_copy. }
  destruct R as [y [R1 [R2 R3]]]. destruct (bl_run _ _ _ _ _ _ _ (bf_blurs _ _ _ _ _ _ _ _ _ _ BF) m x (mlike_refl F m) Sh) as [b'' [y0 [Q1 [_ [_ [Q2 Q3]]]]]].
  rewrite Q1 in R1. injection R1 as <-. rewrite Q2 in R2, R3. split; [exact R2|]. intros j Vj. specialize (R3 j Vj). rewrite (Q3 j Vj) in R3.
  rewrite (gain_one F kers) in R3; [|intros k b Hk Hb; now apply (W k Hk)|intros k Hk; now apply (W k Hk)]. replace (1 * S) with S in R3 by ring. exact R3.
Qed.
(** *** the mean *)
Lemma wsum_const {A} (S : F) (l : list A) : wsum (map (fun _ => S) l) = fofZ (Z.of_nat (length l)) * S.
Proof.
  induction l as [|a l IH]; [cbn; ring|]. change (wsum (map (fun _ : A => S) (a :: l))) with (S + wsum (map (fun _ : A => S) l)). rewrite IH. cbn [length].
  replace (Z.of_nat (Datatypes.S (length l))) with (Z.of_nat (length l) + 1)%Z by lia. rewrite fofZ_add. replace (@fofZ F 1) with (@f1 F) by (unfold fofZ; cbn; ring). ring.
Qed.
Lemma mean_err e c S (x x' y y' : T) al : 0 <= e -> 1 <= c -> (forall a, In a al -> (a < ndim x)%nat) -> NoDup al -> (forall n, In n (shp x) -> (1 <= n)%Z) ->
  shp x' = shp x -> (forall j, valid (shp x) j -> errs c S (at_ x' j) (at_ x j)) ->
  tmean x (map Z.of_nat al) false = Ok y -> fl_tmean e x' (map Z.of_nat al) y' ->
  shp y' = shp y /\ forall j L, valid (shp y) j -> block_of (shp x) (reduced (ndim x) al) j L -> errs (c * fpow (1 + e) (length L + 1)) S (at_ y' j) (at_ y j).
Proof.
  intros He Hc A ND Hp Hs HE HM [al' [s [M [[al2 [M2 [ND2 [S1 S2]]]] [S3 [N1 N2]]]]]]. assert (N : ndim x' = ndim x) by (unfold ndim; now rewrite Hs).
  rewrite N, reduced_axes in M, M2 by auto. injection M as <-. injection M2 as <-. rewrite Hs in *.
  assert (Pa : forall a, In a (reduced (ndim x) al) -> (0 < nth a (shp x) 0)%Z) by (intros a Ha; assert (1 <= nth a (shp x) 0)%Z; [|lia]; apply Hp, nth_In; eapply reduced_in; eauto).
  destruct (tmean_ok F x al false A ND Pa) as [y0 [Y1 [Y2 Y3]]]. rewrite HM in Y1. injection Y1 as <-. cbv iota in Y2, Y3. rewrite kept_outside in S1.
  split; [congruence|]. intros j L Vj BL. rewrite (Y3 j L BL). rewrite S3 in N2. destruct (N2 j ltac:(congruence)) as [r [R1 R2]]. specialize (S2 j ltac:(congruence)).
  set (n := zprod _) in *. assert (Np : (0 < n)%Z) by now apply (count_pos F x).
  assert (Ln : Z.of_nat (length L) = n). { apply (block_length (shp x) (reduced (ndim x) al) j); auto; [intros a Ha; eapply reduced_in; eauto|intros q Hq; specialize (Hp q Hq); lia|congruence]. }
  pose proof (block_perm _ _ _ L BL) as P.
  destruct S2 as [[E0 _]|HS]; [rewrite E0 in P; apply Permutation_nil in P; rewrite P in Ln; cbn in Ln; lia|].
  assert (HB : forall i, In i (block (shp x) (reduced (ndim x) al) j) -> valid (shp x) i) by (intros i Hi; apply (block_ok (shp x) (reduced (ndim x) al) j) in Hi; tauto).
  destruct (sum_err F e c (at_ x') (fun _ => S) (at_ x) _ _ He Hc HS (fun i Hi => HE i (HB i Hi))) as [_ E].
  rewrite wsum_const, (wsum_perm F _ _ (Permutation_map (at_ x) P)), (Permutation_length P), Ln in E.
  assert (Pi : 0 <= fdiv 1 (fofZ n)) by (apply fdiv_nonneg; [apply fle_01|now apply fofZ_pos]). pose proof (round_pos e _ _ He Pi R1) as Er.
  assert (G : 1 <= c * fpow (1 + e) (length L - 1)) by (apply (fle_trans F _ (1 * 1)); [replace (1 * 1) with 1 by ring; apply fle_refl|]; apply mul_le; auto; [apply fle_01|eapply fle_trans; [apply fle_01|exact Hc]|now apply pow_ge1]).
  pose proof (err_round F e _ _ _ _ _ He (err_mul F _ _ _ _ _ _ _ _ G E Er) R2) as E3.
  assert (NZ : @fofZ F n <> 0) by (apply fofZ_neq0; lia).
  replace (fofZ n * S * fdiv 1 (fofZ n)) with S in E3 by (field; auto).
  replace (wsum (map (at_ x) L) * fdiv 1 (fofZ n)) with (fdiv (lsum (map (at_ x) L)) (fofZ n)) in E3 by (change (@lsum F) with (@wsum F); field; auto).
  assert (Nl : (length L + 1 = length L - 1 + 1 + 1)%nat) by lia. rewrite Nl, !pow_add. cbn [fpow] in *.
  match goal with |- errs ?t _ _ _ => match type of E3 with RoundProofs.errs _ ?u _ _ _ => replace t with u by ring end end. exact E3.
Qed.
(** *** the call *)
Lemma zeros_valid (sh : list Z) : (forall n, In n sh -> (1 <= n)%Z) -> valid sh (map (fun _ => 0%Z) sh).
Proof. intros H. induction sh as [|n sh IH]; cbn [map]; constructor; [specialize (H n (or_introl eq_refl)); lia|apply IH; intros; apply H; now right]. Qed.
Lemma product_err e (u v w : T) B : 0 <= e -> 0 <= B -> shp u = shp v -> bounded B u -> bounded B v -> fl_map2 e fmul u v w ->
  shp w = shp u /\ forall j, valid (shp u) j -> errs (1 + e) (B * B) (at_ w j) (at_ (prodt u v) j).
Proof.
  intros He HB Hs Hu Hv [d [D1 [D2 D3]]]. destruct (prodt_teq F u v d Hs D1) as [E1 [_ E2]]. split; [congruence|]. intros j Vj. rewrite E1 in *. specialize (D3 j Vj). rewrite (E2 j Vj) in D3.
  replace (1 + e) with (1 * (1 + e)) by ring. eapply err_round; [exact He| |exact D3]. apply err_const; [apply fle_refl|]. cbn [prodt at_]. rewrite fabs_mul. apply mul_le; auto; [apply fabs_nonneg|]. apply Hv. congruence.
Qed.
Lemma zprod_le {A} (g h : A -> Z) (l : list A) : (forall a, In a l -> (0 <= g a <= h a)%Z) -> (0 <= zprod (map g l) <= zprod (map h l))%Z.
Proof.
  induction l as [|a l IH]; intros H; cbn [map]; [cbn; lia|]. rewrite !zprod_cons. assert (Ha := H a (or_introl eq_refl)). assert (Hl := IH (fun b Hb => H b (or_intror Hb))). nia.
Qed.
Theorem ssim_rounding e fuel junk (s : ssim F) (x y score' full' : T) cax rax al rl kers pd B : ssim_call fuel s x y cax rax al rl kers pd ->
  window F kers -> copying_padder (length al) pd -> ss_K1 s <> 0 -> ss_K2 s <> 0 -> 0 <= e -> bounded B x -> bounded B y ->
  let n := zprod (map klen kers) in
  let f := if ss_sample s then fdiv (fofZ n) (fofZ (n - 1)) else 1 in
  flt (ssim_delta e (ss_K1 s) (ss_K2 s) f B (roundings kers)) (ssim_floor (ss_K1 s) (ss_K2 s)) ->
  fl_ssim_forward e fuel junk s x y cax rax score' full' ->
  let c := ssim_factor e (ss_K1 s) (ss_K2 s) f B (roundings kers) in
  exists score full, snd (ssim_forward (sep_forward fuel junk) x y cax rax s) = Ok (score, full) /\ shp full' = shp full /\ shp score' = shp score /\
    (forall j, valid (shp full) j -> fabs (at_ full' j - at_ full j) <= c - 1) /\
    (forall j k, valid (shp score) j -> Z.of_nat k = zprod (map (fun a => nth a (shp full) 0%Z) (reduced (ndim x) rl)) ->
       fabs (at_ score' j - at_ score j) <= c * fpow (1 + e) (k + 1) - 1).
Proof.
  intros SC W CP NK1 NK2 He Hx Hy n f Hd [Hs' [ca [ra [cr' [A1 [A2 [(f0' & mu1 & mu2 & y11 & y22 & y12 & b11 & b22 & b12 & Sf & F1 & F2 & P11 & P22 & P12 & F11 & F22 & F12 & Sw & Vw) [HC HM]]]]]]]] c.
  pose proof SC as [Hs OA OR Bu BC Cr Po Scl].
  rewrite (oa_args _ _ _ OA) in A1. injection A1 as <-. rewrite (oa_args _ _ _ OR) in A2. injection A2 as <-.
  assert (PP : proper_padder (length al) pd) by (destruct pd as [p|]; [left; now apply copying_product|exact I]).
  destruct (ssim_bounded F fuel junk s x y cax rax al rl kers pd SC W PP NK1 NK2) as [score [full [R _]]].
  destruct (ssim_main F fuel junk s x y cax rax al rl kers pd SC) as [psh [osh [ws [c' [BF [Sc [Hc M]]]]]]]. cbv zeta in M.
  destruct (scale_ok F s (length al) kers _ pd Bu Scl) as [c2 [Sc1 [_ Sc3]]]. rewrite (Sc1 (map Z.of_nat al) (map_length _ _)) in Sc, Sf. injection Sc as Sc. injection Sf as Sf. fold n in Sc3. fold f in Sc3. rewrite Sc3 in Sc, Sf. clear c2 Sc1 Sc3. subst c' f0'.
  destruct M as [[score1 [full1 [cr [R1 [Sf [V [Co [Pc M]]]]]]]]|[R1 _]]; rewrite R in R1; [|discriminate]. injection R1 as <- <-.
  assert (Nf : ndim full = ndim x) by (unfold ndim; rewrite Sf; eapply (osh_len F); eauto).
  assert (OAz : forall z : T, shp z = shp x -> on_axes z cax al) by (intros z Hz; destruct OA as [O1 O2 O3]; constructor; unfold ndim in *; rewrite ?Hz; auto).
  assert (BCz : forall z : T, shp z = shp x -> blur_call fuel z al kers pd).
  { intros z Hz. destruct pd as [p|]; cbn [blur_call] in *; [|rewrite Hz; exact BC]. destruct BC as [ms BC]. exists ms. eapply same_call_shape; eauto. }
  assert (B0 : 0 <= B). { eapply fle_trans; [apply fabs_nonneg|apply (Hx (map (fun _ => 0%Z) (shp x)))]. now apply zeros_valid. }
  destruct (blur_err e fuel junk (ss_blur s) x x mu1 cax al kers pd (shp x) psh osh ws 1 B He (fle_refl F _) B0 OA Bu BC CP W BF eq_refl eq_refl (err_self F B x Hx) F1) as [X1 X2].
  destruct (blur_err e fuel junk (ss_blur s) y y mu2 cax al kers pd (shp x) psh osh ws 1 B He (fle_refl F _) B0 (OAz y Hs) Bu (BCz y Hs) CP W BF Hs eq_refl (err_self F B y Hy) F2) as [Y1 Y2].
  rewrite X1 in Sw.
  assert (Pix : forall j, valid osh j -> errs c 1 (at_ full' j) (at_ full j)).
  { intros j Vj.
    assert (E1 := X2 j Vj). assert (E2 := Y2 j Vj). replace (1 * fpow (1 + e) (roundings kers)) with (fpow (1 + e) (roundings kers)) in E1, E2 by ring.
    assert (G1 : 1 <= 1 + e) by (apply (sub_le F 0 e); auto; ring).
    assert (PE : forall u v w b, shp u = shp x -> shp v = shp x -> bounded B u -> bounded B v -> fl_map2 e fmul u v w -> fl_forward e fuel junk (ss_blur s) w (AxSeq (map Z.of_nat al)) b ->
      errs (fpow (1 + e) (roundings kers + 1)) (B * B) (at_ b j) (blur_at fuel junk al kers pd ws (prodt u v) j)).
    { intros u v w b Su Sv Bu' Bv Pw Fb. destruct (product_err e u v w B He B0 ltac:(congruence) Bu' Bv Pw) as [W1 W2].
      assert (BB : 0 <= B * B) by apply fsq_nonneg.
      destruct (blur_err e fuel junk (ss_blur s) (prodt u v) w b cax al kers pd (shp x) psh osh ws (1 + e) (B * B) He G1 BB (OAz (prodt u v) Su) Bu (BCz (prodt u v) Su) CP W BF Su W1 W2 Fb) as [Z1 Z2].
      specialize (Z2 j Vj). rewrite pow_add. cbn [fpow]. match goal with |- errs ?t _ _ _ => replace t with ((1 + e) * fpow (1 + e) (roundings kers)) by ring end. exact Z2. }
    assert (PM : match pd with None => True | Some p => every_axis (length al) p product_mode end) by (destruct pd as [p|]; [now apply copying_product|exact I]).
    destruct (moments_product F fuel junk (ss_blur s) al kers pd (shp x) psh osh ws BF W PM x y eq_refl Hs j Vj) as [M1 M2].
    destruct (V j Vj) as [_ ->]. assert (Vj' : valid (shp full') j) by (rewrite Sw; exact Vj).
    exact (pixel_err e (ss_K1 s) (ss_K2 s) f B (roundings kers) _ _ _ _ _ _ _ _ _ _ _ He Hc NK1 NK2 Hd E1 E2 (PE x x y11 b11 eq_refl eq_refl Hx Hx P11 F11) (PE y y y22 b22 Hs Hs Hy Hy P22 F22) (PE x y y12 b12 eq_refl Hs Hx Hy P12 F12) M1 M2 (Vw j Vj')). }
  destruct (bl_run _ _ _ _ _ _ _ (bf_blurs _ _ _ _ _ _ _ _ _ _ BF) (ss_blur s) x (mlike_refl F _) eq_refl) as [b'' [y0 [Q1 [Q2 [Q3 _]]]]]. rewrite Q1 in HC. cbn [fst] in HC.
  destruct (crop_run F fuel junk (ss_blur s) al kers pd (shp x) psh osh ws BF Po s (set_blur s b'') full') as [c0 [C1 [C2 C3]]]; auto.
  { exists b''. auto. } { intros ->. exact BC. }
  rewrite C1 in HC. injection HC as ->.
  assert (Lf : forall a, In a al -> (a < ndim full)%nat) by (rewrite Nf; apply (oa_in _ _ _ OA)).
  assert (Scr : shp cr = shp cr') by (eapply (crop_shape_eq F); [exact Lf| |exact Co|exact C2]; congruence).
  exists score, full. split; [exact R|]. rewrite Sf. split; [exact Sw|].
  assert (Ncr : ndim cr = ndim x) by (rewrite <- Nf; apply (co_nd _ _ _ _ _ Co)).
  assert (CrPix : forall j, valid (shp cr) j -> errs c 1 (at_ cr' j) (at_ cr j)).
  { intros j Vj. destruct (co_val _ _ _ _ _ Co j Vj) as [W1 ->]. destruct (co_val _ _ _ _ _ C2 j ltac:(congruence)) as [_ ->]. apply Pix. rewrite <- Sf. exact W1. }
  assert (Gc : 1 <= c).
  { destruct (CrPix _ (zeros_valid _ Pc)) as [Q _]. apply fle_sub2. replace (c - 1) with ((c - 1) * 1) by ring. eapply fle_trans; [apply fabs_nonneg|exact Q]. }
  assert (Lr : forall a, In a rl -> (a < ndim cr)%nat) by (rewrite Ncr; apply (oa_in _ _ _ OR)).
  destruct (mean_err e c 1 cr cr' score score' rl He Gc Lr (oa_distinct _ _ _ OR) Pc (eq_sym Scr) CrPix M HM) as [S1 S2].
  split; [exact S1|]. split.
  - intros j Vj. destruct (Pix j Vj) as [Q _]. replace (c - 1) with ((c - 1) * 1) by ring. exact Q.
  - intros j k Vj Hk. destruct (S2 j _ Vj (block_ok (shp cr) (reduced (ndim cr) rl) j)) as [Q _].
    eapply fle_trans; [exact Q|]. match goal with |- (?a - 1) * 1 <= ?b - 1 => apply (sub_le F a b); [|ring] end.
    apply mul_le; auto; [eapply fle_trans; [apply fle_01|now apply pow_ge1]|apply fle_refl|eapply fle_trans; [apply fle_01|exact Gc]|].
    apply pow_mono; auto. apply Nat.add_le_mono_r. apply Nat2Z.inj_le. rewrite Hk.
    assert (Pa : forall a, In a (reduced (ndim x) rl) -> (a < ndim x)%nat) by (intros a Ha; eapply reduced_in; [|exact Ha]; apply (oa_in _ _ _ OR)).
    assert (SV : shp score = outside (reduced (ndim cr) rl) (shp cr)).
    { destruct (tmean_ok F cr rl false Lr (oa_distinct _ _ _ OR)) as [y1 [Y3 [Y4 _]]]; [|rewrite M in Y3; injection Y3 as <-; exact Y4].
      intros a Ha. assert (1 <= nth a (shp cr) 0)%Z; [|lia]. apply Pc, nth_In. change (a < ndim cr)%nat. rewrite Ncr in *. now apply Pa. }
    rewrite (block_length (shp cr) (reduced (ndim cr) rl) j); [| | | |rewrite <- SV; exact Vj|apply block_ok].
    + rewrite Ncr. apply zprod_le. intros a Ha. specialize (Pa a Ha). split.
      * assert (1 <= nth a (shp cr) 0)%Z; [|lia]. apply Pc, nth_In. change (a < ndim cr)%nat. lia.
      * rewrite <- Sf. destruct (in_dec Nat.eq_dec a al) as [Hi|Hi]; [|rewrite (co_other _ _ _ _ _ Co) by auto; lia].
        destruct (In_pos a al 0%nat Hi) as [r [Hr <-]]. rewrite (co_shape _ _ _ _ _ Co) by auto.
        assert (0 <= pair_sum (nth r (crop_widths F (ss_crop s) pd al ws) (0%Z, 0%Z)))%Z; [|lia]. unfold crop_widths. destruct (bf_ws _ _ _ _ _ _ _ _ _ _ BF r Hr) as [U1 [U2 _]].
        destruct pd as [p|]; [destruct (ss_crop s)|]; rewrite ?nth_repeat; unfold pair_sum; cbn [fst snd]; lia.
    + apply reduced_NoDup. apply (oa_distinct _ _ _ OR).
    + rewrite Ncr. intros a Ha. specialize (Pa a Ha). change (length (shp cr)) with (ndim cr). lia.
    + intros q Hq. specialize (Pc q Hq). lia.
Qed.
Lemma fl_sum_ext {A} e (p q : A -> F) l v : (forall o, In o l -> p o = q o) -> fl_sum e p l v -> fl_sum e q l v.
Proof.
  intros H S. revert H. induction S as [o|l m n u v w S1 IH1 S2 IH2 P R]; intros H; [rewrite H by (now left); constructor|].
  eapply fl_add; [apply IH1|apply IH2|exact P|exact R]; intros o Ho; apply H; eapply Permutation_in; [apply Permutation_sym, P| |apply Permutation_sym, P|]; apply in_or_app; auto.
Qed.
Lemma fl_tmean_teq e (x x' y : T) axes : teq x x' -> fl_tmean e x axes y -> fl_tmean e x' axes y.
Proof.
  destruct x as [sh p], x' as [sh' p']. intros [Hs Hv] [al [s [M [[al2 [M2 [ND [S1 S2]]]] [S3 [N1 N2]]]]]]. cbn [shp at_] in *. subst sh'. exists al, s. split; [exact M|]. split; [|auto].
  exists al2. split; [exact M2|]. split; [exact ND|]. split; [exact S1|]. intros j Vj. destruct (S2 j Vj) as [E|E]; [now left|right].
  eapply fl_sum_ext; [|exact E]. intros i Hi. apply Hv. apply (block_ok sh al2 j) in Hi. tauto.
Qed.
(** Exact arithmetic is one of the possibilities, and so is any rounding of its map. *)
Theorem ssim_last e fuel junk (s : ssim F) (x y score full w0 : T) cax rax al rl kers pd : ssim_call fuel s x y cax rax al rl kers pd -> 0 <= e ->
  snd (ssim_forward (sep_forward fuel junk) x y cax rax s) = Ok (score, full) -> rounded e full w0 -> fl_ssim_full e fuel junk s x y (map Z.of_nat al) w0.
Proof.
  intros SC He R [Rw1 Rw2]. pose proof SC as [Hs OA OR Bu BC Cr Po Scl].
  destruct (ssim_main F fuel junk s x y cax rax al rl kers pd SC) as [psh [osh [ws [f [BF [Sc [Hc M]]]]]]]. cbv zeta in M.
  destruct M as [[score1 [full1 [cr [R1 [Sf [V [Co [Pc M]]]]]]]]|[R1 _]]; rewrite R in R1; [|discriminate]. injection R1 as <- <-.
  assert (RUN : forall z : T, shp z = shp x -> exists b, fl_forward e fuel junk (ss_blur s) z (AxSeq (map Z.of_nat al)) b /\ shp b = osh /\
    forall j, valid osh j -> at_ b j = blur_at fuel junk al kers pd ws z j).
  { intros z Hz. destruct (bl_run _ _ _ _ _ _ _ (bf_blurs _ _ _ _ _ _ _ _ _ _ BF) (ss_blur s) z (mlike_refl F _) Hz) as [b'' [b [Q1 [_ [_ [Q2 Q3]]]]]].
    exists b. split; [apply forward_exact; auto; now rewrite Q1|]. auto. }
  assert (PRD : forall u v : T, shp u = shp x -> shp v = shp x -> exists w b, fl_map2 e fmul u v w /\ fl_forward e fuel junk (ss_blur s) w (AxSeq (map Z.of_nat al)) b /\
    forall j, valid osh j -> at_ b j = blur_at fuel junk al kers pd ws (prodt u v) j).
  { intros u v Hu Hv. exists (prodt u v). destruct (RUN (prodt u v) Hu) as [b [B1 [B2 B3]]]. exists b. split; [|split; auto].
    destruct (tmap2_same fmul u v ltac:(congruence)) as [w [W1 [W2 W3]]]. exists w. split; [exact W1|]. split; [now rewrite W2|]. intros j Vj. rewrite W3 by congruence. now apply rounds_refl. }
  destruct (RUN x eq_refl) as [mu1 [X1 [X2 X3]]]. destruct (RUN y Hs) as [mu2 [Y1 [Y2 Y3]]].
  destruct (PRD x x eq_refl eq_refl) as [y11 [b11 [P11 [F11 V11]]]]. destruct (PRD y y Hs Hs) as [y22 [b22 [P22 [F22 V22]]]]. destruct (PRD x y eq_refl Hs) as [y12 [b12 [P12 [F12 V12]]]].
  exists f, mu1, mu2, y11, y22, y12, b11, b22, b12. do 9 (split; [assumption|]). split; [congruence|]. rewrite Rw1, Sf. intros j Vj. rewrite Sf in Rw2. specialize (Rw2 j Vj). rewrite (proj2 (V j Vj)) in Rw2. revert Rw2.
  rewrite X3, Y3, V11, V22, V12 by auto. cbv zeta.
  set (m1 := blur_at _ _ _ _ _ _ x j). set (m2 := blur_at _ _ _ _ _ _ y j). set (c11 := blur_at _ _ _ _ _ _ (prodt x x) j). set (c22 := blur_at _ _ _ _ _ _ (prodt y y) j). set (c12 := blur_at _ _ _ _ _ _ (prodt x y) j). intros Rw2.
  assert (SCL : forall v, fl_scaled e f f v (f * v)). { intros v. destruct (feq_dec F f 1) as [E|E]; [left; split; auto; rewrite E; ring|right; split; auto]. replace (f * v) with (v * f) by ring. now apply rounds_refl. }
  exists (ss_K1 s * ss_K1 s), (ss_K2 s * ss_K2 s), f, (m1 * m1), (m2 * m2), (m1 * m2), (c11 - m1 * m1), (c22 - m2 * m2), (c12 - m1 * m2), (f * (c11 - m1 * m1)), (f * (c22 - m2 * m2)), (f * (c12 - m1 * m2)).
  do 8 eexists. repeat (match goal with |- _ /\ _ => split end); try (apply SCL); try (apply rounds_refl; exact He). intros _. exact Rw2.
Qed.
Theorem ssim_exact e fuel junk (s : ssim F) (x y score full : T) cax rax al rl kers pd : ssim_call fuel s x y cax rax al rl kers pd -> 0 <= e ->
  snd (ssim_forward (sep_forward fuel junk) x y cax rax s) = Ok (score, full) -> fl_ssim_forward e fuel junk s x y cax rax score full.
Proof.
  intros SC He R. pose proof SC as [Hs OA OR Bu BC Cr Po Scl].
  destruct (ssim_main F fuel junk s x y cax rax al rl kers pd SC) as [psh [osh [ws [f [BF [Sc [Hc M]]]]]]]. cbv zeta in M.
  destruct M as [[score1 [full1 [cr [R1 [Sf [V [Co [Pc M]]]]]]]]|[R1 _]]; rewrite R in R1; [|discriminate]. injection R1 as <- <-.
  assert (Nf : ndim full = ndim x) by (unfold ndim; rewrite Sf; eapply (osh_len F); eauto).
  assert (Lf : forall a, In a al -> (a < ndim full)%nat) by (rewrite Nf; apply (oa_in _ _ _ OA)).
  destruct (bl_run _ _ _ _ _ _ _ (bf_blurs _ _ _ _ _ _ _ _ _ _ BF) (ss_blur s) x (mlike_refl F _) eq_refl) as [b'' [y0 [Q1 [Q2 [Q3 _]]]]].
  destruct (crop_run F fuel junk (ss_blur s) al kers pd (shp x) psh osh ws BF Po s (set_blur s b'') full) as [c0 [C1 [C2 C3]]]; auto.
  { exists b''. auto. } { intros ->. exact BC. }
  split; [congruence|]. exists (map Z.of_nat al), (map Z.of_nat rl), c0. split; [apply OA|]. split; [apply OR|]. split; [|split].
  - eapply ssim_last; [exact SC|exact He|exact R|]. split; [reflexivity|]. intros j _. now apply rounds_refl.
  - rewrite Q1. cbn [fst]. now rewrite C1.
  - assert (Ncr : ndim cr = ndim x) by (rewrite <- Nf; apply (co_nd _ _ _ _ _ Co)).
    apply (fl_tmean_teq e cr); [eapply (crop_teq F); [exact Lf|apply teq_refl|exact Co|exact C2]|]. apply (tmean_exact F e cr score rl He); auto; [rewrite Ncr; apply (oa_in _ _ _ OR)|].
    intros d Hd. assert (1 <= nth d (shp cr) 0)%Z; [|lia]. apply Pc, nth_In. change (length (shp cr)) with (ndim cr). eapply reduced_in; [|exact Hd]. rewrite Ncr. apply (oa_in _ _ _ OR).
Qed.
(** Any rounding of the products is possible. *)
Theorem ssim_products e fuel junk (s : ssim F) (x y y11 y22 y12 mu1 mu2 b11 b22 b12 w : T) f axes : 0 <= e -> shp y = shp x -> scale_factor s axes = Ok f ->
  rounded e (prodt x x) y11 -> rounded e (prodt y y) y22 -> rounded e (prodt x y) y12 ->
  let run z r := snd (sep_forward fuel junk (ss_blur s) z (AxSeq axes)) = Ok r in
  run x mu1 -> run y mu2 -> run y11 b11 -> run y22 b22 -> run y12 b12 -> shp w = shp mu1 ->
  (forall j, valid (shp w) j -> fl_ssim_at e (ss_K1 s) (ss_K2 s) f (at_ mu1 j) (at_ mu2 j) (at_ b11 j) (at_ b22 j) (at_ b12 j) (at_ w j)) ->
  fl_ssim_full e fuel junk s x y axes w.
Proof.
  intros He Hs Sc R1 R2 R3 run H1 H2 H3 H4 H5 Sw HV.
  assert (P : forall u v z : T, shp v = shp u -> rounded e (prodt u v) z -> fl_map2 e fmul u v z).
  { intros u v z Hv [Z1 Z2]. destruct (tmap2_same fmul u v (eq_sym Hv)) as [d [D1 [D2 D3]]]. exists d. split; [exact D1|]. split; [now rewrite D2|]. intros j Vj. rewrite D2 in Vj. rewrite D3 by auto. apply Z2. exact Vj. }
  exists f, mu1, mu2, y11, y22, y12, b11, b22, b12. split; [exact Sc|]. split; [now apply forward_exact|]. split; [now apply forward_exact|].
  split; [now apply P|]. split; [now apply P|]. split; [now apply P|]. do 3 (split; [now apply forward_exact|]). auto.
Qed.
(** Shapes that differ. *)
Theorem ssim_shapes e fuel junk (s : ssim F) (x y : T) cax rax : shp x <> shp y ->
  snd (ssim_forward (sep_forward fuel junk) x y cax rax s) = Err AssertionError /\ forall score full, ~ fl_ssim_forward e fuel junk s x y cax rax score full.
Proof.
  intros H. split; [|intros score full [E _]; contradiction]. unfold ssim_forward, sbind, ret. destruct (seqb (shp x) (shp y)) eqn:E; [|reflexivity]. exfalso. apply H. now apply seqb_true.
Qed.
End RS.
