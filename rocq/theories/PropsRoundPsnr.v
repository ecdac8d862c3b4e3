(** C144: PSNR (torchimage/metrics/psnr.py): rounding, range, and images that are blurred or averaged.

    Vocabulary (RoundPsnrModel.v, RoundMetric.v, MseProofs.v, PsnrModel.v; see also C50 in PropsMetrics.v, C140 in
    PropsRoundMse.v, C118 in PropsBlur.v and C137 in PropsBlock.v):
    - [fl_psnr_forward e max_value eps r a b ax y]: y is a result PSNR.forward may give if every operation (the
      logarithms included) has relative error at most e, sums in any order;
    - [mse_roundings r n]: number of roundings of an MSE of n summands; [summands r s al j L]: L lists the indices that
      contribute to result j; [reduced n al]: the axes reduced over; [outside al i]: i without these axes;
    - [psnr_forward max_value eps r a b ax]: the exact call; identical images with eps = 0 give ValueError (the code
      returns inf). *)
From Coq Require Import Reals Lra.
From Verif Require Import ExampleUtil PropsMetrics PropsMirror PropsBlock RoundPsnr.
Open Scope R_scope.

(** The error in decibel.  d is the effect of the error of the MSE on the logarithm; the condition says that the relative error
    of the MSE plus eps is below 1.  In particular the exact PSNR exists whenever the rounded one does. *)
Theorem C144_rounding : forall e mx eps r (a b y' : tensor RF) ax al,
  0 <= e -> 0 <= eps -> on_axes a ax al ->
  (r = RMean -> forall d, In d (reduced (ndim a) al) -> (0 < nth d (shp a) 0)%Z) -> fl_psnr_forward e mx eps r a b ax y' ->
  (forall j L, valid (shp y') j -> summands r (shp a) (reduced (ndim a) al) j L -> (1 + e) ^ (mse_roundings r (length L) + 1) < 2) ->
  exists m y, mse_forward r a b ax = Ok m /\ psnr_forward mx eps r a b ax = Ok y /\ shp y' = shp y /\ shp y = shp m /\
    forall j L, valid (shp y) j -> summands r (shp a) (reduced (ndim a) al) j L ->
      let d := - log10 (2 - (1 + e) ^ (mse_roundings r (length L) + 1)) in
      Rabs (at_ y' j - at_ y j) <= ((1 + e) ^ 3 - 1) * (20 * Rabs (log10 mx) + 10 * (Rabs (log10 (at_ m j + eps)) + d)) + 10 * d.
Proof. exact psnr_rounding. Qed.
Print Assumptions C144_rounding.

(** The exact PSNR is one of the possible results. *)
Theorem C144_exact : forall e mx eps r (a b y : tensor RF) ax al,
  0 <= e -> 0 < mx -> 0 <= eps -> on_axes a ax al -> shp a = shp b ->
  (r = RMean -> forall d, In d (reduced (ndim a) al) -> (0 < nth d (shp a) 0)%Z) ->
  psnr_forward mx eps r a b ax = Ok y -> fl_psnr_forward e mx eps r a b ax y.
Proof. exact psnr_exact. Qed.
Print Assumptions C144_exact.

(** So is the result with any admissible relative errors of the six operations after the MSE. *)
Theorem C144_attained : forall e mx eps r (a b m y : tensor RF) ax al c0 c1 c2 c3 c4 c5,
  0 <= e < 1 -> 0 < mx -> 0 <= eps -> on_axes a ax al -> shp a = shp b ->
  (r = RMean -> forall d, In d (reduced (ndim a) al) -> (0 < nth d (shp a) 0)%Z) ->
  (forall c, In c [c0; c1; c2; c3; c4; c5] -> Rabs (c - 1) <= e) -> (eps = 0 -> c0 = 1) ->
  mse_forward r a b ax = Ok m -> psnr_forward mx eps r a b ax = Ok y ->
  fl_psnr_forward e mx eps r a b ax
    (mkT (shp m) (fun j => c5 * (c4 * (20 * (c3 * log10 mx)) - c2 * (10 * (c1 * log10 (c0 * (at_ m j + eps))))) : RF)).
Proof. exact psnr_attained. Qed.
Print Assumptions C144_attained.

(** Images with values in [0, max_value]: the PSNR lies between that of opposite extremes (0 for eps = 0) and, if eps > 0,
    10 log10(max_value^2 / eps); each bound is attained exactly there. *)
Theorem C144_range : forall mx eps (a b : tensor RF) ax al y,
  0 < mx -> 0 <= eps -> on_axes a ax al -> shp a = shp b -> (forall n, In n (shp a) -> (1 <= n)%Z) ->
  (forall i, valid (shp a) i -> 0 <= at_ a i <= mx /\ 0 <= at_ b i <= mx) ->
  psnr_forward mx eps RMean a b ax = Ok y ->
  forall j, valid (shp y) j ->
    10 * log10 (mx * mx / (mx * mx + eps)) <= at_ y j /\
    (at_ y j = 10 * log10 (mx * mx / (mx * mx + eps)) <->
       forall i, valid (shp a) i -> outside (reduced (ndim a) al) i = j -> (at_ a i = 0 /\ at_ b i = mx) \/ (at_ a i = mx /\ at_ b i = 0)) /\
    (0 < eps -> at_ y j <= 10 * log10 (mx * mx / eps) /\
       (at_ y j = 10 * log10 (mx * mx / eps) <-> forall i, valid (shp a) i -> outside (reduced (ndim a) al) i = j -> at_ a i = at_ b i)).
Proof. exact psnr_range. Qed.
Print Assumptions C144_range.

(** Blurring both images (non-negative kernels of sum 1, stride 1, as in C118) does not lower the PSNR. *)
Theorem C144_blur : forall mx eps fuel junk fuel' junk' (f : pool RF) (x y : tensor RF) ax al kers p ms,
  0 < mx -> 0 <= eps ->
  built (length al) kers (repeat 1%Z (length al)) (Some p) f ->
  same_call RF fuel p x ax al ms kers (repeat 1%Z (length al)) -> same_call RF fuel' p y ax al ms kers (repeat 1%Z (length al)) -> shp y = shp x ->
  (forall n, In n (shp x) -> (1 <= n)%Z) ->
  (forall r, (r < length al)%nat -> Z.odd (klen (eff_kernel (nth r kers []))) = true /\
     (nth r ms MUnknown = MCircular \/ nth r ms MUnknown = MSymmetric /\ rev (nth r kers []) = nth r kers [])) \/ ms = repeat MCircular (length al) ->
  (forall k, In k kers -> (k = [] \/ wsum k = @f1 RF) /\ (forall e, In e k -> @fle RF f0 e)) ->
  exists u v, snd (sep_forward fuel junk f x ax) = Ok u /\ snd (sep_forward fuel' junk' f y ax) = Ok v /\
    forall z', psnr_forward mx eps RMean u v AxNone = Ok z' ->
      exists z, psnr_forward mx eps RMean x y AxNone = Ok z /\ shp z = [] /\ shp z' = [] /\ at_ z [] <= at_ z' [].
Proof. exact psnr_blur. Qed.
Print Assumptions C144_blur.

(** Averaging disjoint blocks of both images (as in C137) does not lower the PSNR. *)
Theorem C144_blocks : forall mx eps fuel junk fuel' junk' (ks : nds Z) stride (m : pool RF) (x y : tensor RF) ax al l sts,
  0 < mx -> 0 <= eps ->
  on_axes x ax al -> shp y = shp x -> (forall n, In n (shp x) -> (1 <= n)%Z) ->
  expand (length al) ks = Some l -> expand (length al) stride = Some sts -> avg_init ks stride None = Ok m -> tiled (shp x) al l sts ->
  exists u v, snd (avg_forward fuel junk true m x ax) = Ok u /\ snd (avg_forward fuel' junk' true m y ax) = Ok v /\
    forall z', psnr_forward mx eps RMean u v AxNone = Ok z' ->
      exists z, psnr_forward mx eps RMean x y AxNone = Ok z /\ shp z = [] /\ shp z' = [] /\ at_ z [] <= at_ z' [].
Proof. exact psnr_blocks. Qed.
Print Assumptions C144_blocks.

(** 1, 2, 1 against 0, 0, 0 with max_value 2, and black against white. *)
Definition q121 : tensor RF := mkT [3%Z] (fun i => IZR (nth (Z.to_nat (nth 0 i 0%Z)) [1; 2; 1]%Z 0%Z)).
Definition q000 : tensor RF := mkT [3%Z] (fun _ => 0).
Definition q222 : tensor RF := mkT [3%Z] (fun _ => 2).
Lemma on_q x : shp x = [3%Z] -> on_axes (A := RF) x AxNone [0%nat].
Proof. intros S. split; unfold ndim; rewrite ?S; [reflexivity|apply all_lt; reflexivity|repeat constructor; intros []]. Qed.
Lemma cells3 (P : list Z -> Prop) : P [0%Z] -> P [1%Z] -> P [2%Z] -> forall i, valid [3%Z] i -> P i.
Proof.
  intros A B C i V. inversion V as [|? k ? t Hk Ht]; subst. inversion Ht. subst. assert (k = 0 \/ k = 1 \/ k = 2)%Z as [-> | [-> | ->]] by lia; auto.
Qed.
Lemma q_mse (b : tensor RF) (v : R) : shp b = [3%Z] ->
  ((1 - at_ b [0%Z]) * (1 - at_ b [0%Z]) + ((2 - at_ b [1%Z]) * (2 - at_ b [1%Z]) + ((1 - at_ b [2%Z]) * (1 - at_ b [2%Z]) + 0))) / 3 = v ->
  exists m, mse_forward RMean q121 b AxNone = Ok m /\ shp m = [] /\ at_ m [] = v.
Proof.
  intros S E. destruct (mse_mean RF q121 b AxNone [0%nat]) as (m & M1 & M2 & M3); [now apply on_q|now rewrite S|intros d [<-|[]]; cbn; lia|].
  exists m. split; auto. split; auto. rewrite <- E. rewrite (M3 [] [[0%Z]; [1%Z]; [2%Z]]).
  - rewrite RF_ofZ. reflexivity.
  - split; [repeat constructor; cbn; intuition congruence|]. intros i. split.
    + intros [<-|[<-|[<-|[]]]]; (split; [constructor; [lia|constructor]|reflexivity]).
    + intros [V _]. revert i V. apply cells3; cbn; auto.
Qed.
(** The kernel 1/4, 1/2, 1/4 *)
Definition quarterR : list RF := [/ 4; / 2; / 4].
Definition padR (m : mode RF) : padder RF := mkPadder (NItem (0, 0)%Z) (NItem m) (NItem (0, 0)) (NItem (0, 0)) (NItem (None, None)) 0%Z.
Definition poolR (m : mode RF) : pool RF := mkPool (NItem quarterR) (NItem 3%Z) (NItem 1%Z) (Some (padR m)) 0%Z.
Lemma quarterR_built m : built 1 [quarterR] (repeat 1%Z 1) (Some (padR m)) (poolR m).
Proof. apply (built_init 1 [quarterR] (NItem quarterR) (NItem (Some 1%Z)) [Some 1%Z]); reflexivity. Qed.
Lemma quarterR_call m (x : tensor RF) : fills m -> shp x = [3%Z] -> same_call RF 9 (padR m) x AxNone [0%nat] [m] [quarterR] (repeat 1%Z 1).
Proof.
  intros Hm Sx. split.
  - now apply on_q.
  - unfold ndim. rewrite Sx. cbn. lia.
  - intros [|d] Hd; rewrite Sx; cbn; [lia|unfold ndim in Hd; rewrite Sx in Hd; cbn in Hd; lia].
  - intros a [<-|[]]. rewrite Sx. cbn. lia.
  - intros [|r] Hr; cbn in *; lia.
  - split; [reflexivity|discriminate|discriminate|discriminate].
  - intros m' [<-|[]]. auto.
  - intros [|d] k' Hd H; [|unfold ndim in Hd; rewrite Sx in Hd; cbn in Hd; lia]. rewrite Sx. cbn [nth]. destruct H as [->|[ker [[<-|[]] ->]]]; unfold klen; cbn; lia.
Qed.
Example C144_example :
  (* the hypotheses *)
  on_axes q121 AxNone [0%nat] /\ mse_roundings RMean 3 = 7%nat /\ (1 + / 100) ^ (7 + 1) < 2 /\
  (forall i, valid [3%Z] i -> 0 <= at_ q121 i <= 2 /\ 0 <= at_ q000 i <= 2) /\
  built 1 [quarterR] (repeat 1%Z 1) (Some (padR MSymmetric)) (poolR MSymmetric) /\
  same_call RF 9 (padR MSymmetric) q121 AxNone [0%nat] [MSymmetric] [quarterR] (repeat 1%Z 1) /\
  same_call RF 9 (padR MSymmetric) q000 AxNone [0%nat] [MSymmetric] [quarterR] (repeat 1%Z 1) /\
  Z.odd (klen (eff_kernel quarterR)) = true /\ rev quarterR = quarterR /\ @wsum RF quarterR = @f1 RF /\
  (exists m : pool RF, avg_init (NItem 3%Z) (NItem None) None = Ok m) /\ tiled (shp q121) [0%nat] [3%Z] [None] /\
  (* PSNR 10 log10(4/2) and, with a hundredth of relative error in the last operation, 10.1 log10(4/2) *)
  (exists y, psnr_forward 2 0 RMean q121 q000 AxNone = Ok y /\ at_ y [] = 10 * log10 (2 * 2 / (2 + 0)) /\
     fl_psnr_forward (/ 100) 2 0 RMean q121 q000 AxNone (mkT [] (fun _ => (101 / 100) * (20 * log10 2 - 10 * log10 2) : RF))).
Proof.
  split; [now apply on_q|]. split; [reflexivity|]. split; [simpl; lra|]. split; [apply cells3; simpl; (split; [split|split]; lra)|]. split; [apply quarterR_built|].
  split; [now apply quarterR_call|]. split; [now apply quarterR_call|]. split; [reflexivity|]. split; [reflexivity|].
  split; [unfold quarterR; cbn; lra|]. split; [eexists; reflexivity|]. split.
  { intros [|r] Hr; cbn in Hr |- *; [|lia]. split; [lia|]. split; [reflexivity|]. exists 1%Z. reflexivity. }
  destruct (q_mse q000 2 eq_refl) as (m & M1 & M2 & M3); [cbn; lra|].
  destruct (psnr_of_mse 2 0 RMean q121 q000 AxNone m) as (y & Y1 & Y2 & Y3); try lra; auto.
  { intros j Vj. rewrite M2 in Vj. inversion Vj; subst. rewrite M3. lra. }
  exists y. split; auto. split; [rewrite Y3, M3 by (rewrite M2; constructor); reflexivity|].
  assert (H1 : forall c, In c [1; 1; 1; 1; 1; 101 / 100] -> Rabs (c - 1) <= / 100).
  { intros c Hc. assert (c = 1 \/ c = 101 / 100) as [-> | ->] by (cbn in Hc; intuition). - rewrite Rminus_diag_eq, Rabs_R0; lra. - rewrite Rabs_pos_eq; lra. }
  destruct (C144_attained (/ 100) 2 0 RMean q121 q000 m y AxNone [0%nat] 1 1 1 1 1 (101 / 100)) as (A1 & m2 & A2 & A3 & A4); auto; try lra; [now apply on_q|intros _ d [<-|[]]; cbn; lia|].
  split; auto. exists m2. split; auto. cbn [shp] in A3. rewrite M2 in A3. split; auto. intros j Vj. specialize (A4 j Vj). cbn [at_] in A4 |- *.
  rewrite <- A3 in Vj. inversion Vj; subst. rewrite M3 in A4. rewrite !Rmult_1_l, Rplus_0_r in A4. exact A4.
Qed.
(** Black against white: 0 decibel. *)
Example C144_range_example : (forall i, valid [3%Z] i -> 0 <= at_ q000 i <= 2 /\ 0 <= at_ q222 i <= 2) /\
  (forall i, valid [3%Z] i -> (at_ q000 i = 0 /\ at_ q222 i = 2) \/ (at_ q000 i = 2 /\ at_ q222 i = 0)) /\ 10 * log10 (2 * 2 / (2 * 2 + 0)) = 0.
Proof.
  split; [apply cells3; simpl; (split; [split|split]; lra)|]. split; [intros i V; left; split; reflexivity|]. replace (2 * 2 / (2 * 2 + 0)) with 1 by field. rewrite log10_1. ring.
Qed.
