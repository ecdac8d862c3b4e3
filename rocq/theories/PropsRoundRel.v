(** C150: rounding error of blurs and averages, pixel by pixel: relative for images without negative pixels.

    Vocabulary (RoundRel.v, RoundAvgModel.v; PropsRound.v, PropsPool.v):
    - [fl_forward e fuel junk m x ax y]: y is a result that the separable pooling m may give in floating-point arithmetic, as in PropsRound.v;
    - [fl_avg_forward e fuel junk m x ax y]: the same of AvgPoolNd with count_include_pad=False: the pooling, the product with the
      size of the window and the division by the counts may be rounded;
    - [majorant x X]: X has the shape of x and no pixel of x exceeds that of X in absolute value;
    - [plain_mode]: replicate, circular, periodize, symmetric, reflect, and constants that are not negative;
    - [roundings kers]: the sum over the axes of the kernel's length plus one, empty kernels left out. *)
From Coq Require Import QArith Qcanon.
From Verif Require Import ExampleUtil PropsMirror PropsPool RoundAvg IndexLemmas.
Open Scope Z_scope.

(** Kernels without negative entries: the error at a pixel is small compared with the exact result for X at that pixel, for
    X = |x| in particular. Without a padder, and with one that keeps the size. *)
Theorem C150_valid : forall (F : ofield) e fuel junk (m : pool F) (x X y' : tensor F) ax al kers sts, fle f0 e -> on_axes x ax al -> built (length al) kers sts None m ->
  (forall k b, In k kers -> In b k -> fle f0 b) -> majorant x X -> fl_forward e fuel junk m x ax y' ->
  exists y Y, snd (sep_forward fuel junk m x ax) = Ok y /\ snd (sep_forward fuel junk m X ax) = Ok Y /\ shp y' = shp y /\ shp Y = shp y /\
    forall i, valid (shp y) i -> fle (fabs (fsub (at_ y' i) (at_ y i))) (fmul (fsub (fpow (fadd f1 e) (roundings kers)) f1) (at_ Y i)).
Proof. exact rel_valid. Qed.
Print Assumptions C150_valid.
Theorem C150_same : forall (F : ofield) e fuel junk (m : pool F) (x X y' : tensor F) ax al kers sts p ms, fle f0 e -> built (length al) kers sts (Some p) m ->
  same_call F fuel p x ax al ms kers sts -> every_axis (length al) p plain_mode ->
  (forall k b, In k kers -> In b k -> fle f0 b) -> majorant x X -> fl_forward e fuel junk m x ax y' ->
  exists y Y, snd (sep_forward fuel junk m x ax) = Ok y /\ snd (sep_forward fuel junk m X ax) = Ok Y /\ shp y' = shp y /\ shp Y = shp y /\
    forall i, valid (shp y) i -> fle (fabs (fsub (at_ y' i) (at_ y i))) (fmul (fsub (fpow (fadd f1 e) (roundings kers)) f1) (at_ Y i)).
Proof. exact rel_same. Qed.
Print Assumptions C150_same.
(** Images without negative pixels: every pixel of the result has a small relative error, however dark it is. *)
Theorem C150_valid_nonneg : forall (F : ofield) e fuel junk (m : pool F) (x y' : tensor F) ax al kers sts, fle f0 e -> on_axes x ax al -> built (length al) kers sts None m ->
  (forall k b, In k kers -> In b k -> fle f0 b) -> (forall i, valid (shp x) i -> fle f0 (at_ x i)) -> fl_forward e fuel junk m x ax y' ->
  exists y, snd (sep_forward fuel junk m x ax) = Ok y /\ shp y' = shp y /\
    forall i, valid (shp y) i -> fle (fabs (fsub (at_ y' i) (at_ y i))) (fmul (fsub (fpow (fadd f1 e) (roundings kers)) f1) (at_ y i)).
Proof. exact rel_valid_nonneg. Qed.
Print Assumptions C150_valid_nonneg.
Theorem C150_same_nonneg : forall (F : ofield) e fuel junk (m : pool F) (x y' : tensor F) ax al kers sts p ms, fle f0 e -> built (length al) kers sts (Some p) m ->
  same_call F fuel p x ax al ms kers sts -> every_axis (length al) p plain_mode ->
  (forall k b, In k kers -> In b k -> fle f0 b) -> (forall i, valid (shp x) i -> fle f0 (at_ x i)) -> fl_forward e fuel junk m x ax y' ->
  exists y, snd (sep_forward fuel junk m x ax) = Ok y /\ shp y' = shp y /\
    forall i, valid (shp y) i -> fle (fabs (fsub (at_ y' i) (at_ y i))) (fmul (fsub (fpow (fadd f1 e) (roundings kers)) f1) (at_ y i)).
Proof. exact rel_same_nonneg. Qed.
Print Assumptions C150_same_nonneg.
(** Averages: padding counted, and padding left out (two roundings more). *)
Theorem C150_avg : forall (F : ofield) e fuel junk (ks : nds Z) stride (m : pool F) (x y' : tensor F) ax al l sts p ms, fle f0 e ->
  expand (length al) ks = Some l -> expand (length al) stride = Some sts -> avg_init ks stride (Some p) = Ok m ->
  same_call F fuel p x ax al ms (map (avg_ker F) l) (map2 stride_or_size l sts) -> every_axis (length al) p plain_mode ->
  (forall i, valid (shp x) i -> fle f0 (at_ x i)) -> fl_forward e fuel junk m x ax y' ->
  exists y, snd (avg_forward fuel junk true m x ax) = Ok y /\ shp y' = shp y /\
    forall j, valid (shp y) j -> fle (fabs (fsub (at_ y' j) (at_ y j))) (fmul (fsub (fpow (fadd f1 e) (roundings (map (avg_ker F) l))) f1) (at_ y j)).
Proof. exact avg_rounding. Qed.
Print Assumptions C150_avg.
Theorem C150_avg_original : forall (F : ofield) e fuel junk (ks : nds Z) stride (m : pool F) (x y' : tensor F) ax al l sts p ms, fle f0 e ->
  expand (length al) ks = Some l -> expand (length al) stride = Some sts -> avg_init ks stride (Some p) = Ok m ->
  same_call F fuel p x ax al ms (map (avg_ker F) l) (map2 stride_or_size l sts) -> every_axis (length al) p plain_mode ->
  (forall i, valid (shp x) i -> fle f0 (at_ x i)) -> fl_avg_forward e fuel junk m x ax y' ->
  exists y, snd (avg_forward fuel junk false m x ax) = Ok y /\ shp y' = shp y /\
    forall j, valid (shp y) j -> fle (fabs (fsub (at_ y' j) (at_ y j))) (fmul (fsub (fpow (fadd f1 e) (roundings (map (avg_ker F) l) + 2)) f1) (fabs (at_ y j))).
Proof. exact avg_original_rounding. Qed.
Print Assumptions C150_avg_original.
(** The exact result, and any rounding of it, is one of the possible ones. *)
Theorem C150_last : forall (F : ofield) e fuel junk (m : pool F) (x y y' : tensor F) ax, fle f0 e ->
  snd (avg_forward fuel junk false m x ax) = Ok y -> rounded e y y' -> fl_avg_forward e fuel junk m x ax y'.
Proof. exact avg_last. Qed.
Print Assumptions C150_last.
(** Rounding decides neither whether the call succeeds nor the shape of the result. *)
Theorem C150_outcome_pool : forall (F : ofield) e fuel junk (m : pool F) (x y' : tensor F) ax, fl_forward e fuel junk m x ax y' ->
  exists y, snd (sep_forward fuel junk m x ax) = Ok y /\ shp y = shp y'.
Proof. exact forward_outcome. Qed.
Print Assumptions C150_outcome_pool.
Theorem C150_outcome_avg : forall (F : ofield) e fuel junk (m : pool F) (x y' : tensor F) ax, fl_avg_forward e fuel junk m x ax y' ->
  exists y, snd (avg_forward fuel junk false m x ax) = Ok y /\ shp y = shp y'.
Proof. exact avg_outcome. Qed.
Print Assumptions C150_outcome_avg.

(** A negative entry: the difference of two equal pixels is 0, but may come out as e; no relative bound holds. *)
Definition kdiff : list QcF := [qz 1; qz (-1)].
Theorem C150_negative_differs : forall e : QcF, fle f0 e -> exists y', built 1 [kdiff] [1] None (pl kdiff 1 None) /\
  fl_forward e 9 garbage (pl kdiff 1 None) (ofz [2] [1; 1]) (AxInt 0) y' /\ at_ y' [0] = e /\
  show (snd (sep_forward 9 garbage (pl kdiff 1 None) (ofz [2] [1; 1]) (AxInt 0))) = Some ([1], [0]%Q).
Proof.
  intros e He. exists (ofl [1] [e]). split; [apply pl_built; [discriminate|lia]|]. split; [|split; [reflexivity|vm_compute; reflexivity]].
  exists [0], (pl kdiff 1 None), (ofz [2] [1; 1]). split; [reflexivity|]. split; [left; reflexivity|]. split; [reflexivity|].
  exists 2. split; [reflexivity|]. cbn [Z.eqb]. exists 1, 0%nat. eexists. exists kdiff, (ofl [1] [e]). split; [reflexivity|]. split; [reflexivity|]. split; [reflexivity|]. split; [reflexivity|].
  split; [|reflexivity]. split; [reflexivity|]. split; [reflexivity|]. intros j V. apply valid1 in V as [k [-> Hk]]. assert (k = 0) as -> by lia.
  assert (R : forall v, rounds e v v) by (intros v; now apply (rounds_refl QcF)).
  exists (fun o => nth (Z.to_nat o) kdiff f0), (fun o => if o =? 0 then fadd f1 e else qz (-1)). split.
  - intros o Ho. cbn [length kdiff] in Ho. split; [apply R|]. assert (o = 0 \/ o = 1) as [->| ->] by lia; cbn [Z.eqb].
    + unfold rounds. match goal with |- fle (fabs (fsub _ ?v)) _ => replace v with (@f1 QcF) by (apply Qc_is_canon; vm_compute; reflexivity) end.
      rewrite one_more. rewrite fabs_pos by auto.
      replace (fmul e (fabs f1)) with e; [apply fle_refl|]. rewrite fabs_pos by apply fle_01. now rewrite times_one.
    + match goal with |- rounds e ?v _ => replace v with (qz (-1)) by (apply Qc_is_canon; vm_compute; reflexivity) end. apply R.
  - change (at_ (ofl [1] [e]) [0]) with e. apply (fl_add e (fun o => if o =? 0 then fadd f1 e else qz (-1)) [0] [1] _ (fadd f1 e) (qz (-1))).
    + apply (fl_one e (fun o => if o =? 0 then fadd f1 e else qz (-1)) 0).
    + apply (fl_one e (fun o => if o =? 0 then fadd f1 e else qz (-1)) 1).
    + reflexivity.
    + replace (fadd (fadd f1 e) (qz (-1))) with e; [apply R|]. replace (qz (-1)) with (fopp (@f1 QcF)) by (apply Qc_is_canon; vm_compute; reflexivity). now rewrite one_less.
Qed.
Print Assumptions C150_negative_differs.
Lemma x45_nonneg i : valid (shp x45) i -> fle f0 (at_ x45 i).
Proof.
  intros V. apply valid2 in V as [k [l [-> [Hk Hl]]]].
  assert (k = 0 \/ k = 1 \/ k = 2 \/ k = 3) as [->|[->|[->| ->]]] by lia; (assert (l = 0 \/ l = 1 \/ l = 2 \/ l = 3 \/ l = 4) as [->|[->|[->|[->| ->]]]] by lia); vm_compute; reflexivity.
Qed.
(** Averages of 3 x 2 windows of x45 without the padding, a tenth of relative error: 9 roundings. *)
Example C150_example : fle f0 (qq 1 10) /\ avg_init (NList [3; 2]) (NList [Some 1; None]) (Some zero_pad) = Ok (avg1 (Some zero_pad)) /\
  same_call QcF 20 zero_pad x45 AxNone [0%nat; 1%nat] [MConstant; MConstant] (map (avg_ker QcF) [3; 2]) [1; 2] /\ every_axis 2 zero_pad plain_mode /\
  (forall i, valid (shp x45) i -> fle f0 (at_ x45 i)) /\ majorant x45 x45 /\ roundings (map (avg_ker QcF) [3; 2]) = 7%nat /\
  (exists y y', snd (avg_forward 20 garbage false (avg1 (Some zero_pad)) x45 AxNone) = Ok y /\ fl_avg_forward (qq 1 10) 20 garbage (avg1 (Some zero_pad)) x45 AxNone y' /\
     show (Ok y) = Some ([4; 3], [3 # 2; 15 # 4; 27 # 4; 2; 5; 9; 3; 15 # 2; 27 # 2; 7 # 2; 35 # 4; 63 # 4]%Q) /\ (forall i, at_ y' i = fmul (qq 11 10) (at_ y i))).
Proof.
  split; [vm_compute; reflexivity|]. split; [reflexivity|]. split; [exact same_zero|].
  split. { eexists. eexists. eexists. split; [reflexivity|]. split; [reflexivity|]. split; [reflexivity|]. intros [|[|r]] Hr; [split; vm_compute; reflexivity|split; vm_compute; reflexivity|lia]. }
  split; [exact x45_nonneg|]. split; [apply majorant_self; exact x45_nonneg|]. split; [reflexivity|].
  destruct (shape_ok (snd (avg_forward 20 garbage false (avg1 (Some zero_pad)) x45 AxNone)) [4; 3]) as [y [E _]]; [vm_compute; reflexivity|cbn; lia|].
  exists y, (tmap (fmul (qq 11 10)) y). split; [exact E|]. split; [|split; [rewrite <- E; vm_compute; reflexivity|reflexivity]].
  apply (C150_last QcF (qq 1 10) 20 garbage _ _ y); [vm_compute; reflexivity|exact E|]. split; [reflexivity|]. intros i _. cbn [tmap at_]. unfold rounds. set (v := at_ y i).
  replace (fsub (fmul (qq 11 10) v) v) with (fmul (qq 1 10) v).
  - rewrite fabs_mul. replace (fabs (qq 1 10)) with (qq 1 10) by (apply Qc_is_canon; vm_compute; reflexivity). apply fle_refl.
  - replace (qq 11 10) with (fadd (qq 1 10) (@f1 QcF)) by (apply Qc_is_canon; vm_compute; reflexivity). change (qq 1 10 * v = (qq 1 10 + 1) * v - v)%Qc. ring.
Qed.
