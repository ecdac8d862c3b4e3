(** C143: rounding errors of BayerConv2d and of demosaicing (torchimage/cfa/bayer_conv/bayer_conv_2d.py,
    gradient_corrected.py).

    Vocabulary (RoundModel.v, RoundBayerModel.v, RoundProofs.v, RoundBayer.v; see also C133 in PropsRound.v):
    - [fl_bayer_forward e junk M x s y]: y is a result BayerConv2d.forward may give if every product and every addition
      has relative error at most e, with the additions in any order; [fl_demosaic_with] likewise for the forward of
      PreTrainedBilinearInterpolator;
    - [conv_roundings M]: number of terms of one value, channels x kernel area, and one more with a bias;
    - [abs_conv_at M x h w q p o i j]: the sum of |weight| |pixel| over the (reflected) window, plus |bias|;
    - [names sa i j c]: the sensor at pixel (i, j) measures colour c; [in_class sa i j q]: the pixel is of class q;
    - [bounded B x]: |x| <= B everywhere; [within d y x]: same shape, and |y - x| <= d everywhere;
    - [rounded_net e M M']: M' is M with every weight rounded (relative error at most e);
    - [scaled_net c M M']: M' is M with weights and biases multiplied by c. *)
From Coq Require Import Ascii String QArith Qcanon.
From Verif Require Import ExampleUtil PropsCfa PropsBayer2 PropsBayerConv RoundBayer.
Import List. Import ListNotations.
Local Notation length := List.length.
Open Scope string_scope.
Open Scope list_scope.
Open Scope Z_scope.

(** BayerConv2d, under exactly the conditions for which forward returns (C62). *)
Theorem C143_bayer : forall (F : ofield) pre C m n (M : bayer_conv F) x s sa e junk junk' y',
  nonneg pre -> 0 <= m -> 0 <= n -> shp x = pre ++ [C; 2 * m; 2 * n] -> 0 <= C -> 1 <= bc_k M -> 0 <= bc_out M ->
  In sa patterns -> case_variant s sa -> fle f0 e ->
  bc_in M = C /\ (length pre <= 1)%nat /\ bc_k M / 2 < 2 * m /\ bc_k M / 2 < 2 * n /\ 1 <= m /\ 1 <= n ->
  fl_bayer_forward e junk' M x s y' ->
  exists y, bayer_forward junk M x s = Ok y /\ shp y' = shp y /\
    forall p o i j q, valid pre p -> 0 <= o < bc_out M -> 0 <= i < 2 * m -> 0 <= j < 2 * n -> in_class sa i j q ->
      fle (fabs (fsub (at_ y' (p ++ [o; i; j])) (at_ y (p ++ [o; i; j]))))
          (fmul (fsub (fpow (fadd f1 e) (conv_roundings F M)) f1) (abs_conv_at F M x (2 * m) (2 * n) q p o i j)).
Proof. exact bayer_rounding. Qed.
Print Assumptions C143_bayer.
(** Demosaicing: measured values are not touched by rounding; clamping does not enlarge the error of the others. *)
Theorem C143_demosaic : forall (F : ofield) pre m n (M : bayer_conv F) x s sa cl e j1 j2 j1' j2' z',
  nonneg pre -> 0 <= m -> 0 <= n -> shp x = pre ++ [1; 2 * m; 2 * n] -> bc_in M = 1 -> bc_out M = 2 -> 1 <= bc_k M ->
  In sa patterns -> case_variant s sa -> fle f0 cl -> fle f0 e ->
  (length pre <= 1)%nat /\ bc_k M / 2 < 2 * m /\ bc_k M / 2 < 2 * n /\ 1 <= m /\ 1 <= n ->
  fl_demosaic_with e M j1' j2' x s cl z' ->
  exists z, demosaic_with M j1 j2 x s cl = Ok z /\ shp z' = shp z /\
    forall p c i j q, valid pre p -> 0 <= c < 3 -> 0 <= i < 2 * m -> 0 <= j < 2 * n -> in_class sa i j q ->
      (names sa i j c -> at_ z' (p ++ [c; i; j]) = at_ z (p ++ [c; i; j])) /\
      (~ names sa i j c -> fle (fabs (fsub (at_ z' (p ++ [c; i; j])) (at_ z (p ++ [c; i; j]))))
          (fmul (fsub (fpow (fadd f1 e) (conv_roundings F M)) f1)
                (abs_conv_at F M x (2 * m) (2 * n) q p (if c <? pos_color q then c else c - 1) i j))).
Proof. exact demosaic_rounding. Qed.
Print Assumptions C143_demosaic.
(** The gradient-corrected kernels: an absolute bound for images with values in [-B, B]. *)
Theorem C143_gradient : forall (F : ofield) pre m n (x : tensor F) s sa (cl e B : F) j1 j2 j1' j2' (z' : tensor F),
  nonneg pre -> (length pre <= 1)%nat -> 2 <= m -> 2 <= n -> shp x = pre ++ [1; 2 * m; 2 * n] -> bounded B x ->
  In sa patterns -> case_variant s sa -> fle f0 cl -> fle f0 e ->
  fl_demosaic_with e gradient_corrected_interpolator j1' j2' x s cl z' ->
  exists z, demosaic j1 j2 x s cl = Ok z /\
    within (fmul (fsub (fpow (fadd f1 e) 25) f1) (fmul (fdiv (fofZ 5) (fofZ 2)) B)) z' z /\
    forall p c i j, valid pre p -> 0 <= c < 3 -> 0 <= i < 2 * m -> 0 <= j < 2 * n -> names sa i j c ->
      at_ z' (p ++ [c; i; j]) = at_ z (p ++ [c; i; j]).
Proof. exact gradient_rounding. Qed.
Print Assumptions C143_gradient.
(** Attained results: rounding the weights and computing exactly from there is one possibility; so is (M' = M, see
    [C143_unrounded]) rounding nothing.  The errors above are therefore not those of an empty relation. *)
Theorem C143_attained : forall (F : ofield) e junk (M M' : bayer_conv F) x s y,
  fle f0 e -> 1 <= bc_in M -> 1 <= bc_k M -> rounded_net F e M M' ->
  bayer_forward junk M' x s = Ok y -> fl_bayer_forward e junk M x s y.
Proof. exact bayer_attained. Qed.
Print Assumptions C143_attained.
Theorem C143_attained_demosaic : forall (F : ofield) e j1 j2 (M M' : bayer_conv F) x s cl z,
  fle f0 e -> 1 <= bc_in M -> 1 <= bc_k M -> rounded_net F e M M' ->
  demosaic_with M' j1 j2 x s cl = Ok z -> fl_demosaic_with e M j1 j2 x s cl z.
Proof. exact demosaic_attained. Qed.
Print Assumptions C143_attained_demosaic.
(** With a bias: the result c times too large, by rounding the last addition only. *)
Theorem C143_attained_addition : forall (F : ofield) e c junk (M M' : bayer_conv F) x s y,
  fle f0 e -> fle (fabs (fsub c f1)) e -> 1 <= bc_in M -> 1 <= bc_k M -> bc_bias M <> None -> scaled_net F c M M' ->
  bayer_forward junk M' x s = Ok y -> fl_bayer_forward e junk M x s y.
Proof. exact bayer_scaled. Qed.
Print Assumptions C143_attained_addition.
Theorem C143_unrounded : forall (F : ofield) (e : F) M, fle f0 e -> rounded_net F e M M.
Proof. exact rounded_net_refl. Qed.
Print Assumptions C143_unrounded.

(** Gradient-corrected weights that are all 1/80 too large: within the relation for e = 1/80, and the result differs. *)
Definition too_large : bayer_conv QcF :=
  mkBC 1 2 5 (fun q o c a b => fmul (qq 81 80 : QcF) (bc_w gradient_corrected_interpolator q o c a b)) None.
Definition exact44 := demosaic garbage garbage x44 "bggr" (qz 1000).
Definition rounded44 := demosaic_with too_large garbage garbage x44 "bggr" (qz 1000).
Definition value (c i j : Z) (r : res (tensor QcF)) := match r with Ok t => this (at_ t [c; i; j]) | _ => 0%Q end.
Lemma too_large_rounded : rounded_net QcF (qq 1 80) gradient_corrected_interpolator too_large.
Proof.
  split; [reflexivity|]. split; [reflexivity|]. split; [reflexivity|]. split; [reflexivity|]. intros q o c a b. unfold rounds. cbn [too_large bc_w].
  set (v := bc_w gradient_corrected_interpolator q o c a b). replace (fsub (fmul (qq 81 80 : QcF) v) v) with (fmul (qq 1 80 : QcF) v).
  - rewrite fabs_mul, (fabs_pos QcF (qq 1 80)) by reflexivity. apply fle_refl.
  - assert (E : (qq 81 80 : QcF) = fadd f1 (qq 1 80 : QcF)) by (apply Qc_is_canon; vm_compute; reflexivity). rewrite E.
    cbn. ring.
Qed.
Lemma bounded44 : bounded (qz 16 : QcF) x44.
Proof.
  intros i Vi. change (shp x44) with ([] ++ [1; 4; 4]) in Vi. apply valid3 in Vi as (c & a & b & -> & Hc & Ha & Hb).
  assert (Ec : c = 0) by lia. subst c.
  assert (a = 0 \/ a = 1 \/ a = 2 \/ a = 3) as [-> | [-> | [-> | ->]]] by lia;
    (assert (b = 0 \/ b = 1 \/ b = 2 \/ b = 3) as [-> | [-> | [-> | ->]]] by lia); vm_compute; reflexivity.
Qed.
Lemma rounded44_possible : exists z', rounded44 = Ok z' /\
  fl_demosaic_with (qq 1 80 : QcF) gradient_corrected_interpolator garbage garbage x44 "bggr" (qz 1000) z'.
Proof.
  assert (H : match rounded44 with Ok _ => true | Err _ => false end = true) by (vm_compute; reflexivity).
  destruct rounded44 as [z'|] eqn:E; [|discriminate H]. exists z'. split; [reflexivity|].
  apply (demosaic_attained QcF _ garbage garbage gradient_corrected_interpolator too_large);
    [reflexivity|vm_compute; discriminate|vm_compute; discriminate|exact too_large_rounded|exact E].
Qed.
Example C143_example :
  (* the hypotheses of the theorems *)
  nonneg [] /\ shp x44 = [] ++ [1; 2 * 2; 2 * 2] /\ bounded (qz 16 : QcF) x44 /\ In "BGGR" patterns /\ case_variant "bggr" "BGGR" /\
  rounded_net QcF (qq 1 80) gradient_corrected_interpolator too_large /\
  (exists z', rounded44 = Ok z' /\
     fl_demosaic_with (qq 1 80 : QcF) gradient_corrected_interpolator garbage garbage x44 "bggr" (qz 1000) z') /\
  conv_roundings QcF gradient_corrected_interpolator = 25%nat /\ conv_roundings QcF net3 = 10%nat /\
  (* red at pixel (0, 0), which is a blue pixel: 9/4, with rounding 729/320; the blue value is measured and remains *)
  value 0 0 0 exact44 = (9 # 4)%Q /\ value 0 0 0 rounded44 = (729 # 320)%Q /\
  value 2 0 0 exact44 = 1%Q /\ value 2 0 0 rounded44 = 1%Q /\
  (* the sum with absolute values; the error is 9/320, the bound ((81/80)^25 - 1) * 45/4 *)
  this (abs_conv_at QcF gradient_corrected_interpolator x44 4 4 PB [] 0 0 0) = (45 # 4)%Q.
Proof.
  split; [constructor|]. split; [reflexivity|]. split; [exact bounded44|]. split; [pat|].
  split; [apply upper_variant; [now apply patterns_letters; pat|reflexivity]|]. split; [exact too_large_rounded|].
  split; [exact rounded44_possible|]. split; [reflexivity|]. split; [reflexivity|]. computed.
Qed.

(** net3 (kernels of size 3, with biases) with weights and biases 9/8 times as large. *)
Definition net3_scaled : bayer_conv QcF :=
  mkBC 1 1 3 (fun p o ch a b => fmul (qq 9 8 : QcF) (bc_w net3 p o ch a b)) (Some (fun p _ => fmul (qq 9 8 : QcF) (qz (pos_color p)))).
Example C143_addition_example : fle (fabs (fsub (qq 9 8 : QcF) f1)) (qq 1 8) /\ scaled_net QcF (qq 9 8) net3 net3_scaled /\ bc_bias net3 <> None /\
  value 0 1 1 (bayer_forward garbage net3 x44 "bggr") = 840%Q /\ value 0 1 1 (bayer_forward garbage net3_scaled x44 "bggr") = 945%Q.
Proof.
  split; [reflexivity|]. split; [repeat split; reflexivity|]. split; [discriminate|]. computed.
Qed.
