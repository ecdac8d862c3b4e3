(** C147: how far rounding can take the magnitude of an edge filter, and the Laplace filter, from the exact result.

    Vocabulary (RoundEdgeModel.v, RoundMag.v; PropsRoundEdge.v, PropsMag.v):
    - [fl_magnitude trunc e fuel junk g x ax eps p y]: y is a result that EdgeFilter.magnitude may give in floating-point
      arithmetic: the components as in PropsRoundEdge.v, and every power, addition and root may be rounded, with a relative
      error of at most e; [fl_laplace_forward]: the same for Laplace.forward;
    - [fl_mag_loop]: the loop over the axes, before epsilon and the root;
    - [eps_roundings eps]: 1 if epsilon is added, 0 if it is zero;
    - [edge_roundings], [used_kernel], [smoothers], [gain], [roundings], [abs_sum], [copy_padder], [within], [bounded],
      [edge_image], [named], [truncates]: as in PropsRoundEdge.v;
    - [square]: the exponent p = 2 over the reals. *)
From Coq Require Import QArith Qcanon Reals Lra.
From Verif Require Import ExampleUtil EdgeExample RoundMag RoundMag2 PropsEdge PropsEdge3 GaussEdge PropsGauss PropsMag PropsRoundEdge IndexLemmas MagnitudeReal RoundProofs.
Open Scope Z_scope.

(** p = 1: one rounding more for each further axis and one for epsilon. *)
Theorem C147_sum : forall (F : ofield) (trunc : F -> Z) e fuel junk ker smooth raw normalize p m shared (g : edge_filter F) (x y' : tensor F) ax al k B eps,
  fle f0 e -> edge_init (NItem ker) smooth normalize (Some p) shared = Ok g -> ker <> [] ->
  edge_image fuel p m x ax al (k + 1) -> m <> MPeriodize -> klen ker <= k ->
  expand (length al - 1) smooth = Some raw -> (forall s, In s raw -> klen s <= k) ->
  copy_padder B p m -> copy_padder (fmul (abs_sum (used_kernel trunc ker)) B) p m -> bounded B x ->
  fl_magnitude trunc e fuel junk g x ax eps P1 y' ->
  exists y, snd (magnitude trunc fuel junk g x ax eps P1) = Ok y /\
    within (fmul (fsub (fpow (fadd f1 e) (edge_roundings trunc ker + roundings (smoothers normalize raw) + (length al - 1) + eps_roundings eps)) f1)
                 (fadd (fmul (fofZ (Z.of_nat (length al))) (fmul (gain (smoothers normalize raw)) (fmul (abs_sum (used_kernel trunc ker)) B))) (fabs eps))) y' y.
Proof. exact magnitude_rounding1. Qed.
Print Assumptions C147_sum.
(** The Laplace filter. *)
Theorem C147_laplace : forall (F : ofield) (trunc : F -> Z) e fuel junk p m shared (g : edge_filter F) (x y' : tensor F) ax al B, truncates trunc -> fle f0 e ->
  laplace_init (Some p) shared = Ok g -> edge_image fuel p m x ax al 6 -> m <> MPeriodize ->
  copy_padder B p m -> bounded B x -> fl_laplace_forward trunc e fuel junk g x ax y' ->
  exists y, snd (laplace_forward trunc fuel junk g x ax) = Ok y /\
    within (fmul (fsub (fpow (fadd f1 e) (length al + 1)) f1) (fmul (fofZ (Z.of_nat (length al))) (fmul (fofZ 4) B))) y' y.
Proof. exact laplace_forward_rounding. Qed.
Print Assumptions C147_laplace.
(** p = 2, over the reals. *)
Theorem C147_norm : forall (trunc : RF -> Z) (e : R) fuel junk ker smooth raw normalize p m shared (g : edge_filter RF) (x y' : tensor RF) ax al k (B eps : R),
  (0 <= e <= 1)%R -> (0 <= eps)%R -> edge_init (NItem ker) smooth normalize (Some p) shared = Ok g -> ker <> [] ->
  edge_image fuel p m x ax al (k + 1) -> m <> MPeriodize -> klen ker <= k ->
  expand (length al - 1) smooth = Some raw -> (forall s, In s raw -> klen s <= k) ->
  copy_padder (F := RF) B p m -> copy_padder (F := RF) (abs_sum (used_kernel trunc ker) * B)%R p m -> bounded (F := RF) B x ->
  fl_magnitude trunc e fuel junk g x ax eps square y' ->
  exists y, snd (magnitude trunc fuel junk g x ax eps square) = Ok y /\ shp y' = shp y /\ forall i, valid (shp y) i ->
    (Rabs (at_ y' i - at_ y i) <=
      ((1 + e) ^ (edge_roundings trunc ker + roundings (smoothers normalize raw) + length al + eps_roundings (F := RF) eps + 1) - 1) *
      sqrt (INR (length al) * (gain (F := RF) (smoothers normalize raw) * (abs_sum (used_kernel trunc ker) * B) *
                               (gain (F := RF) (smoothers normalize raw) * (abs_sum (used_kernel trunc ker) * B))) + eps))%R.
Proof. exact magnitude_rounding2. Qed.
Print Assumptions C147_norm.
(** Normalized Sobel, Prewitt and Scharr. *)
Theorem C147_sobel : forall (trunc : RF -> Z) (e : R) fuel junk p m shared (g : edge_filter RF) (x y' : tensor RF) smooth ax al (B eps : R),
  truncates trunc -> (0 <= e <= 1)%R -> (0 <= eps)%R -> named true (Some p) shared g central_kernel smooth ->
  edge_image fuel p m x ax al 6 -> m <> MPeriodize -> copy_padder (F := RF) B p m -> bounded (F := RF) B x ->
  fl_magnitude trunc e fuel junk g x ax eps square y' ->
  exists y, snd (magnitude trunc fuel junk g x ax eps square) = Ok y /\ shp y' = shp y /\ forall i, valid (shp y) i ->
    (Rabs (at_ y' i - at_ y i) <=
      ((1 + e) ^ (5 * length al - 2 + eps_roundings (F := RF) eps) - 1) * sqrt (INR (length al) * (2 * B * (2 * B)) + eps))%R.
Proof. exact sobel_magnitude_rounding. Qed.
Print Assumptions C147_sobel.
(** The root is only taken of numbers >= 0. *)
Theorem C147_radicand : forall (trunc : RF -> Z) (e : R) fuel junk (g : edge_filter RF) (x y : tensor RF) axes, (0 <= e <= 1)%R ->
  fl_mag_loop trunc e fuel junk g x axes axes square None y -> forall i, valid (shp y) i -> (0 <= at_ y i)%R.
Proof. exact radicand_nonneg. Qed.
Print Assumptions C147_radicand.
(** The exact result is one of the possible ones. *)
Theorem C147_exact : forall (F : ofield) (trunc : F -> Z) e fuel junk (g : edge_filter F) (x y : tensor F) ax eps p, fle f0 e ->
  snd (magnitude trunc fuel junk g x ax eps p) = Ok y -> fl_magnitude trunc e fuel junk g x ax eps p y.
Proof. exact magnitude_exact. Qed.
Print Assumptions C147_exact.

(** Laplace filter of a 3 x 4 image with values up to 51, reflected at the borders, a tenth of relative error: the two components are exact
    and their sum is rounded up by a tenth. *)
Example C147_example : exists (g : edge_filter QcF) (y' : tensor QcF),
  truncates qtrunc /\ fle f0 (qq 1 10) /\ laplace_init (Some (evenp 0 MReflect)) true = Ok g /\
  edge_image 16 (evenp 0 MReflect) MReflect x34 AxNone [0; 1]%nat 6 /\ copy_padder (qz 51) (evenp 0 MReflect) MReflect /\ bounded (qz 51) x34 /\
  fl_laplace_forward qtrunc (qq 1 10) 16 garbage g x34 AxNone y' /\
  show (snd (laplace_forward qtrunc 16 garbage g x34 AxNone)) = Some ([3; 4], zq [6; 7; 12; -4; 19; 24; 33; 37; -14; -40; -101; -84]) /\
  show (Ok y') = Some ([3; 4], [33 # 5; 77 # 10; 66 # 5; -22 # 5; 209 # 10; 132 # 5; 363 # 10; 407 # 10; -77 # 5; -44; -1111 # 10; -462 # 5]%Q).
Proof.
  destruct (named_ok QcF false (Some (evenp 0 MReflect)) true) as [_ [_ [_ [_ [g Hg]]]]].
  set (g1 := fst (component qtrunc 16 garbage g x34 (AxInt 0) (AxSeq [0; 1]))).
  assert (S : show (c <- snd (component qtrunc 16 garbage g x34 (AxInt 0) (AxSeq [0; 1])) ;; d <- snd (component qtrunc 16 garbage g1 x34 (AxInt 1) (AxSeq [0; 1])) ;; s <- tiadd c d ;; Ok (tenth s)) =
    Some ([3; 4], [33 # 5; 77 # 10; 66 # 5; -22 # 5; 209 # 10; 132 # 5; 363 # 10; 407 # 10; -77 # 5; -44; -1111 # 10; -462 # 5]%Q)).
  { subst g1. rewrite (get_ok filter0 _ _ Hg). clear Hg. vm_compute. reflexivity. }
  assert (S2 : show (snd (laplace_forward qtrunc 16 garbage g x34 AxNone)) = Some ([3; 4], zq [6; 7; 12; -4; 19; 24; 33; 37; -14; -40; -101; -84])).
  { rewrite (get_ok filter0 _ _ Hg). clear Hg. vm_compute. reflexivity. }
  assert (U : untouched g1 [0; 1] = false).
  { subst g1. rewrite (get_ok filter0 _ _ Hg). clear Hg. vm_compute. reflexivity. }
  destruct (snd (component qtrunc 16 garbage g x34 (AxInt 0) (AxSeq [0; 1]))) as [c|] eqn:C; [|discriminate]. cbn [bind] in S.
  destruct (snd (component qtrunc 16 garbage g1 x34 (AxInt 1) (AxSeq [0; 1]))) as [d|] eqn:D; [|discriminate]. cbn [bind] in S.
  destruct (tiadd c d) as [s|] eqn:T; [|discriminate]. cbn [bind] in S. exists g, (tenth s).
  split; [apply qtrunc_ok|]. split; [vm_compute; reflexivity|]. split; [exact Hg|]. split; [apply even34; [exact I|lia]|].
  split; [exists (qz 0, qz 0), (qz 0, qz 0); split; [reflexivity|]; split; [reflexivity|]; exact I|].
  split. { intros i V. apply valid2 in V as [k [l [-> [Hk Hl]]]].
    assert (k = 0 \/ k = 1 \/ k = 2) as [->|[->| ->]] by lia; (assert (l = 0 \/ l = 1 \/ l = 2 \/ l = 3) as [->|[->|[->| ->]]] by lia); vm_compute; reflexivity. }
  split. { exists [0; 1], (tenth s), (tenth s). split; [reflexivity|]. split; [cbn; lia|]. split.
    - apply (loop_last QcF qtrunc (qq 1 10) 16 garbage g x34 c d s (tenth s) [0; 1] 0 1); auto; [vm_compute; reflexivity| |apply tenth_rounded].
      unfold next_input. fold g1. now rewrite U.
    - split; reflexivity. }
  split; [exact S2|exact S].
Qed.
(** Sobel magnitude of a plane with slopes 3 and 4, whose values are at most 18: the exact value 10 may come out as 11. *)
Example C147_norm_example : exists (g : edge_filter RF) (y y' : tensor RF),
  truncates (F := RF) Rtrunc /\ (0 <= 1 / 10 <= 1)%R /\ named true (Some replR) true g central_kernel (ints [1; 2; 1]) /\
  edge_image (F := RF) 16 replR MReplicate (plane34 3 4) AxNone [0%nat; 1%nat] 6 /\ copy_padder (F := RF) 18%R replR MReplicate /\ bounded (F := RF) 18%R (plane34 3 4) /\
  snd (magnitude Rtrunc 16 (fun _ => 0%R) g (plane34 3 4) AxNone 0%R square) = Ok y /\
  fl_magnitude Rtrunc (1 / 10)%R 16 (fun _ => 0%R) g (plane34 3 4) AxNone 0%R square y' /\ at_ y [1; 2] = 10%R /\ at_ y' [1; 2] = 11%R.
Proof.
  destruct (named_ok RF true (Some replR) true) as [[g Hg] _]. assert (N : named true (Some replR) true g central_kernel (ints [1; 2; 1])) by now apply n_sobel.
  destruct (plane_value g 3 4 N) as [y [Y1 Y2]]. exists g, y, (tmap (fun v : RF => 11 / 10 * v)%R y).
  assert (E : at_ y [1; 2] = 10%R).
  { rewrite Y2. change (3 * 3 + 4 * 4) with (5 * 5). rewrite mult_IZR, sqrt_square by lra. lra. }
  split; [exact Rtrunc_ok|]. split; [lra|]. split; [exact N|]. split; [apply plane_image; lia|].
  split; [exists (0%R, 0%R), (0%R, 0%R); split; [reflexivity|]; split; [reflexivity|]; exact I|].
  split. { intros i V. apply valid2 in V as [k [l [-> [Hk Hl]]]]. cbn [plane34 at_ nth]. rewrite RF_abs, RF_le. rewrite <- abs_IZR. apply IZR_le. lia. }
  split; [exact Y1|]. split.
  - apply (magnitude_last RF Rtrunc (1 / 10)%R 16 (fun _ => 0%R) g (plane34 3 4) y); [apply RF_le; change (0 <= 1 / 10)%R; lra|exact Y1|].
    split; [reflexivity|]. intros j _. apply RF_rounds. cbn [tmap at_]. replace (11 / 10 * at_ y j - at_ y j)%R with (1 / 10 * at_ y j)%R by lra.
    rewrite Rabs_mult, (Rabs_pos_eq (1 / 10)) by lra. apply Rle_refl.
  - split; [exact E|]. cbn [tmap at_]. rewrite E. lra.
Qed.
