(** C120: the metric of a batch is the average of the metrics of its items.

    Vocabulary (PropsMetrics.v, PropsSsim.v, PoolSpec.v):
    - [bsum s f]: the sum of f over all indices of shape s; [zprod s]: their number. *)
From Coq Require Import QArith Qcanon Reals Lra.
From Verif Require Import SsimRefute PsnrTower.
Open Scope Z_scope.

Theorem C120_mse : forall (F : ofield) (u v : tensor F) ax al y, on_axes u ax al -> shp u = shp v -> (forall n, In n (shp u) -> 1 <= n) ->
  mse_forward RMean u v ax = Ok y ->
  exists z, mse_forward RMean u v AxNone = Ok z /\ shp z = [] /\ (forall n, In n (shp y) -> 1 <= n) /\
    at_ z [] = fdiv (bsum (shp y) (at_ y)) (fofZ (zprod (shp y))).
Proof. exact mse_tower. Qed.
Print Assumptions C120_mse.
Theorem C120_mse_sum : forall (F : ofield) (u v : tensor F) ax al y, on_axes u ax al -> shp u = shp v -> mse_forward RSum u v ax = Ok y ->
  exists z, mse_forward RSum u v AxNone = Ok z /\ shp z = [] /\ at_ z [] = bsum (shp y) (at_ y).
Proof. exact mse_sum_tower. Qed.
Print Assumptions C120_mse_sum.
Theorem C120_ssim : forall (F : ofield) fuel junk (s : ssim F) (x y : tensor F) cax rax al rl kers pd score full, ssim_call fuel s x y cax rax al rl kers pd ->
  snd (ssim_forward (sep_forward fuel junk) x y cax rax s) = Ok (score, full) ->
  exists z, snd (ssim_forward (sep_forward fuel junk) x y cax AxNone s) = Ok (z, full) /\ shp z = [] /\ (forall n, In n (shp score) -> 1 <= n) /\
    at_ z [] = fdiv (bsum (shp score) (at_ score)) (fofZ (zprod (shp score))).
Proof. exact ssim_tower. Qed.
Print Assumptions C120_ssim.
(** The PSNR is not additive: that of the batch is at most the average. *)
Theorem C120_psnr : forall mx eps (u v : tensor RF) ax al y, (0 < mx)%R -> (0 <= eps)%R -> on_axes u ax al -> shp u = shp v -> (forall n, In n (shp u) -> 1 <= n) ->
  psnr_forward mx eps RMean u v ax = Ok y ->
  exists z, psnr_forward mx eps RMean u v AxNone = Ok z /\ shp z = [] /\ (at_ z [] <= bsum (F := RF) (shp y) (at_ y) / IZR (zprod (shp y)))%R.
Proof. exact psnr_tower. Qed.
Print Assumptions C120_psnr.

Example C120_mse_example : on_axes x51 (AxSeq [1; 2]) [1%nat; 2%nat] /\
  show (mse_forward RMean x51 y51 (AxSeq [1; 2])) = Some ([2], [4 # 3; 5 # 6]%Q) /\ ((4 # 3) + (5 # 6) == 2 * (13 # 12))%Q /\
  show (mse_forward RMean x51 y51 AxNone) = Some ([], [13 # 12]%Q) /\
  show (mse_forward RSum x51 y51 (AxSeq [1; 2])) = Some ([2], zq [16; 10]) /\ show (mse_forward RSum x51 y51 AxNone) = Some ([], zq [26]).
Proof. split; [ex_on|]. repeat (match goal with |- _ /\ _ => split; [vm_compute; reflexivity|] end). vm_compute; reflexivity. Qed.
Example C120_ssim_example :
  ssim_call 20 (s51 (Some repl) true) x51 y51 (AxSlice (sfrom 1)) (AxSlice (sfrom 1)) [1%nat; 2%nat] [1%nat; 2%nat] kers51 (Some repl) /\
  fst (show2 (snd (ssim_forward (sep_forward 20 garbage) x51 y51 (AxSlice (sfrom 1)) (AxSlice (sfrom 1)) (s51 (Some repl) true)))) =
    Some ([2], [570569277776133941 # 614443691825279589; -1062367 # 1818528]%Q) /\
  (match fst (show2 (snd (ssim_forward (sep_forward 20 garbage) x51 y51 (AxSlice (sfrom 1)) AxNone (s51 (Some repl) true)))) with
   | Some ([], [q]) => Qeq_bool q (((570569277776133941 # 614443691825279589) + (-1062367 # 1818528)) * (1 # 2)) | _ => false end)%Q = true.
Proof.
  split; [apply call51; right; exists repl; split; auto; exists MReplicate; split; auto; exact I|]. split; vm_compute; reflexivity.
Qed.
(** Two images of one pixel: 20 and 0 dB; together 10 log10 (200 / 101), less than 10. *)
Example C120_psnr_example : let u := mkT [2; 1] (fun _ => 0%R) : tensor RF in let v := mkT [2; 1] (fun i => (1 + 9 * IZR (nth 0%nat i 0%Z))%R) : tensor RF in
  on_axes u (AxInt 1) [1%nat] /\ exists y z, psnr_forward 10 0 RMean u v (AxInt 1) = Ok y /\ shp y = [2] /\ at_ y [0] = 20%R /\ at_ y [1] = 0%R /\
    psnr_forward 10 0 RMean u v AxNone = Ok z /\ at_ z [] = (10 * log10 (200 / 101))%R /\ (at_ z [] < 10)%R.
Proof.
  cbv zeta. set (u := mkT [2; 1] (fun _ => 0%R) : tensor RF). set (v := mkT [2; 1] (fun i => (1 + 9 * IZR (nth 0%nat i 0%Z))%R) : tensor RF).
  assert (OA : on_axes u (AxInt 1) [1%nat]) by ex_on. assert (OB : on_axes u AxNone [0%nat; 1%nat]) by ex_on. split; auto.
  destruct (psnr_mean 10 0 u v (AxInt 1) [1%nat]) as [y [Y1 [Y2 Y3]]]; [lra|lra|exact OA|reflexivity|intros d [<-|[]]; cbn; lia| |].
  { intros _ j Vj. change (outside (reduced (ndim u) [1%nat]) (shp u)) with [2] in Vj. apply valid_iff in Vj. destruct Vj as [L V]. destruct j as [|k [|? ?]]; try discriminate L.
    specialize (V 0%nat ltac:(cbn; lia)). cbn in V. exists [k; 0]. split; [constructor; [lia|constructor; [lia|constructor]]|]. split; [reflexivity|].
    cbn. assert (0 <= IZR k)%R by (apply IZR_le; lia). lra. }
  destruct (psnr_mean 10 0 u v AxNone [0%nat; 1%nat]) as [z [Z1 [Z2 Z3]]]; [lra|lra|exact OB|reflexivity|intros d [<-|[<-|[]]]; cbn; lia| |].
  { intros _ j Vj. inversion Vj. exists [0; 0]. split; [repeat constructor; lia|]. split; [reflexivity|]. cbn. lra. }
  change (outside (reduced (ndim u) [1%nat]) (shp u)) with [2] in Y2. change (outside (reduced (ndim u) [0%nat; 1%nat]) (shp u)) with (@nil Z) in Z2.
  assert (B : forall k, 0 <= k < 2 -> block_of (shp u) (reduced (ndim u) [1%nat]) [k] [[k; 0]]).
  { intros k Hk. split; [repeat constructor; intros []|]. intros i. cbn [In]. split.
    - intros [<-|[]]. split; [constructor; [lia|constructor; [lia|constructor]]|reflexivity].
    - intros [V E]. apply valid_iff in V. destruct V as [L V]. destruct i as [|a [|b [|? ?]]]; try discriminate L. specialize (V 1%nat ltac:(cbn; lia)). cbn in V.
      change (outside (reduced (ndim u) [1%nat]) [a; b]) with [a] in E. injection E as <-. left. f_equal. f_equal. lia. }
  assert (L10 : (0 < ln 10)%R) by (rewrite <- ln_1; apply ln_increasing; lra).
  exists y, z. split; auto. split; auto. split; [|split; [|split; [auto|]]].
  - rewrite (Y3 [0] [[0; 0]]); [|rewrite Y2; repeat constructor; lia|apply B; lia]. cbn. unfold log10.
    replace (10 * 10 / (((0 - (1 + 9 * 0)) * (0 - (1 + 9 * 0)) + 0) / 1 + 0))%R with (10 * 10)%R by field. rewrite ln_mult by lra. field. lra.
  - rewrite (Y3 [1] [[1; 0]]); [|rewrite Y2; repeat constructor; lia|apply B; lia]. cbn. unfold log10.
    replace (10 * 10 / (((0 - (1 + 9 * 1)) * (0 - (1 + 9 * 1)) + 0) / 1 + 0))%R with 1%R by field. rewrite ln_1. field. lra.
  - assert (E : at_ z [] = (10 * log10 (200 / 101))%R).
    { rewrite (Z3 [] [[0; 0]; [1; 0]]); [|rewrite Z2; constructor|].
      - cbn. f_equal. f_equal. field.
      - split; [repeat constructor; cbn; intuition discriminate|]. intros i. cbn [In]. split.
        + intros [<-|[<-|[]]]; (split; [repeat constructor; lia|reflexivity]).
        + intros [V _]. apply valid_iff in V. destruct V as [L V]. destruct i as [|a [|b [|? ?]]]; try discriminate L. pose proof (V 0%nat ltac:(cbn; lia)) as A. specialize (V 1%nat ltac:(cbn; lia)). cbn in A, V.
          assert (b = 0) by lia. subst b. assert (a = 0 \/ a = 1) as [->| ->] by lia; auto. }
    split; auto. rewrite E. assert (H : (log10 (200 / 101) < log10 10)%R) by (apply log10_increasing; lra). unfold log10 in H at 2.
    replace (ln 10 / ln 10)%R with 1%R in H by (field; lra). lra.
Qed.
