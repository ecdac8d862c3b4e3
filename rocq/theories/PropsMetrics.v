(** C49, C50: MSE and PSNR.

    Vocabulary (ReduceProofs.v, MseProofs.v):
    - [outside al i]: the coordinates (or sizes) on the axes not in al;
    - [block_of s al j L]: L lists, each once, the indices of shape s whose coordinates outside al are j;
    - [lsum]: sum of a list; [sq v] = v*v. *)
From Coq Require Import QArith Qcanon Reals Lra.
From Verif Require Import MseProofs ExampleUtil.
Open Scope Z_scope.

Ltac ex_on := split; [vm_compute; reflexivity | apply all_lt; vm_compute; reflexivity | repeat constructor; cbn; intuition lia].

(** ** C49 *)
Theorem C49_none : forall (F : ofield) (a b : tensor F) ax al, on_axes a ax al -> shp a = shp b ->
  exists d, mse_forward RNone a b ax = Ok d /\ shp d = shp a /\
    forall i, valid (shp a) i -> at_ d i = sq F (fsub (at_ a i) (at_ b i)).
Proof. exact mse_none. Qed.
Print Assumptions C49_none.
Theorem C49_sum_partial : forall (F : ofield) (a b : tensor F) ax al, on_axes a ax al -> al <> [] -> shp a = shp b ->
  exists y, mse_forward RSum a b ax = Ok y /\ shp y = outside al (shp a) /\
    forall j L, block_of (shp a) al j L -> at_ y j = lsum (map (fun i => sq F (fsub (at_ a i) (at_ b i))) L).
Proof. exact mse_sum_axes. Qed.
Print Assumptions C49_sum_partial.
Theorem C49_mean_partial : forall (F : ofield) (a b : tensor F) ax al, on_axes a ax al -> al <> [] -> shp a = shp b ->
  (forall d, In d al -> 0 < nth d (shp a) 0) ->
  exists y, mse_forward RMean a b ax = Ok y /\ shp y = outside al (shp a) /\
    forall j L, block_of (shp a) al j L -> valid (shp y) j -> (forall n, In n (shp a) -> 0 <= n) ->
      0 < Z.of_nat (length L) /\
      at_ y j = fdiv (lsum (map (fun i => sq F (fsub (at_ a i) (at_ b i))) L)) (fofZ (Z.of_nat (length L))).
Proof. exact mse_mean_axes. Qed.
Print Assumptions C49_mean_partial.
(** Such a list of indices exists for every position, and is unique up to order. *)
Theorem C49_block : forall s al j, block_of s al j (block s al j) /\ forall L, block_of s al j L -> Permutation.Permutation (block s al j) L.
Proof. exact (fun s al j => conj (block_ok s al j) (block_perm s al j)). Qed.
Print Assumptions C49_block.
Theorem C49_sum_is_count_times_mean_partial : forall (F : ofield) (a b : tensor F) ax al, on_axes a ax al -> al <> [] -> shp a = shp b ->
  (forall d, In d al -> 0 < nth d (shp a) 0) ->
  exists y z, mse_forward RSum a b ax = Ok y /\ mse_forward RMean a b ax = Ok z /\ shp y = shp z /\
    forall j, valid (shp y) j -> at_ y j = fmul (fofZ (zprod (map (fun d => nth d (shp a) 0) al))) (at_ z j).
Proof. exact mse_sum_mean_axes. Qed.
Print Assumptions C49_sum_is_count_times_mean_partial.
Theorem C49_symmetric : forall (F : ofield) r (a b : tensor F) ax,
  (exists e, mse_forward r a b ax = Err e /\ mse_forward r b a ax = Err e) \/
  exists y z, mse_forward r a b ax = Ok y /\ mse_forward r b a ax = Ok z /\ teq y z.
Proof. exact mse_symmetric. Qed.
Print Assumptions C49_symmetric.
Theorem C49_zero_iff_equal_partial : forall (F : ofield) (a b : tensor F) ax al, on_axes a ax al -> al <> [] -> shp a = shp b ->
  (forall d, In d al -> 0 < nth d (shp a) 0) ->
  exists y z, mse_forward RSum a b ax = Ok y /\ mse_forward RMean a b ax = Ok z /\ shp y = shp z /\
  forall j, valid (shp y) j ->
    (fle f0 (at_ y j) /\ (at_ y j = f0 <-> forall i, valid (shp a) i -> outside al i = j -> at_ a i = at_ b i)) /\
    (fle f0 (at_ z j) /\ (at_ z j = f0 <-> forall i, valid (shp a) i -> outside al i = j -> at_ a i = at_ b i)).
Proof. exact mse_zero_axes. Qed.
Print Assumptions C49_zero_iff_equal_partial.
(** An empty tuple of axes reduces all of them (torch's dim=()). *)
Theorem C49_no_axes_refuted : exists (F : ofield) (a b : tensor F), shp a = shp b /\ on_axes a (AxSeq []) [] /\
  ~ exists y, mse_forward RSum a b (AxSeq []) = Ok y /\ shp y = outside [] (shp a).
Proof. exact mse_empty_axes_ex. Qed.
Print Assumptions C49_no_axes_refuted.
(** For every axes argument, the empty tuple included: [reduced n al] is al, or all n axes if al is empty. *)
Theorem C49_sum_exact : forall (F : ofield) (a b : tensor F) ax al, on_axes a ax al -> shp a = shp b ->
  exists y, mse_forward RSum a b ax = Ok y /\ shp y = outside (reduced (ndim a) al) (shp a) /\
    forall j L, block_of (shp a) (reduced (ndim a) al) j L -> at_ y j = lsum (map (fun i => sq F (fsub (at_ a i) (at_ b i))) L).
Proof. exact mse_sum. Qed.
Print Assumptions C49_sum_exact.
Theorem C49_mean_exact : forall (F : ofield) (a b : tensor F) ax al, on_axes a ax al -> shp a = shp b ->
  (forall d, In d (reduced (ndim a) al) -> 0 < nth d (shp a) 0) ->
  exists y z, mse_forward RSum a b ax = Ok y /\ mse_forward RMean a b ax = Ok z /\ shp y = shp z /\
    forall j, valid (shp y) j -> at_ y j = fmul (fofZ (zprod (map (fun d => nth d (shp a) 0) (reduced (ndim a) al)))) (at_ z j).
Proof. exact mse_sum_mean. Qed.
Print Assumptions C49_mean_exact.
Theorem C49_zero_exact : forall (F : ofield) (a b : tensor F) ax al, on_axes a ax al -> shp a = shp b ->
  exists y, mse_forward RSum a b ax = Ok y /\
  forall j, valid (shp y) j -> fle f0 (at_ y j) /\
    (at_ y j = f0 <-> forall i, valid (shp a) i -> outside (reduced (ndim a) al) i = j -> at_ a i = at_ b i).
Proof. exact mse_zero_sum. Qed.
Print Assumptions C49_zero_exact.
Theorem C49_shape_error : forall (F : ofield) r (a b : tensor F) ax, shp a <> shp b -> mse_forward r a b ax = Err AssertionError.
Proof. exact mse_shape_error. Qed.
Print Assumptions C49_shape_error.
Theorem C49_reduction_error : forall (F : ofield) (a b : tensor F) ax al, on_axes a ax al -> shp a = shp b -> mse_forward ROther a b ax = Err ValueError.
Proof. exact mse_reduction_error. Qed.
Print Assumptions C49_reduction_error.
Definition a23 := ofz [2; 3; 2] [1; 2; 3; 4; 5; 6; 7; 8; 9; 10; 11; 12].
Definition b23 := ofz [2; 3; 2] [1; 0; 3; 7; 5; 6; 0; 8; -1; 10; 10; 12].
Example C49_example :
  on_axes a23 (AxSeq []) [] /\ on_axes a23 (AxSeq [-1; 0]) [2; 0]%nat /\ outside [2; 0]%nat [2; 3; 2] = [3] /\
  block [2; 3; 2] [2; 0]%nat [1] = [[0; 1; 0]; [0; 1; 1]; [1; 1; 0]; [1; 1; 1]] /\
  show (mse_forward RSum a23 b23 (AxSeq [-1; 0])) = Some ([3], zq [53; 109; 1]) /\
  show (mse_forward RMean a23 b23 (AxSeq [-1; 0])) = Some ([3], [53 # 4; 109 # 4; 1 # 4]%Q) /\
  show (mse_forward RMean a23 b23 AxNone) = Some ([], [163 # 12]%Q) /\
  show (mse_forward RSum a23 b23 (AxInt 1)) = Some ([2; 2], zq [0; 13; 150; 0]) /\
  show (mse_forward RNone a23 b23 (AxInt 1)) = Some ([2; 3; 2], zq [0; 4; 0; 9; 0; 0; 49; 0; 100; 0; 1; 0]) /\
  show (mse_forward RSum a23 b23 (AxSeq [])) = Some ([], zq [163]).
Proof. split; [ex_on|]. split; [ex_on|]. repeat split; vm_compute; reflexivity. Qed.

(** ** C50: positive maximal value, eps >= 0, images that differ in every reduced block if eps = 0. *)
Theorem C50_formula : forall mx eps (a b : tensor RF) ax al, (0 < mx)%R -> (0 <= eps)%R -> on_axes a ax al -> shp a = shp b ->
  (forall d, In d (reduced (ndim a) al) -> (0 < nth d (shp a) 0)%Z) ->
  (eps = 0%R -> forall j, valid (outside (reduced (ndim a) al) (shp a)) j ->
     exists i, valid (shp a) i /\ outside (reduced (ndim a) al) i = j /\ at_ a i <> at_ b i) ->
  exists y, psnr_forward mx eps RMean a b ax = Ok y /\ shp y = outside (reduced (ndim a) al) (shp a) /\
    forall j L, valid (shp y) j -> block_of (shp a) (reduced (ndim a) al) j L ->
      at_ y j = (10 * log10 (mx * mx / (@lsum RF (map (fun i => (at_ a i - at_ b i) * (at_ a i - at_ b i)) L)
        / IZR (zprod (map (fun d => nth d (shp a) 0%Z) (reduced (ndim a) al))) + eps)))%R.
Proof. exact psnr_mean. Qed.
Print Assumptions C50_formula.
(** For every reduction, in terms of the mse. *)
Theorem C50_of_mse : forall mx eps r (a b : tensor RF) ax mse, (0 < mx)%R -> (0 <= eps)%R -> mse_forward r a b ax = Ok mse ->
  (forall j, valid (shp mse) j -> (0 < at_ mse j + eps)%R) ->
  exists y, psnr_forward mx eps r a b ax = Ok y /\ shp y = shp mse /\
    forall j, valid (shp mse) j -> at_ y j = (10 * log10 (mx * mx / (at_ mse j + eps)))%R.
Proof. exact psnr_of_mse. Qed.
Print Assumptions C50_of_mse.
Theorem C50_decreasing : forall mx eps r (a b a' b' : tensor RF) ax ax' m m' y y' j j', (0 < mx)%R -> (0 <= eps)%R ->
  mse_forward r a b ax = Ok m -> mse_forward r a' b' ax' = Ok m' ->
  psnr_forward mx eps r a b ax = Ok y -> psnr_forward mx eps r a' b' ax' = Ok y' ->
  valid (shp m) j -> valid (shp m') j' -> (at_ m j < at_ m' j')%R -> (at_ y' j' < at_ y j)%R.
Proof. exact psnr_decreasing. Qed.
Print Assumptions C50_decreasing.
Theorem C50_symmetric : forall mx eps r (a b : tensor RF) ax,
  (exists e, psnr_forward mx eps r a b ax = Err e /\ psnr_forward mx eps r b a ax = Err e) \/
  exists y z, psnr_forward mx eps r a b ax = Ok y /\ psnr_forward mx eps r b a ax = Ok z /\ teq y z.
Proof. exact psnr_symmetric. Qed.
Print Assumptions C50_symmetric.
Theorem C50_infinite : forall mx r (a b : tensor RF) ax m j, mse_forward r a b ax = Ok m -> valid (shp m) j -> at_ m j = 0%R ->
  psnr_forward mx 0 r a b ax = Err ValueError.
Proof. exact psnr_zero. Qed.
Print Assumptions C50_infinite.
(** Images [0; 0] and [1; 3]: mse 5, so PSNR with maximum 5 is 10 log10 5. *)
Definition r00 : tensor RF := mkT [2] (fun _ => 0%R).
Definition r13 : tensor RF := mkT [2] (fun i => IZR (1 + 2 * nth 0 i 0)).
Example C50_example : on_axes r00 AxNone [0%nat] /\
  (exists i, valid [2] i /\ outside [0%nat] i = [] /\ at_ r00 i <> at_ r13 i) /\
  exists y, psnr_forward 5 0 RMean r00 r13 AxNone = Ok y /\ shp y = [] /\ at_ y [] = (10 * log10 5)%R.
Proof.
  assert (A : on_axes r00 AxNone [0%nat]) by ex_on.
  assert (V : valid [2] [0]) by (constructor; [lia|constructor]).
  assert (D : exists i, valid [2] i /\ outside [0%nat] i = [] /\ at_ r00 i <> at_ r13 i).
  { exists [0]. split; auto. split; [reflexivity|]. cbn. lra. }
  split; auto. split; auto.
  destruct (C50_formula 5 0 r00 r13 AxNone [0%nat] ltac:(lra) ltac:(lra) A eq_refl) as [y [Y1 [Y2 Y3]]].
  - intros d [<-|[]]. cbn. lia.
  - intros _ j Hj. inversion Hj. exact D.
  - exists y. split; auto. split; auto. rewrite (Y3 [] [[0]; [1]]).
    + f_equal. f_equal. cbn. lra.
    + rewrite Y2. constructor.
    + split; [repeat constructor; cbn; intuition congruence|]. intros i. split.
      * intros [<-|[<-|[]]]; (split; [constructor; [lia|constructor]|reflexivity]).
      * intros [Hv _]. inversion Hv as [|? k ? t Hk Ht]; subst. inversion Ht. subst. assert (k = 0 \/ k = 1) as [-> | ->] by lia; cbn; auto.
Qed.
