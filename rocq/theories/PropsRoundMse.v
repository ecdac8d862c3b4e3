(** C140: the MSE computed with rounding has a small relative error.

    Vocabulary (RoundMetricModel.v, RoundMetric.v; PropsMetrics.v):
    - [fl_mse_forward e r a b ax y]: y is a result that MSE may give in floating-point arithmetic: differences,
      squares, additions (in any order and bracketing), the reciprocal of the count and the product with it may be rounded, each
      with a relative error of at most e;
    - [reduced nd al]: the axes summed over: al, or all of them if al is empty; [block_of s al j L]: L lists the
      indices that agree with j outside al; [summands r s al j L]: the indices that contribute to result j, which
      is [j] alone for reduction "none";
    - [mse_roundings r n]: 3 for "none", n + 2 for "sum", n + 4 for "mean". *)
From Coq Require Import QArith Qcanon Sorting.Permutation.
From Verif Require Import ExampleUtil RoundMetric PropsMirror IndexLemmas PadTwiceEx.
Open Scope Z_scope.

Theorem C140_mse : forall (F : ofield) e r (a b y' : tensor F) ax al, fle f0 e -> on_axes a ax al ->
  (r = RMean -> forall d, In d (reduced (ndim a) al) -> 0 < nth d (shp a) 0) -> fl_mse_forward e r a b ax y' ->
  exists y, mse_forward r a b ax = Ok y /\ shp y' = shp y /\
    forall j L, valid (shp y) j -> summands r (shp a) (reduced (ndim a) al) j L -> fle f0 (at_ y j) /\
      fle (fabs (fsub (at_ y' j) (at_ y j))) (fmul (fsub (fpow (fadd f1 e) (mse_roundings r (length L))) f1) (at_ y j)).
Proof. exact mse_rounding. Qed.
Print Assumptions C140_mse.
(** The rounded MSE is not negative, and zero exactly if the exact one is. *)
Theorem C140_zero : forall (F : ofield) e r (a b y' : tensor F) ax al, fle f0 e -> on_axes a ax al ->
  (r = RMean -> forall d, In d (reduced (ndim a) al) -> 0 < nth d (shp a) 0) -> fl_mse_forward e r a b ax y' ->
  forall j L, valid (shp y') j -> summands r (shp a) (reduced (ndim a) al) j L ->
  flt (fsub (fpow (fadd f1 e) (mse_roundings r (length L))) f1) f1 ->
  fle f0 (at_ y' j) /\ exists y, mse_forward r a b ax = Ok y /\ (at_ y' j = f0 <-> at_ y j = f0).
Proof. exact mse_rounding_zero. Qed.
Print Assumptions C140_zero.
(** The exact MSE is one of the possible results. *)
Theorem C140_exact : forall (F : ofield) e r (a b y : tensor F) ax al, fle f0 e -> on_axes a ax al -> shp a = shp b ->
  (r = RMean -> forall d, In d (reduced (ndim a) al) -> 0 < nth d (shp a) 0) ->
  mse_forward r a b ax = Ok y -> fl_mse_forward e r a b ax y.
Proof. exact mse_exact. Qed.
Print Assumptions C140_exact.

(** 1, 2, 4 against 2, 2, 2 with a hundredth of relative error: 5/3 exactly; 4.02 for 4, 0.33 for 1/3 and 1.65
    for the mean. *)
Definition t3 := ofz [3] [2; 2; 2].
Example C140_example :
  on_axes x3 (AxInt 0) [0%nat] /\ block_of [3] [0%nat] [] [[0]; [1]; [2]] /\
  show (mse_forward RMean x3 t3 (AxInt 0)) = Some ([], [5 # 3]%Q) /\
  fl_mse_forward (qq 1 100) RMean x3 t3 (AxInt 0) (ofl [] [qq 165 100]) /\
  flt (fsub (fpow (fadd f1 (qq 1 100)) (mse_roundings RMean 3)) f1) f1.
Proof.
  split; [constructor; [reflexivity|intros a [<-|[]]; vm_compute; lia|constructor; [intros []|constructor]]|].
  split; [exact (block_ok [3] [0%nat] [])|].
  split; [vm_compute; reflexivity|]. split; [|vm_compute; reflexivity].
  split; [reflexivity|]. exists [0], (ofl [3] [qz 1; qz 0; qq 402 100]). split; [reflexivity|]. split.
  - split; [reflexivity|]. intros i V. apply valid1 in V as [k [-> Hk]]. cbn [shp x3 ofz ofl] in Hk. assert (k = 0 \/ k = 1 \/ k = 2) as [->|[->| ->]] by lia.
    + exists (qz (-1)). split; vm_compute; reflexivity.
    + exists (qz 0). split; vm_compute; reflexivity.
    + exists (qz 2). split; vm_compute; reflexivity.
  - cbn [fl_reduce]. exists [0%nat], (ofl [] [qz 5]). split; [reflexivity|]. split.
    + exists [0%nat]. split; [reflexivity|]. split; [constructor; [intros []|constructor]|]. split; [reflexivity|]. intros j V. inversion V. subst. right.
      change (block _ _ _) with [[0]; [1]; [2]]. cbn [ofl at_].
      apply (fl_add _ _ [[0]] [[1]; [2]] _ (qz 1) (qq 402 100)); [apply (fl_one (qq 1 100) (at_ (ofl [3] [qz 1; qz 0; qq 402 100])) [0])| |reflexivity|vm_compute; reflexivity].
      apply (fl_add _ _ [[1]] [[2]] _ (qz 0) (qq 402 100)); [apply (fl_one (qq 1 100) (at_ (ofl [3] [qz 1; qz 0; qq 402 100])) [1])|
        apply (fl_one (qq 1 100) (at_ (ofl [3] [qz 1; qz 0; qq 402 100])) [2])|reflexivity|vm_compute; reflexivity].
    + split; [reflexivity|]. split; [discriminate|]. intros j V. inversion V. subst. exists (qq 33 100). split; vm_compute; reflexivity.
Qed.
