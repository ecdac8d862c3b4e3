(** C139: how far rounding can take separable pooling from the exact result.

    Vocabulary (RoundModel.v, RoundProofs.v; PropsPool.v):
    - [fl_forward e fuel junk m x ax y]: y is a result that SeparablePoolNd may give in floating-point
      arithmetic: every kernel entry, product and addition may be rounded, with a relative error of at most e, and the
      additions of one window may come in any order and any bracketing;
    - [bounded B x]: no pixel of x exceeds B in absolute value;
    - [within d y x]: y has x's shape and no pixel differs by more than d;
    - [gain kers]: the product, over the axes whose kernel is not empty, of the sum of the kernel's absolute values;
    - [roundings kers]: the sum over those axes of the kernel's length plus one;
    - [exact_mode B]: replicate, circular, periodize, symmetric, reflect, antisymmetric, maximum, minimum, median, and
      constant with constants of at most B in absolute value: padding without arithmetic;
    - [on_axes], [built], [same_call], [every_axis], [wsum]: as in PropsPool.v. *)
From Coq Require Import QArith Qcanon Sorting.Permutation.
From Verif Require Import ExampleUtil RoundProofs PropsPadAlg PropsMirror PadTwiceEx IndexLemmas.
Open Scope Z_scope.

Theorem C139_valid : forall (F : ofield) e fuel junk (m : pool F) (x y' : tensor F) ax al kers sts B, fle f0 e ->
  on_axes x ax al -> built (length al) kers sts None m ->
  (forall r, (r < length al)%nat -> klen (nth r kers []) <= nth (nth r al 0%nat) (shp x) 0) -> bounded B x ->
  fl_forward e fuel junk m x ax y' ->
  exists y, snd (sep_forward fuel junk m x ax) = Ok y /\
    within (fmul (fsub (fpow (fadd f1 e) (roundings kers)) f1) (fmul (gain kers) B)) y' y.
Proof. exact round_valid. Qed.
Print Assumptions C139_valid.
Theorem C139_same : forall (F : ofield) e fuel junk (m : pool F) (x y' : tensor F) ax al kers sts p ms B, fle f0 e ->
  built (length al) kers sts (Some p) m -> same_call F fuel p x ax al ms kers sts -> every_axis (length al) p (exact_mode B) ->
  bounded B x -> fl_forward e fuel junk m x ax y' ->
  exists y, snd (sep_forward fuel junk m x ax) = Ok y /\
    within (fmul (fsub (fpow (fadd f1 e) (roundings kers)) f1) (fmul (gain kers) B)) y' y.
Proof. exact round_same. Qed.
Print Assumptions C139_same.
(** Averages: kernels without negative entries that sum to one. *)
Theorem C139_mean_valid : forall (F : ofield) e fuel junk (m : pool F) (x y' : tensor F) ax al kers sts B, fle f0 e ->
  on_axes x ax al -> built (length al) kers sts None m ->
  (forall r, (r < length al)%nat -> klen (nth r kers []) <= nth (nth r al 0%nat) (shp x) 0) ->
  (forall k v, In k kers -> In v k -> fle f0 v) -> (forall k, In k kers -> k = [] \/ wsum k = f1) -> bounded B x ->
  fl_forward e fuel junk m x ax y' ->
  exists y, snd (sep_forward fuel junk m x ax) = Ok y /\ within (fmul (fsub (fpow (fadd f1 e) (roundings kers)) f1) B) y' y.
Proof. exact round_valid_mean. Qed.
Print Assumptions C139_mean_valid.
Theorem C139_mean_same : forall (F : ofield) e fuel junk (m : pool F) (x y' : tensor F) ax al kers sts p ms B, fle f0 e ->
  built (length al) kers sts (Some p) m -> same_call F fuel p x ax al ms kers sts -> every_axis (length al) p (exact_mode B) ->
  (forall k v, In k kers -> In v k -> fle f0 v) -> (forall k, In k kers -> k = [] \/ wsum k = f1) -> bounded B x ->
  fl_forward e fuel junk m x ax y' ->
  exists y, snd (sep_forward fuel junk m x ax) = Ok y /\ within (fmul (fsub (fpow (fadd f1 e) (roundings kers)) f1) B) y' y.
Proof. exact round_same_mean. Qed.
Print Assumptions C139_mean_same.
(** As long as twice the number of roundings times e is at most one, the factor is at most that. *)
Theorem C139_linear : forall (F : ofield) (e : F) n, fle f0 e -> fle (fmul (fofZ (2 * Z.of_nat n)) e) f1 ->
  fle (fsub (fpow (fadd f1 e) n) f1) (fmul (fofZ (2 * Z.of_nat n)) e).
Proof. exact pow_linear. Qed.
Print Assumptions C139_linear.
(** Two kernels of 11 entries in single precision. *)
Example C139_linear_example : roundings [repeat (@f1 QcF) 11%nat; repeat (@f1 QcF) 11%nat] = 24%nat /\ fle (fmul (fofZ (2 * Z.of_nat 24%nat)) (qq 1 16777216)) (@f1 QcF) /\ fle (fmul (fofZ (2 * Z.of_nat 24%nat)) (qq 1 16777216)) (qq 3 1000000).
Proof. split; [reflexivity|]. split; vm_compute; reflexivity. Qed.
(** The exact result is one of the possible ones. *)
Theorem C139_exact : forall (F : ofield) e fuel junk (m : pool F) (x y : tensor F) ax, fle f0 e ->
  snd (sep_forward fuel junk m x ax) = Ok y -> fl_forward e fuel junk m x ax y.
Proof. exact forward_exact. Qed.
Print Assumptions C139_exact.

(** The mean of 1, 2 and 4 with a tenth of relative error: thirds become 3/10; 21/10 and, adding 4's product
    first and rounding once more, 2 are possible; 7/3 is exact. *)
Definition kthird : list QcF := [qq 1 3; qq 1 3; qq 1 3].
Definition mthird := pl kthird 1 None.
Definition prods (o : Z) : QcF := if o =? 0 then qq 3 10 else if o =? 1 then qq 6 10 else qq 12 10.
Lemma third_dot v : fl_sum (qq 1 10) prods [0; 1; 2] v -> fl_forward (qq 1 10) 9 garbage mthird x3 (AxInt 0) (ofl [1] [v]).
Proof.
  intros H. exists [0], mthird, x3. split; [reflexivity|]. split; [left; reflexivity|]. split; [reflexivity|].
  exists 3. split; [reflexivity|]. cbn [Z.eqb]. exists 1, 0%nat. eexists. exists kthird, (ofl [1] [v]). split; [reflexivity|]. split; [reflexivity|]. split; [reflexivity|]. split; [reflexivity|].
  split; [|reflexivity]. split; [reflexivity|]. split; [reflexivity|]. intros j V. apply valid1 in V as [k [-> Hk]]. assert (k = 0) as -> by lia.
  exists (fun _ => qq 3 10), prods. split; [|exact H]. intros o Ho. cbn [length kthird] in Ho. assert (o = 0 \/ o = 1 \/ o = 2) as [->|[->| ->]] by lia; split; vm_compute; reflexivity.
Qed.
Example C139_example :
  on_axes x3 (AxInt 0) [0%nat] /\ built 1 [kthird] [1] None mthird /\ bounded (qz 4) x3 /\ fle f0 (qq 1 10) /\
  fl_forward (qq 1 10) 9 garbage mthird x3 (AxInt 0) (ofl [1] [qq 21 10]) /\
  fl_forward (qq 1 10) 9 garbage mthird x3 (AxInt 0) (ofl [1] [qq 2 1]) /\
  (forall e, In e kthird -> fle f0 e) /\ wsum kthird = f1 /\ roundings [kthird] = 4%nat /\ gain [kthird] = f1 /\
  show (snd (sep_forward 9 garbage mthird x3 (AxInt 0))) = Some ([1], [7 # 3]%Q) /\
  same_call QcF 9 (sym (0, 0) MReflect) x3 (AxInt 0) [0%nat] [MReflect] [kthird] [1] /\
  built 1 [kthird] [1] (Some (sym (0, 0) MReflect)) (pl kthird 1 (Some (sym (0, 0) MReflect))) /\
  every_axis 1 (sym (0, 0) MReflect) (exact_mode (qz 4)).
Proof.
  split; [constructor; [reflexivity|intros a [<-|[]]; vm_compute; lia|constructor; [intros []|constructor]]|].
  split; [apply pl_built; [discriminate|lia]|].
  split. { intros i V. apply valid1 in V as [k [-> Hk]]. cbn [shp x3 ofz ofl] in Hk. assert (k = 0 \/ k = 1 \/ k = 2) as [->|[->| ->]] by lia; vm_compute; reflexivity. }
  split; [vm_compute; reflexivity|].
  split. { apply third_dot. apply (fl_add _ _ [0; 1] [2] _ (qq 9 10) (qq 12 10)); [|apply (fl_one (qq 1 10) prods 2)|reflexivity|vm_compute; reflexivity].
    apply (fl_add _ _ [0] [1] _ (qq 3 10) (qq 6 10)); [apply (fl_one (qq 1 10) prods 0)|apply (fl_one (qq 1 10) prods 1)|reflexivity|vm_compute; reflexivity]. }
  split. { apply third_dot. apply (fl_add _ _ [2; 0] [1] _ (qq 15 10) (qq 6 10)); [|apply (fl_one (qq 1 10) prods 1)| |vm_compute; reflexivity].
    - apply (fl_add _ _ [2] [0] _ (qq 12 10) (qq 3 10)); [apply (fl_one (qq 1 10) prods 2)|apply (fl_one (qq 1 10) prods 0)|reflexivity|vm_compute; reflexivity].
    - cbn. apply Permutation_sym. apply (Permutation_cons_app [0; 1] [] 2). apply perm_skip. reflexivity. }
  split. { intros e [<-|[<-|[<-|[]]]]; vm_compute; reflexivity. }
  split; [apply Qc_is_canon; vm_compute; reflexivity|]. split; [reflexivity|]. split; [apply Qc_is_canon; vm_compute; reflexivity|].
  split; [vm_compute; reflexivity|]. split; [apply sym_call; [lia|unfold klen; cbn; lia|exact I]|]. split; [apply pl_built; [discriminate|lia]|].
  eexists. eexists. eexists. split; [reflexivity|]. split; [reflexivity|]. split; [reflexivity|]. intros r Hr. destruct r; [exact I|cbn in Hr; lia].
Qed.
