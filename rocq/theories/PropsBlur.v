(** C118: blurring never moves two images apart, and keeps the mean.

    Vocabulary (BlurContract.v, BlurGauss.v; PropsPool.v, PropsAdjoint.v, PropsGauss.v):
    - [bsum sh f]: the sum of f over all indices of an image of shape sh;
    - [window kers]: the kernels have no negative entry and each sums to 1 or is empty (empty: the axis is left alone);
    - [sq v]: v times v; [mse_forward RMean]: the MSE metric of the package, over all axes for AxNone. *)
From Coq Require Import QArith Qcanon Reals Lra.
From Verif Require Import BlurGauss PropsMirror PropsPool2 PropsAdjoint ExampleUtil.
Open Scope Z_scope.

(** ** C118: both the squared and the absolute differences of the blurred images sum to at most those of the images. *)
Theorem C118_contract : forall (F : ofield) fuel junk fuel' junk' (f : pool F) (x y : tensor F) ax al kers p ms,
  built (length al) kers (repeat 1 (length al)) (Some p) f ->
  same_call F fuel p x ax al ms kers (repeat 1 (length al)) -> same_call F fuel' p y ax al ms kers (repeat 1 (length al)) -> shp y = shp x ->
  (forall r, (r < length al)%nat -> Z.odd (klen (eff_kernel (nth r kers []))) = true /\
     (nth r ms MUnknown = MCircular \/ nth r ms MUnknown = MSymmetric /\ rev (nth r kers []) = nth r kers [])) \/ ms = repeat MCircular (length al) ->
  (forall k, In k kers -> (k = [] \/ wsum k = f1) /\ (forall e, In e k -> fle f0 e)) ->
  exists u v, snd (sep_forward fuel junk f x ax) = Ok u /\ snd (sep_forward fuel' junk' f y ax) = Ok v /\ shp u = shp x /\ shp v = shp x /\
    fle (bsum (shp x) (fun i => sq F (fsub (at_ u i) (at_ v i)))) (bsum (shp x) (fun i => sq F (fsub (at_ x i) (at_ y i)))) /\
    fle (bsum (shp x) (fun i => fabs (fsub (at_ u i) (at_ v i)))) (bsum (shp x) (fun i => fabs (fsub (at_ x i) (at_ y i)))).
Proof. exact blur_contract. Qed.
Print Assumptions C118_contract.
(** The package's MSE of the blurred images is at most that of the images. *)
Theorem C118_mse : forall (F : ofield) fuel junk fuel' junk' (f : pool F) (x y : tensor F) ax al kers p ms,
  built (length al) kers (repeat 1 (length al)) (Some p) f ->
  same_call F fuel p x ax al ms kers (repeat 1 (length al)) -> same_call F fuel' p y ax al ms kers (repeat 1 (length al)) -> shp y = shp x ->
  (forall n, In n (shp x) -> 1 <= n) ->
  (forall r, (r < length al)%nat -> Z.odd (klen (eff_kernel (nth r kers []))) = true /\
     (nth r ms MUnknown = MCircular \/ nth r ms MUnknown = MSymmetric /\ rev (nth r kers []) = nth r kers [])) \/ ms = repeat MCircular (length al) ->
  (forall k, In k kers -> (k = [] \/ wsum k = f1) /\ (forall e, In e k -> fle f0 e)) ->
  exists u v s t, snd (sep_forward fuel junk f x ax) = Ok u /\ snd (sep_forward fuel' junk' f y ax) = Ok v /\
    mse_forward RMean u v AxNone = Ok s /\ mse_forward RMean x y AxNone = Ok t /\ shp s = [] /\ shp t = [] /\ fle (at_ s []) (at_ t []).
Proof. exact mse_blur. Qed.
Print Assumptions C118_mse.
(** In particular for the Gaussian blur: order 0, odd sizes, stride 1, each axis padded circularly or symmetrically. *)
Theorem C118_gauss : forall fuel junk junk' (ks : nds Z) (sigma : nds R) (order : nds Z) (stride : nds (option Z)) lk lsig lo ss p ms (x y : tensor RF) ax al,
  gauss_spec (length al) ks sigma order stride lk lsig lo ss ->
  (forall o, In o lo -> o = 0) -> (forall k, In k lk -> Z.odd k = true) -> (forall s, In s ss -> s = Some 1) ->
  gauss_call fuel p x ax al ms lk -> shp y = shp x -> (forall n, In n (shp x) -> 1 <= n) ->
  (forall m, In m ms -> m = MCircular \/ m = MSymmetric) ->
  exists f u v s t, gauss_init ks sigma order stride (Some p) = Ok f /\
    snd (sep_forward (F := RF) fuel junk f x ax) = Ok u /\ snd (sep_forward (F := RF) fuel junk' f y ax) = Ok v /\ shp u = shp x /\ shp v = shp x /\
    @bsum RF (shp x) (at_ u) = @bsum RF (shp x) (at_ x) /\
    mse_forward (F := RF) RMean u v AxNone = Ok s /\ mse_forward (F := RF) RMean x y AxNone = Ok t /\ (at_ s [] <= at_ t [])%R.
Proof. exact gauss_blur. Qed.
Print Assumptions C118_gauss.
Definition quarter : list QcF := [qq 1 4; qq 1 2; qq 1 4].
Definition p121 : tensor QcF := ofl [3] (map qz [1; 2; 1]).
Definition zero3 : tensor QcF := ofl [3] (map qz [0; 0; 0]).
Definition blurred_mse m := u <- snd (sep_forward 9 garbage (pl quarter 1 (Some (sym (0, 0) m))) p121 (AxInt 0));;
  v <- snd (sep_forward 9 garbage (pl quarter 1 (Some (sym (0, 0) m))) zero3 (AxInt 0));; mse_forward RMean u v AxNone.
Lemma quarter_call m x : fills m -> shp x = [3] -> same_call QcF 9 (sym (0, 0) m) x (AxInt 0) [0%nat] [m] [quarter] (repeat 1 1).
Proof. intros A Sx. apply (same_call_shape QcF 9 _ x3); auto. apply sym_call; [lia|unfold klen; cbn; lia|exact A]. Qed.
Example C118_example :
  built 1 [quarter] (repeat 1 1) (Some (sym (0, 0) MCircular)) (pl quarter 1 (Some (sym (0, 0) MCircular))) /\
  built 1 [quarter] (repeat 1 1) (Some (sym (0, 0) MSymmetric)) (pl quarter 1 (Some (sym (0, 0) MSymmetric))) /\
  same_call QcF 9 (sym (0, 0) MCircular) p121 (AxInt 0) [0%nat] [MCircular] [quarter] (repeat 1 1) /\
  same_call QcF 9 (sym (0, 0) MSymmetric) p121 (AxInt 0) [0%nat] [MSymmetric] [quarter] (repeat 1 1) /\
  same_call QcF 9 (sym (0, 0) MSymmetric) zero3 (AxInt 0) [0%nat] [MSymmetric] [quarter] (repeat 1 1) /\
  rev quarter = quarter /\ Z.odd (klen (eff_kernel quarter)) = true /\ (forall e, In e quarter -> fle f0 e) /\ wsum quarter = f1 /\
  show (blurred_mse MCircular) = Some ([], [43 # 24]%Q) /\ show (blurred_mse MSymmetric) = Some ([], [43 # 24]%Q) /\
  show (mse_forward RMean p121 zero3 AxNone) = Some ([], zq [2]) /\
  gauss_spec 1 (NItem 3) (NItem 1%R) (NItem 0) (NItem (Some 1)) [3] [1%R] [0] [Some 1].
Proof.
  split; [apply pl_built; [discriminate|lia]|]. split; [apply pl_built; [discriminate|lia]|].
  split; [apply quarter_call; [exact I|reflexivity]|]. split; [apply quarter_call; [exact I|reflexivity]|]. split; [apply quarter_call; [exact I|reflexivity]|].
  split; [reflexivity|]. split; [reflexivity|]. split. { intros e [<-|[<-|[<-|[]]]]; vm_compute; reflexivity. }
  split; [apply Qc_is_canon; vm_compute; reflexivity|].
  split; [vm_compute; reflexivity|]. split; [vm_compute; reflexivity|]. split; [vm_compute; reflexivity|].
  split; auto; try reflexivity.
  - intros k [<-|[]]; lia.
  - intros s [<-|[]]; lra.
  - intros o [<-|[]]; lia.
  - intros s [E|[]]; injection E as <-; lia.
Qed.
(** With reflect padding the same window moves two images apart: 9/4 against 2. *)
Theorem C118_reflect_differs : exists s t,
  same_call QcF 9 (sym (0, 0) MReflect) p121 (AxInt 0) [0%nat] [MReflect] [quarter] (repeat 1 1) /\
  blurred_mse MReflect = Ok s /\ mse_forward RMean p121 zero3 AxNone = Ok t /\ ~ fle (at_ s []) (at_ t []).
Proof.
  assert (S : show (blurred_mse MReflect) = Some ([], [9 # 4]%Q)) by (vm_compute; reflexivity).
  assert (T : show (mse_forward RMean p121 zero3 AxNone) = Some ([], zq [2])) by (vm_compute; reflexivity).
  destruct (blurred_mse MReflect) as [s|]; [|discriminate]. destruct (mse_forward RMean p121 zero3 AxNone) as [t|]; [|discriminate].
  exists s, t. split; [apply quarter_call; [exact I|reflexivity]|]. split; [reflexivity|]. split; [reflexivity|].
  cbn [show] in S, T. assert (S1 : shp s = []) by congruence. assert (T1 : shp t = []) by congruence. rewrite S1 in S. rewrite T1 in T.
  change (zq [2]) with [2%Q] in T. cbn [indices map] in S, T. assert (S2 : this (at_ s []) = (9 # 4)%Q) by congruence. assert (T2 : this (at_ t []) = 2%Q) by congruence.
  unfold fle. change (Qle_bool (this (at_ s [])) (this (at_ t [])) <> true). rewrite S2, T2. vm_compute. discriminate.
Qed.
Print Assumptions C118_reflect_differs.
