(** C133: padding and pooling keep the order of images and do not enlarge their largest difference.

    Vocabulary (PadMono.v; PropsPadAlg.v, PropsPool.v):
    - [below x y]: x and y have one shape and no pixel of x exceeds that of y;
    - [close d x y]: x and y have one shape and corresponding pixels differ by at most d;
    - [mono_mode]: every mode but antisymmetric, odd_reflect, odd_symmetric, smooth, zeros, empty and
      functions, whatever the constant values, end values and stat lengths; [mono_par]: the same of the
      parameters of one axis;
    - [pad_call], [all_fine], [all_par]: as in PropsPadAlg.v; [on_axes], [built], [same_call],
      [every_axis], [wsum]: as in PropsPool.v. *)
From Coq Require Import QArith.
From Verif Require Import ExampleUtil PadMono PropsPadAlg PropsMirror PadTwiceEx IndexLemmas.
Open Scope Z_scope.

Theorem C133_pad_order : forall (F : ofield) fuel junk junk' p (x y : tensor F) ax al,
  pad_call fuel p x ax al -> all_fine F p x al -> all_par F mono_par p al -> below x y ->
  exists x' y', padder_forward fuel junk p x ax = Ok x' /\ padder_forward fuel junk' p y ax = Ok y' /\ below x' y'.
Proof. exact pad_order. Qed.
Print Assumptions C133_pad_order.
Theorem C133_pad_close : forall (F : ofield) fuel junk junk' p d (x y : tensor F) ax al, fle f0 d ->
  pad_call fuel p x ax al -> all_fine F p x al -> all_par F mono_par p al -> close d x y ->
  exists x' y', padder_forward fuel junk p x ax = Ok x' /\ padder_forward fuel junk' p y ax = Ok y' /\ close d x' y'.
Proof. exact pad_close. Qed.
Print Assumptions C133_pad_close.
(** Without a padder; kernels with no negative entry, summing to one for the second. *)
Theorem C133_pool_order : forall (F : ofield) fuel junk junk' (m : pool F) (x y : tensor F) ax al kers sts,
  on_axes x ax al -> built (length al) kers sts None m ->
  (forall r, (r < length al)%nat -> klen (nth r kers []) <= nth (nth r al 0%nat) (shp x) 0) ->
  (forall k e, In k kers -> In e k -> fle f0 e) -> below x y ->
  exists x' y', snd (sep_forward fuel junk m x ax) = Ok x' /\ snd (sep_forward fuel junk' m y ax) = Ok y' /\ below x' y'.
Proof. exact pool_order_valid. Qed.
Print Assumptions C133_pool_order.
Theorem C133_pool_close : forall (F : ofield) fuel junk junk' (m : pool F) d (x y : tensor F) ax al kers sts, fle f0 d ->
  on_axes x ax al -> built (length al) kers sts None m ->
  (forall r, (r < length al)%nat -> klen (nth r kers []) <= nth (nth r al 0%nat) (shp x) 0) ->
  (forall k e, In k kers -> In e k -> fle f0 e) -> (forall k, In k kers -> k = [] \/ wsum k = f1) -> close d x y ->
  exists x' y', snd (sep_forward fuel junk m x ax) = Ok x' /\ snd (sep_forward fuel junk' m y ax) = Ok y' /\ close d x' y'.
Proof. exact pool_close_valid. Qed.
Print Assumptions C133_pool_close.
(** With a padder that keeps the size. *)
Theorem C133_same_order : forall (F : ofield) fuel junk junk' (m : pool F) (x y : tensor F) ax al kers sts p ms,
  built (length al) kers sts (Some p) m -> same_call F fuel p x ax al ms kers sts -> every_axis (length al) p mono_mode ->
  (forall k e, In k kers -> In e k -> fle f0 e) -> below x y ->
  exists x' y', snd (sep_forward fuel junk m x ax) = Ok x' /\ snd (sep_forward fuel junk' m y ax) = Ok y' /\ below x' y'.
Proof. exact pool_order_same. Qed.
Print Assumptions C133_same_order.
Theorem C133_same_close : forall (F : ofield) fuel junk junk' (m : pool F) d (x y : tensor F) ax al kers sts p ms, fle f0 d ->
  built (length al) kers sts (Some p) m -> same_call F fuel p x ax al ms kers sts -> every_axis (length al) p mono_mode ->
  (forall k e, In k kers -> In e k -> fle f0 e) -> (forall k, In k kers -> k = [] \/ wsum k = f1) -> close d x y ->
  exists x' y', snd (sep_forward fuel junk m x ax) = Ok x' /\ snd (sep_forward fuel junk' m y ax) = Ok y' /\ close d x' y'.
Proof. exact pool_close_same. Qed.
Print Assumptions C133_same_close.

Definition u3 := ofz [3] [2; 2; 5].
Ltac three := let i := fresh in let V := fresh in intros i V; apply valid1 in V as [k [-> Hk]]; cbn [shp ofz ofl x3 u3] in Hk;
  assert (k = 0 \/ k = 1 \/ k = 2) as [->|[->| ->]] by lia.
Definition kmean : list QcF := [qq 1 4; qq 1 2; qq 1 4].
Example C133_example :
  below x3 u3 /\ close (qz 1) x3 u3 /\
  pad_call 9 (sym (2, 1) (MStat SMedian)) x3 (AxInt 0) [0%nat] /\ all_fine QcF (sym (2, 1) (MStat SMedian)) x3 [0%nat] /\
  all_par QcF mono_par (sym (2, 1) (MStat SMedian)) [0%nat] /\
  show (padder_forward 9 garbage (sym (2, 1) (MStat SMedian)) x3 (AxInt 0)) = Some ([6], zq [2; 2; 1; 2; 4; 2]) /\
  show (padder_forward 9 garbage (sym (2, 1) (MStat SMedian)) u3 (AxInt 0)) = Some ([6], zq [2; 2; 2; 2; 5; 2]) /\
  built 1 [kmean] [1] (Some (sym (0, 0) MLinearRamp)) (pl kmean 1 (Some (sym (0, 0) MLinearRamp))) /\
  same_call QcF 9 (sym (0, 0) MLinearRamp) x3 (AxInt 0) [0%nat] [MLinearRamp] [kmean] [1] /\
  every_axis 1 (sym (0, 0) MLinearRamp) (@mono_mode QcF) /\ (forall e, In e kmean -> fle f0 e) /\ wsum kmean = f1 /\
  show (snd (sep_forward 9 garbage (pl kmean 1 (Some (sym (0, 0) MLinearRamp))) x3 (AxInt 0))) = Some ([3], [9 # 4; 9 # 4; 15 # 4]%Q) /\
  show (snd (sep_forward 9 garbage (pl kmean 1 (Some (sym (0, 0) MLinearRamp))) u3 (AxInt 0))) = Some ([3], [11 # 4; 11 # 4; 17 # 4]%Q).
Proof.
  split. { split; [reflexivity|]. three; vm_compute; reflexivity. }
  split. { split; [reflexivity|]. three; split; vm_compute; reflexivity. }
  split; [ex_call|].
  split. { intros d [<-|[]]. eexists. split; [reflexivity|]. split; [cbn; lia|]. split; [cbn; lia|]. right. right. split; [left; cbn; lia|]. eexists. reflexivity. }
  split. { intros c q [<-|[]] Hq. cbn in Hq. injection Hq as <-. exact I. }
  split; [vm_compute; reflexivity|]. split; [vm_compute; reflexivity|].
  split; [apply pl_built; [discriminate|lia]|]. split; [apply sym_call; [lia|unfold klen; cbn; lia|exact I]|].
  split. { eexists. eexists. eexists. split; [reflexivity|]. split; [reflexivity|]. split; [reflexivity|]. intros r Hr. destruct r; [exact I|cbn in Hr; lia]. }
  split. { intros e [<-|[<-|[<-|[]]]]; vm_compute; reflexivity. }
  split; [apply Qcanon.Qc_is_canon; vm_compute; reflexivity|]. split; vm_compute; reflexivity.
Qed.

(** The other modes reverse the order: a brighter image may be darker outside. *)
Lemma not_below n (r r' : res (tensor QcF)) l l' k : show r = Some ([n], l) -> show r' = Some ([n], l') -> (k < length (indices [n]))%nat ->
  ~ (nth k l 0 <= nth k l' 0)%Q -> exists y y', r = Ok y /\ r' = Ok y' /\ ~ below y y'.
Proof.
  intros H H' Hk Hne. destruct r as [y|]; [|discriminate]. destruct r' as [y'|]; [|discriminate]. exists y, y'. split; auto. split; auto. intros [E1 E2].
  destruct (show_nth y _ _ _ H Hk) as [S1 V1]. destruct (show_nth y' _ _ _ H' Hk) as [S2 V2].
  apply Hne. rewrite <- V1, <- V2. rewrite S1 in E2. specialize (E2 _ (indices_valid _ _ (nth_In _ [] Hk))).
  apply Qle_bool_iff. exact E2.
Qed.
Definition z3 := ofz [3] [0; 0; 0].
Definition v3 := ofz [3] [0; 1; 0].
Definition w3 := ofz [3] [1; 1; 1].
Theorem C133_modes_differ : forall m : mode QcF, In m [MAntisymmetric; MOddReflect; MOddSymmetric; MSmooth] ->
  exists p x y x' y', p_mode p = NItem m /\ pad_call 9 p x (AxInt 0) [0%nat] /\ all_fine QcF p x [0%nat] /\ below x y /\
  padder_forward 9 garbage p x (AxInt 0) = Ok x' /\ padder_forward 9 garbage p y (AxInt 0) = Ok y' /\ ~ below x' y'.
Proof.
  intros m Hm.
  assert (G : forall y, below z3 y -> (exists l l', show (padder_forward 9 garbage (sym (2, 0) m) z3 (AxInt 0)) = Some ([5], l) /\
      show (padder_forward 9 garbage (sym (2, 0) m) y (AxInt 0)) = Some ([5], l') /\ (~ (nth 0 l 0 <= nth 0 l' 0)%Q \/ ~ (nth 1 l 0 <= nth 1 l' 0)%Q)) ->
    exists p x y x' y', p_mode p = NItem m /\ pad_call 9 p x (AxInt 0) [0%nat] /\ all_fine QcF p x [0%nat] /\ below x y /\
    padder_forward 9 garbage p x (AxInt 0) = Ok x' /\ padder_forward 9 garbage p y (AxInt 0) = Ok y' /\ ~ below x' y').
  { intros y Hy [l [l' [H1 [H2 H3]]]]. exists (sym (2, 0) m), z3, y.
    assert (E : exists x' y', padder_forward 9 garbage (sym (2, 0) m) z3 (AxInt 0) = Ok x' /\ padder_forward 9 garbage (sym (2, 0) m) y (AxInt 0) = Ok y' /\ ~ below x' y').
    { destruct H3 as [H3|H3]; [apply (not_below 5 _ _ l l' 0)|apply (not_below 5 _ _ l l' 1)]; auto; try (vm_compute; lia). }
    destruct E as [x' [y' E]]. exists x', y'. split; [reflexivity|]. split; [clear - Hm; destruct Hm as [<-|[<-|[<-|[<-|[]]]]]; ex_call|].
    split; [|split; [auto|exact E]]. intros d [<-|[]]. eexists. split; [reflexivity|]. split; [cbn; lia|]. split; [cbn; lia|]. right. right. split; [left; cbn; lia|].
    destruct Hm as [<-|[<-|[<-|[<-|[]]]]]; eexists; reflexivity. }
  assert (Bv : below z3 v3) by (split; [reflexivity|]; three; vm_compute; reflexivity).
  assert (Bw : below z3 w3) by (split; [reflexivity|]; three; vm_compute; reflexivity).
  destruct Hm as [<-|[<-|[<-|[<-|[]]]]]; [apply (G w3 Bw)|apply (G v3 Bv)|apply (G v3 Bv)|apply (G v3 Bv)]; clear G Bv Bw.
  - exists (zq [0; 0; 0; 0; 0]), (zq [-1; -1; 1; 1; 1]). split; [vm_compute; reflexivity|]. split; [vm_compute; reflexivity|]. left. cbv. congruence.
  - exists (zq [0; 0; 0; 0; 0]), (zq [0; -1; 0; 1; 0]). split; [vm_compute; reflexivity|]. split; [vm_compute; reflexivity|]. right. cbv. congruence.
  - exists (zq [0; 0; 0; 0; 0]), (zq [-1; 0; 0; 1; 0]). split; [vm_compute; reflexivity|]. split; [vm_compute; reflexivity|]. left. cbv. congruence.
  - exists (zq [0; 0; 0; 0; 0]), (zq [-2; -1; 0; 1; 0]). split; [vm_compute; reflexivity|]. split; [vm_compute; reflexivity|]. left. cbv. congruence.
Qed.
Print Assumptions C133_modes_differ.
Theorem C133_kernel_differs : exists (m : pool QcF) k x y x' y', built 1 [k] [1] None m /\ klen k = 2 /\ on_axes x (AxInt 0) [0%nat] /\ shp x = [3] /\ below x y /\
  snd (sep_forward 9 garbage m x (AxInt 0)) = Ok x' /\ snd (sep_forward 9 garbage m y (AxInt 0)) = Ok y' /\ ~ below x' y'.
Proof.
  exists (pl [qz 2; qz (-1)] 1 None), [qz 2; qz (-1)], z3, v3.
  destruct (not_below 2 (snd (sep_forward 9 garbage (pl [qz 2; qz (-1)] 1 None) z3 (AxInt 0))) (snd (sep_forward 9 garbage (pl [qz 2; qz (-1)] 1 None) v3 (AxInt 0)))
    (zq [0; 0]) (zq [-1; 2]) 0) as [x' [y' E]]; [vm_compute; reflexivity|vm_compute; reflexivity|vm_compute; lia|cbv; congruence|].
  exists x', y'. split; [apply pl_built; [discriminate|lia]|]. split; [reflexivity|].
  split; [split; [reflexivity|intros a [<-|[]]; unfold ndim; cbn; lia|repeat constructor; intros []]|]. split; [reflexivity|].
  split; [split; [reflexivity|]; three; vm_compute; reflexivity|exact E].
Qed.
Print Assumptions C133_kernel_differs.
