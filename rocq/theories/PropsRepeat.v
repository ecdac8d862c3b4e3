(** C126: axes can be repeated.

    Vocabulary (PadRepeat.v, PoolRepeat.v; PropsPad.v, PropsPool.v):
    - [names x ax al]: the axes argument stands for the list al of axes of x, in order, possibly with repetitions;
    - [step_free m]: every mode but periodize, linear_ramp, zeros, empty, callables and unknown names;
    - [repeat_call], [repeat_fine]: a padding of a list of axes, enough fuel, widths at least 0, step_free modes
      (any mode where both widths are 0), and a sample to pad from where the mode needs one;
    - [one_by_one fuel junk p x al]: pad the axes of al one at a time, from the left, each by a padder of its own;
    - [single k s]: the module SeparablePoolNd(kernel=k, stride=s) without padder;
    - [axis_by_axis fuel junk x al kers sts]: pool the axes of al one at a time, from the left, by [single] modules;
    - [on_axis al vs d]: the sum of the vs that belong to the occurrences of axis d in al;
    - [same_repeat]: a filter with a same padder of step_free modes, at least one sample on every named axis. *)
From Coq Require Import QArith Qcanon.
From Verif Require Import PoolRepeat RepeatEx PropsMirror ExampleUtil.
Open Scope Z_scope.

(** ** C126 (padding): a repeated axis is padded again, starting from what the last occurrence left. *)
Theorem C126_padding : forall (F : ofield) fuel junk junk' (p : padder F) (x : tensor F) ax al,
  repeat_call fuel p x ax al -> repeat_fine p x al ->
  exists y y', padder_forward fuel junk p x ax = Ok y /\ one_by_one fuel junk' p x (last_axes p al) = Ok y' /\ teq y y' /\
    shp y = out_shape p (shp x) al.
Proof. exact repeat_one_by_one. Qed.
Print Assumptions C126_padding.
Definition prr : padder QcF := mkPadder (NList [(1, 1); (2, 0)]) (NList [MReplicate; MReflect]) (NItem (qz 7, qz 8)) (NItem (qz 0, qz 10)) (NItem (Some 2, None)) 2.
Example C126_padding_example : repeat_call 9 prr x3r (AxSeq [0; -1]) [0%nat; 0%nat] /\ repeat_fine prr x3r [0%nat; 0%nat] /\
  show (padder_forward 9 garbage (pad1d (1, 1) MReplicate) x3r (AxInt 0)) = Some ([5], zq [1; 1; 2; 4; 4]) /\
  show (padder_forward 9 garbage prr x3r (AxSeq [0; -1])) = Some ([7], zq [2; 1; 1; 1; 2; 4; 4]) /\
  show (one_by_one 9 garbage prr x3r [0%nat; 0%nat]) = Some ([7], zq [2; 1; 1; 1; 2; 4; 4]).
Proof.
  split; [ex_repeat|]. split.
  { intros l1 a l2 E. change (last_axes prr [0%nat; 0%nat]) with [0%nat; 0%nat] in E.
    destruct l1 as [|b l1]; [|destruct l1 as [|c l1]; [|destruct l1; discriminate]]; injection E; intros; subst;
    (eexists; split; [reflexivity|]; split; [cbn; lia|]; split; [cbn; lia|]; right; split; [reflexivity|left; cbn; lia]). }
  split; [vm_compute; reflexivity|]. split; vm_compute; reflexivity.
Qed.
(** linear_ramp takes the whole room at its first turn, periodize makes room for two parity samples: neither is a chain of paddings. *)
Theorem C126_padding_differs : forall m : mode QcF, In m [MLinearRamp; MPeriodize] ->
  exists fuel junk p (x : tensor QcF), repeat_call fuel p x (AxSeq [0; 0]) [0%nat; 0%nat] /\ p_mode p = NItem m /\ p_width p = NItem (1, 1) /\
    exists y y', padder_forward fuel junk p x (AxSeq [0; 0]) = Ok y /\ one_by_one fuel junk p x [0%nat; 0%nat] = Ok y' /\ ~ teq y y'.
Proof. exact repeat_differs. Qed.
Print Assumptions C126_padding_differs.

(** ** C126 (pooling without a padder): one call for each entry of the list of axes, results and errors alike. *)
Theorem C126_pooling : forall (F : ofield) fuel junk fuel' junk' (m : pool F) (x : tensor F) ax al kers sts,
  names x ax al -> built (length al) kers sts None m ->
  snd (sep_forward fuel junk m x ax) = axis_by_axis fuel' junk' x al kers sts.
Proof. exact pool_chain. Qed.
Print Assumptions C126_pooling.
Theorem C126_single : forall (F : ofield) (k : list F) s, k <> [] -> 1 <= s -> sep_init (NItem k) (NItem (Some s)) None = Ok (single k s).
Proof. exact single_init. Qed.
Print Assumptions C126_single.
Definition x5r := ofz [5] [1; 2; 4; 0; 3].
Definition mrr : pool QcF := mkPool (NList [k12; k12]) (NList [2; 2]) (NList [1; 2]) None 2.
Lemma mrr_built : built 2 [k12; k12] [1; 2] None mrr.
Proof. apply (built_init 2 [k12; k12] (NList [k12; k12]) (NList [Some 1; Some 2]) [Some 1; Some 2]); reflexivity. Qed.
Example C126_pooling_example : names x5r (AxSeq [0; -1]) [0%nat; 0%nat] /\ built 2 [k12; k12] [1; 2] None mrr /\
  sep_init (NItem k12) (NItem (Some 2)) None = Ok (single k12 2) /\
  show (snd (sep_forward 9 garbage mrr x5r (AxSeq [0; -1]))) = Some ([2], zq [25; 16]) /\
  show (snd (sep_forward 9 garbage (single k12 1) x5r (AxInt 0))) = Some ([4], zq [5; 10; 4; 6]) /\
  show (axis_by_axis 9 garbage x5r [0%nat; 0%nat] [k12; k12] [1; 2]) = Some ([2], zq [25; 16]) /\
  snd (sep_forward 9 garbage mrr (ofz [2] [1; 2]) (AxSeq [0; 0])) = Err RuntimeError.
Proof.
  split; [split; [reflexivity|intros a [<-|[<-|[]]]; cbn; lia]|]. split; [apply mrr_built|]. split; [reflexivity|].
  split; [vm_compute; reflexivity|]. split; [vm_compute; reflexivity|]. split; vm_compute; reflexivity.
Qed.
(** The same axis twice is one pooling with the merged kernel (C112). *)
Theorem C126_merged : forall (F : ofield) fuel junk fuel' junk' (m m' : pool F) (x : tensor F) a k1 k2 s1 s2,
  (a < ndim x)%nat -> k1 <> [] -> k2 <> [] ->
  built 2 [k1; k2] [s1; s2] None m -> built 1 [in_turn k1 s1 k2] [s1 * s2] None m' -> klen (in_turn k1 s1 k2) <= nth a (shp x) 0 ->
  exists y y', snd (sep_forward fuel junk m x (AxSeq [Z.of_nat a; Z.of_nat a])) = Ok y /\
    snd (sep_forward fuel' junk' m' x (AxInt (Z.of_nat a))) = Ok y' /\ teq y y'.
Proof. exact repeat_merged. Qed.
Print Assumptions C126_merged.
Example C126_merged_example : (0 < ndim x5r)%nat /\ built 2 [k12; k12] [1; 2] None mrr /\
  built 1 [in_turn k12 1 k12] [2] None (pl (in_turn k12 1 k12) 2 None) /\ klen (in_turn k12 1 k12) = 3 /\
  show (snd (sep_forward 9 garbage (pl (in_turn k12 1 k12) 2 None) x5r (AxInt 0))) = Some ([2], zq [25; 16]).
Proof.
  split; [unfold ndim; cbn; lia|]. split; [apply mrr_built|]. split; [apply pl_built; [discriminate|lia]|]. split; vm_compute; reflexivity.
Qed.

(** ** C126 (filters with same padding): the shape is kept, the result is the padding chain followed by the pooling chain. *)
Theorem C126_filter : forall (F : ofield) fuel junk fuel' junk' (m : pool F) (x : tensor F) ax al kers p ms,
  built (length al) kers (repeat 1 (length al)) (Some p) m -> same_repeat F fuel p x ax al ms kers ->
  exists ws xp xp' y, length ws = length al /\
    (forall r, (r < length al)%nat -> is_same_width (klen (nth r kers [])) 1 (nth (nth r al 0%nat) (shp x) 0) (nth r ws (0, 0))) /\
    padder_forward fuel junk (with_width p ws) x ax = Ok xp /\ one_by_one fuel junk' (with_width p ws) x al = Ok xp' /\ teq xp xp' /\
    sep_forward fuel junk m x ax = (set_padder m (with_width p ws), Ok y) /\
    axis_by_axis fuel' junk' xp al kers (repeat 1 (length al)) = Ok y /\ shp y = shp x.
Proof. exact same_chain. Qed.
Print Assumptions C126_filter.
Definition frr : pool QcF := mkPool (NList [k123; k12]) (NList [3; 2]) (NList [1; 1]) (Some (sym (0, 0) MReplicate)) 2.
Example C126_filter_example : built 2 [k123; k12] (repeat 1 2) (Some (sym (0, 0) MReplicate)) frr /\
  same_repeat QcF 9 (sym (0, 0) MReplicate) x5r (AxSeq [0; 0]) [0%nat; 0%nat] [MReplicate; MReplicate] [k123; k12] /\
  show (padder_forward 9 garbage (with_width (sym (0, 0) MReplicate) [(1, 1); (1, 0)]) x5r (AxSeq [0; 0])) = Some ([8], zq [1; 1; 1; 2; 4; 0; 3; 3]) /\
  show (snd (sep_forward 9 garbage frr x5r (AxSeq [0; 0]))) = Some ([5], zq [24; 43; 37; 36; 43]).
Proof.
  split; [apply (built_init 2 [k123; k12] (NList [k123; k12]) (NItem (Some 1)) [Some 1; Some 1]); reflexivity|].
  split.
  { split.
    - split; [reflexivity|intros a [<-|[<-|[]]]; cbn; lia].
    - cbn. lia.
    - fin_nat.
    - intros a [<-|[<-|[]]]; cbn; lia.
    - split; cbn; auto; discriminate.
    - intros m [<-|[<-|[]]]; reflexivity.
    - fin_nat. }
  split; vm_compute; reflexivity.
Qed.
