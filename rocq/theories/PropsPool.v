(** C22, C25-C27, C36-C40, C65: pooling, counting and outer products.

    Vocabulary (PoolSpec.v, PoolForward.v, PoolSame.v, PoolPropLemmas.v, AvgProofs.v):
    - [on_axes x ax al]: the axes argument ax denotes the distinct axes al of x;
    - [built n kers sts pd m]: m comes from the constructor (or from to_filter), with kernels
      kers and strides sts on its n axes and same padder pd;
    - [same_call fuel p x ax al ms kers sts]: a call on a nonempty image with positive strides,
      modes ms that fill the padding, and enough fuel;
    - [correlation al kers sts x j]: sum over all offsets of weights times x at j*stride+offset;
    - [is_ceil_div n s c]: c = ceil(n/s); [is_same_width k s n w]: w = (before, after) with
      before + after = max(0, (ceil(n/s)-1)*s+k-n) and 0 <= before-after <= 1;
    - [with_width p ws]: the padder p with the widths ws. *)
From Coq Require Import Sorted Permutation QArith Qcanon.
From Verif Require Import PoolExact ExampleUtil PoolPropLemmas PoolHistory ShapeProofs OuterProofs.
Open Scope Z_scope.

Definition kerA : list QcF := [qq 1 4; qq 1 2; qq 1 4].
Definition kerB : list QcF := [qq 1 2; qq 1 2].
Definition x45 := ofz [4; 5] [1; 2; 3; 4; 5; 2; 4; 6; 8; 10; 3; 6; 9; 12; 15; 4; 8; 12; 16; 20].
Definition repl : padder QcF := pad1d (0, 0) MReplicate.
Definition pool1 pd := mkPool (NList [kerA; kerB]) (NList [3; 2]) (NList [1; 2]) pd 2.
Definition filt1 pd := mkPool (NList [kerA; kerB]) (NList [3; 2]) (NItem 1) pd 2.
Definition avg1 pd := mkPool (NList [avg_ker QcF 3; avg_ker QcF 2]) (NList [3; 2]) (NList [1; 2]) pd 2.

Ltac ex_on := split; [vm_compute; reflexivity | apply all_lt; vm_compute; reflexivity | repeat constructor; cbn; intuition lia].
Lemma all_nat n (P : nat -> Prop) (b : nat -> bool) : (forall d, b d = true -> P d) -> forallb b (seq 0 n) = true ->
  forall d, (d < n)%nat -> P d.
Proof. intros H E d Hd. apply H. rewrite forallb_forall in E. apply E, in_seq. lia. Qed.
Ltac nats := let d := fresh in let H := fresh in intros d H; cbn in H;
  repeat (destruct d as [|d]; [cbn; try lia; auto | try (exfalso; lia)]).

Lemma shape_ok (r : res (tensor QcF)) s : match r with Ok y => shp y | Err _ => [-1] end = s -> ~ In (-1) s ->
  exists y, r = Ok y /\ shp y = s.
Proof. destruct r as [y|e]; intros H1 H2; [eauto|]. subst. exfalso. apply H2. now left. Qed.
Lemma built1 pd : built 2 [kerA; kerB] [1; 2] pd (pool1 pd).
Proof. apply (built_init 2 [kerA; kerB] (NList [kerA; kerB]) (NList [Some 1; None]) [Some 1; None]); reflexivity. Qed.
Lemma same1 : same_call QcF 20 repl x45 AxNone [0%nat; 1%nat] [MReplicate; MReplicate] [kerA; kerB] [1; 2].
Proof.
  split; [ex_on | unfold ndim; cbn; lia | nats | | nats | | |].
  - intros a [<-|[<-|[]]]; cbn; lia.
  - split; [reflexivity|discriminate|discriminate|discriminate].
  - intros m [<-|[<-|[]]]; exact I.
  - intros d k Hd Hk. assert (nth d (shp x45) 0 <= 5) by (cbn in Hd; repeat (destruct d as [|d]; [cbn; lia | try (exfalso; lia)])).
    destruct Hk as [->|[ker [[<-|[<-|[]]] ->]]]; unfold klen; cbn [kerA kerB length]; lia.
Qed.

(** C36, C37: no padding.  Axes without a kernel (or with an empty one) are unchanged. *)
Theorem C36_valid : forall (F : ofield) fuel junk (m : pool F) x ax al kers sts,
  on_axes x ax al -> built (length al) kers sts None m ->
  (forall r, (r < length al)%nat -> klen (nth r kers []) <= nth (nth r al 0%nat) (shp x) 0) ->
  exists y, snd (sep_forward fuel junk m x ax) = Ok y /\ ndim y = ndim x /\
    (forall r, (r < length al)%nat -> nth r kers [] <> [] ->
       nth (nth r al 0%nat) (shp y) 0 = (nth (nth r al 0%nat) (shp x) 0 - klen (nth r kers [])) / nth r sts 1 + 1) /\
    (forall d, (forall r, (r < length al)%nat -> nth r al 0%nat = d -> nth r kers [] = []) -> nth d (shp y) 0 = nth d (shp x) 0) /\
    forall j, valid (shp y) j -> at_ y j = correlation al kers sts x j.
Proof. exact pool_valid_corr. Qed.
Print Assumptions C36_valid.
Theorem C37_valid : forall (F : ofield) fuel junk (m : pool F) x ax al kers sts,
  on_axes x ax al -> built (length al) kers sts None m ->
  (forall r, (r < length al)%nat -> klen (nth r kers []) <= nth (nth r al 0%nat) (shp x) 0) ->
  exists y, snd (sep_forward fuel junk m x ax) = Ok y /\ ndim y = ndim x /\
    (forall r, (r < length al)%nat -> nth r kers [] <> [] ->
       nth (nth r al 0%nat) (shp y) 0 = (nth (nth r al 0%nat) (shp x) 0 - klen (nth r kers [])) / nth r sts 1 + 1) /\
    (forall d, (forall r, (r < length al)%nat -> nth r al 0%nat = d -> nth r kers [] = []) -> nth d (shp y) 0 = nth d (shp x) 0).
Proof. exact pool_valid_shape. Qed.
Print Assumptions C37_valid.
Example C36_C37_valid_example :
  on_axes x45 AxNone [0%nat; 1%nat] /\ built 2 [kerA; kerB] [1; 2] None (pool1 None) /\
  (forall r, (r < 2)%nat -> klen (nth r [kerA; kerB] []) <= nth (nth r [0; 1]%nat 0%nat) (shp x45) 0) /\
  show (snd (sep_forward 20 garbage (pool1 None) x45 AxNone)) = Some ([2; 2], [3; 7; 9 # 2; 21 # 2]%Q) /\
  this (correlation [0; 1]%nat [kerA; kerB] [1; 2] x45 [1; 1]) = (21 # 2)%Q.
Proof. split; [ex_on|]. split; [apply built1|]. split; [nats|]. split; vm_compute; reflexivity. Qed.

(** A kernel longer than its axis is an error. *)
Theorem C36_too_large : forall (F : ofield) fuel junk (m : pool F) x ax al kers sts,
  on_axes x ax al -> built (length al) kers sts None m ->
  (exists r, (r < length al)%nat /\ nth r kers [] <> [] /\ nth (nth r al 0%nat) (shp x) 0 < klen (nth r kers [])) ->
  snd (sep_forward fuel junk m x ax) = Err RuntimeError.
Proof. exact pool_too_large. Qed.
Print Assumptions C36_too_large.
Example C36_too_large_example :
  on_axes x23 AxNone [0%nat; 1%nat] /\ built 2 [kerA; kerB] [1; 2] None (pool1 None) /\
  nth 0 [kerA; kerB] [] <> [] /\ nth 0 (shp x23) 0 < klen (nth 0 [kerA; kerB] []).
Proof. split; [ex_on|]. split; [apply built1|]. split; [discriminate|]. cbn; lia. Qed.

(** C36: with a same padder, the pooled image is the correlation of the image padded
    with the same-padding widths. *)
Theorem C36_same : forall (F : ofield) fuel junk (m : pool F) x ax al kers sts p ms,
  built (length al) kers sts (Some p) m -> same_call F fuel p x ax al ms kers sts ->
  exists ws xp y, length ws = length al /\
    (forall r, (r < length al)%nat -> is_same_width (klen (nth r kers [])) (nth r sts 1) (nth (nth r al 0%nat) (shp x) 0) (nth r ws (0, 0))) /\
    padder_forward fuel junk (with_width p ws) x ax = Ok xp /\
    snd (sep_forward fuel junk m x ax) = Ok y /\ ndim y = ndim x /\
    (forall r, (r < length al)%nat -> nth r kers [] <> [] ->
       nth (nth r al 0%nat) (shp y) 0 = (nth (nth r al 0%nat) (shp xp) 0 - klen (nth r kers [])) / nth r sts 1 + 1) /\
    (forall d, (forall r, (r < length al)%nat -> nth r al 0%nat = d -> nth r kers [] = []) -> nth d (shp y) 0 = nth d (shp x) 0) /\
    forall j, valid (shp y) j -> at_ y j = correlation al kers sts xp j.
Proof. exact pool_same_corr. Qed.
Print Assumptions C36_same.
(** C37: lengths are ceil(n/s) unless the mode is periodize. *)
Theorem C37_same_partial : forall (F : ofield) fuel junk (m : pool F) x ax al kers sts p ms,
  built (length al) kers sts (Some p) m -> same_call F fuel p x ax al ms kers sts ->
  exists y, snd (sep_forward fuel junk m x ax) = Ok y /\ ndim y = ndim x /\
    (forall r c, (r < length al)%nat -> nth r kers [] <> [] -> nth r ms MUnknown <> MPeriodize ->
       is_ceil_div (nth (nth r al 0%nat) (shp x) 0) (nth r sts 1) c -> nth (nth r al 0%nat) (shp y) 0 = c) /\
    (forall d, (forall r, (r < length al)%nat -> nth r al 0%nat = d -> nth r kers [] = []) -> nth d (shp y) 0 = nth d (shp x) 0).
Proof. exact pool_same_shape. Qed.
Print Assumptions C37_same_partial.
Example C36_C37_same_example :
  built 2 [kerA; kerB] [1; 2] (Some repl) (pool1 (Some repl)) /\
  same_call QcF 20 repl x45 AxNone [0%nat; 1%nat] [MReplicate; MReplicate] [kerA; kerB] [1; 2] /\
  is_ceil_div 5 2 3 /\
  show (snd (sep_forward 20 garbage (pool1 (Some repl)) x45 AxNone)) =
    Some ([4; 3], [5 # 4; 25 # 8; 45 # 8; 2; 5; 9; 3; 15 # 2; 27 # 2; 15 # 4; 75 # 8; 135 # 8]%Q).
Proof. split; [apply built1|]. split; [apply same1|]. split; [unfold is_ceil_div; lia|]. vm_compute; reflexivity. Qed.

(** C37: to_filter with a same padder keeps the shape (not for periodize, see below). *)
Theorem C37_filter_keeps_shape_partial : forall (F : ofield) fuel junk (m0 m : pool F) x ax al kers sts0 pd0 pd p ms,
  built (length al) kers sts0 pd0 m0 -> to_filter m0 pd = Ok m ->
  match pd with None => pd0 | Some _ => pd end = Some p ->
  same_call F fuel p x ax al ms kers (repeat 1 (length al)) -> ~ In MPeriodize ms ->
  exists y, snd (sep_forward fuel junk m x ax) = Ok y /\ shp y = shp x.
Proof. exact filter_keeps_shape. Qed.
Print Assumptions C37_filter_keeps_shape_partial.
Lemma same1f : same_call QcF 20 repl x45 AxNone [0%nat; 1%nat] [MReplicate; MReplicate] [kerA; kerB] (repeat 1 2).
Proof. destruct same1 as [A B C D _ E G H]. split; auto. nats. Qed.
Example C37_filter_example :
  built 2 [kerA; kerB] [1; 2] None (pool1 None) /\ to_filter (pool1 None) (Some repl) = Ok (filt1 (Some repl)) /\
  same_call QcF 20 repl x45 AxNone [0%nat; 1%nat] [MReplicate; MReplicate] [kerA; kerB] (repeat 1 2) /\
  ~ In MPeriodize [@MReplicate QcF; MReplicate] /\
  show (snd (sep_forward 20 garbage (filt1 (Some repl)) x45 AxNone)) =
    Some ([4; 5], [5 # 4; 15 # 8; 25 # 8; 35 # 8; 45 # 8; 2; 3; 5; 7; 9; 3; 9 # 2; 15 # 2; 21 # 2; 27 # 2; 15 # 4;
           45 # 8; 75 # 8; 105 # 8; 135 # 8]%Q).
Proof.
  split; [apply built1|]. split; [reflexivity|]. split; [apply same1f|]. split; [intros [E|[E|[]]]; discriminate|].
  vm_compute; reflexivity.
Qed.

(** C37 is false for mode periodize on an odd length: the padder repeats the last sample. *)
Definition odd3 := ofz [3] [1; 2; 4].
Definition filt3 pd := mkPool (NItem kerA) (NItem 3) (NItem 1) pd 0.
Theorem C37_periodize_refuted : exists (m : pool QcF) x y,
  built 1 [kerA] [1] (Some (pad1d (0, 0) MPeriodize)) m /\
  same_call QcF 20 (pad1d (0, 0) MPeriodize) x AxNone [0%nat] [MPeriodize] [kerA] [1] /\
  snd (sep_forward 20 garbage m x AxNone) = Ok y /\ shp x = [3] /\ shp y = [4].
Proof.
  destruct (shape_ok (snd (sep_forward 20 garbage (filt3 (Some (pad1d (0, 0) MPeriodize))) odd3 AxNone)) [4]) as [y [E1 E2]].
  { vm_compute; reflexivity. } { cbn; lia. }
  exists (filt3 (Some (pad1d (0, 0) MPeriodize))), odd3, y.
  split; [apply (built_init 1 [kerA] (NItem kerA) (NItem (Some 1)) [Some 1]); reflexivity|].
  split; [|split; [exact E1|split; [reflexivity|exact E2]]].
  split; [ex_on | unfold ndim; cbn; lia | nats | | nats | | |].
  - intros a [<-|[]]; cbn; lia.
  - split; [reflexivity|discriminate|discriminate|discriminate].
  - intros m [<-|[]]; exact I.
  - intros d k Hd Hk. assert (nth d (shp odd3) 0 <= 3) by (cbn in Hd; repeat (destruct d as [|d]; [cbn; lia | try (exfalso; lia)])).
    destruct Hk as [->|[ker [[<-|[]] ->]]]; unfold klen; cbn [kerA kerB length]; lia.
Qed.
Print Assumptions C37_periodize_refuted.
(** The lengths for every mode: periodize makes an axis one longer exactly when its length is
    odd, the stride 1 and the kernel longer than 1. *)
Theorem C37_same_exact : forall (F : ofield) fuel junk (m : pool F) x ax al kers sts p ms,
  built (length al) kers sts (Some p) m -> same_call F fuel p x ax al ms kers sts ->
  exists y, snd (sep_forward fuel junk m x ax) = Ok y /\ ndim y = ndim x /\
    (forall r c, (r < length al)%nat -> nth r kers [] <> [] ->
       is_ceil_div (nth (nth r al 0%nat) (shp x) 0) (nth r sts 1) c ->
       let g := nth r ms MUnknown = MPeriodize /\ Z.odd (nth (nth r al 0%nat) (shp x) 0) = true /\
                nth r sts 1 = 1 /\ 2 <= klen (nth r kers []) in
       (g -> nth (nth r al 0%nat) (shp y) 0 = c + 1) /\ (~ g -> nth (nth r al 0%nat) (shp y) 0 = c)) /\
    (forall d, (forall r, (r < length al)%nat -> nth r al 0%nat = d -> nth r kers [] = []) -> nth d (shp y) 0 = nth d (shp x) 0).
Proof. exact pool_same_exact. Qed.
Print Assumptions C37_same_exact.
(** to_filter keeps the shape exactly when there is no such axis. *)
Theorem C37_filter_iff : forall (F : ofield) fuel junk (m0 m : pool F) x ax al kers sts0 pd0 pd p ms,
  built (length al) kers sts0 pd0 m0 -> to_filter m0 pd = Ok m ->
  match pd with None => pd0 | Some _ => pd end = Some p ->
  same_call F fuel p x ax al ms kers (repeat 1 (length al)) ->
  exists y, snd (sep_forward fuel junk m x ax) = Ok y /\ ndim y = ndim x /\
    (shp y = shp x <-> ~ exists r, (r < length al)%nat /\ nth r ms MUnknown = MPeriodize /\
       Z.odd (nth (nth r al 0%nat) (shp x) 0) = true /\ 2 <= klen (nth r kers [])).
Proof. exact filter_shape_iff. Qed.
Print Assumptions C37_filter_iff.
Definition peri : padder QcF := pad1d (0, 0) MPeriodize.
(** The axis of length 5 grows, the one of length 4 does not; with stride 2 neither does. *)
Example C37_exact_example :
  built 2 [kerA; kerB] [1; 2] (Some peri) (pool1 (Some peri)) /\
  same_call QcF 20 peri x45 AxNone [0%nat; 1%nat] [MPeriodize; MPeriodize] [kerA; kerB] [1; 2] /\
  to_filter (pool1 None) (Some peri) = Ok (filt1 (Some peri)) /\
  (match snd (sep_forward 20 garbage (pool1 (Some peri)) x45 AxNone) with Ok y => shp y | Err _ => [] end) = [4; 3] /\
  (match snd (sep_forward 20 garbage (filt1 (Some peri)) x45 AxNone) with Ok y => shp y | Err _ => [] end) = [4; 6].
Proof.
  split; [apply built1|]. split.
  { destruct same1 as [A B C D E _ _ H]. split; auto.
    - split; [reflexivity|discriminate|discriminate|discriminate].
    - intros m [<-|[<-|[]]]; exact I. }
  split; [reflexivity|]. split; vm_compute; reflexivity.
Qed.

(** C38 *)
Theorem C38_linear_valid : forall (F : ofield) fuel junk (m : pool F) a b x y z ax al kers sts,
  on_axes x ax al -> built (length al) kers sts None m ->
  (forall r, (r < length al)%nat -> klen (nth r kers []) <= nth (nth r al 0%nat) (shp x) 0) ->
  combination a b x y z ->
  exists x' y' z', snd (sep_forward fuel junk m x ax) = Ok x' /\ snd (sep_forward fuel junk m y ax) = Ok y' /\
    snd (sep_forward fuel junk m z ax) = Ok z' /\ combination a b x' y' z'.
Proof. exact linear_valid. Qed.
Print Assumptions C38_linear_valid.
Theorem C38_linear_same : forall (F : ofield) fuel junk (m : pool F) a b x y z ax al kers sts p ms,
  built (length al) kers sts (Some p) m -> same_call F fuel p x ax al ms kers sts ->
  every_axis (length al) p linear_mode -> combination a b x y z ->
  exists x' y' z', snd (sep_forward fuel junk m x ax) = Ok x' /\ snd (sep_forward fuel junk m y ax) = Ok y' /\
    snd (sep_forward fuel junk m z ax) = Ok z' /\ combination a b x' y' z'.
Proof. exact linear_same. Qed.
Print Assumptions C38_linear_same.
Theorem C38_constant_valid : forall (F : ofield) fuel junk (m : pool F) c x ax al kers sts,
  on_axes x ax al -> built (length al) kers sts None m ->
  (forall r, (r < length al)%nat -> klen (nth r kers []) <= nth (nth r al 0%nat) (shp x) 0) ->
  (forall k, In k kers -> k = [] \/ wsum k = f1) -> constant_image c x ->
  exists x', snd (sep_forward fuel junk m x ax) = Ok x' /\ constant_image c x'.
Proof. exact const_valid. Qed.
Print Assumptions C38_constant_valid.
Theorem C38_constant_same : forall (F : ofield) fuel junk (m : pool F) c x ax al kers sts p ms,
  built (length al) kers sts (Some p) m -> same_call F fuel p x ax al ms kers sts ->
  every_axis (length al) p const_mode ->
  (forall k, In k kers -> k = [] \/ wsum k = f1) -> constant_image c x ->
  exists x', snd (sep_forward fuel junk m x ax) = Ok x' /\ constant_image c x'.
Proof. exact const_same. Qed.
Print Assumptions C38_constant_same.
Theorem C38_range_valid : forall (F : ofield) fuel junk (m : pool F) lo hi x ax al kers sts,
  on_axes x ax al -> built (length al) kers sts None m ->
  (forall r, (r < length al)%nat -> klen (nth r kers []) <= nth (nth r al 0%nat) (shp x) 0) ->
  (forall k, In k kers -> k = [] \/ wsum k = f1) -> (forall k e, In k kers -> In e k -> fle f0 e) -> in_range lo hi x ->
  exists x', snd (sep_forward fuel junk m x ax) = Ok x' /\ in_range lo hi x'.
Proof. exact range_valid. Qed.
Print Assumptions C38_range_valid.
Theorem C38_range_same : forall (F : ofield) fuel junk (m : pool F) lo hi x ax al kers sts p ms,
  built (length al) kers sts (Some p) m -> same_call F fuel p x ax al ms kers sts ->
  every_axis (length al) p (range_mode lo hi) ->
  (forall k, In k kers -> k = [] \/ wsum k = f1) -> (forall k e, In k kers -> In e k -> fle f0 e) -> in_range lo hi x ->
  exists x', snd (sep_forward fuel junk m x ax) = Ok x' /\ in_range lo hi x'.
Proof. exact range_same. Qed.
Print Assumptions C38_range_same.
(** The hypotheses of C36 hold for pool1 and repl above; those special to C38 hold too. *)
Definition five45 : tensor QcF := mkT [4; 5] (fun _ => qz 5).
Definition sum45 : tensor QcF := mkT [4; 5] (fun i => fadd (fmul (qz 2) (at_ x45 i)) (fmul (qz (-3)) (at_ five45 i))).
Example C38_example :
  combination (qz 2) (qz (-3)) x45 five45 sum45 /\ every_axis 2 repl linear_mode /\
  every_axis 2 repl const_mode /\ every_axis 2 repl (range_mode (qz 1) (qz 20)) /\
  (forall k, In k [kerA; kerB] -> k = [] \/ wsum k = f1) /\ (forall k e, In k [kerA; kerB] -> In e k -> fle f0 e) /\
  constant_image (qz 5) five45 /\ in_range (qz 1) (qz 20) five45.
Proof.
  split. { split; [reflexivity|]. split; reflexivity. }
  assert (E : forall P : mode QcF -> QcF * QcF -> QcF * QcF -> Prop, P MReplicate (qz 7, qz 8) (qz 0, qz 10) -> every_axis 2 repl P).
  { intros P H. exists [MReplicate; MReplicate], [(qz 7, qz 8); (qz 7, qz 8)], [(qz 0, qz 10); (qz 0, qz 10)].
    split; [reflexivity|]. split; [reflexivity|]. split; [reflexivity|]. intros [|[|r]] Hr; [exact H|exact H|lia]. }
  split; [apply E; exact I|]. split; [apply E; exact I|]. split; [apply E; exact I|].
  split. { intros k [<-|[<-|[]]]; right; apply Qc_is_canon; vm_compute; reflexivity. }
  split. { intros k e [<-|[<-|[]]] He; cbn [kerA kerB In] in He; decompose [or] He; subst; try contradiction; vm_compute; reflexivity. }
  split; [intros i _; reflexivity|]. intros i _. split; vm_compute; reflexivity.
Qed.

(** C39 *)
Theorem C39_average : forall (F : ofield) fuel junk (ks : nds Z) stride (m : pool F) x ax al l sts,
  on_axes x ax al -> expand (length al) ks = Some l -> expand (length al) stride = Some sts ->
  avg_init ks stride None = Ok m ->
  (forall r, (r < length al)%nat -> 1 <= nth r l 0 <= nth (nth r al 0%nat) (shp x) 0) ->
  exists y, snd (avg_forward fuel junk true m x ax) = Ok y /\ ndim y = ndim x /\
    (forall r, (r < length al)%nat ->
       nth (nth r al 0%nat) (shp y) 0 = (nth (nth r al 0%nat) (shp x) 0 - nth r l 0) / nth r (map2 stride_or_size l sts) 1 + 1) /\
    (forall d, ~ In d al -> nth d (shp y) 0 = nth d (shp x) 0) /\
    forall j, valid (shp y) j ->
      at_ y j = fdiv (bsum l (fun o => at_ x (place al (map2 stride_or_size l sts) j o))) (fofZ (zprod l)) /\
      forall lo hi, (forall o, valid l o -> fle lo (at_ x (place al (map2 stride_or_size l sts) j o)) /\
                                            fle (at_ x (place al (map2 stride_or_size l sts) j o)) hi) ->
        fle lo (at_ y j) /\ fle (at_ y j) hi.
Proof. exact avg_mean. Qed.
Print Assumptions C39_average.
Example C39_example :
  on_axes x45 (AxSeq [1; -2]) [1%nat; 0%nat] /\ avg_init (NList [3; 2]) (NList [Some 1; None]) None = Ok (avg1 None) /\
  (forall r, (r < 2)%nat -> 1 <= nth r [3; 2] 0 <= nth (nth r [1; 0]%nat 0%nat) (shp x45) 0) /\
  show (snd (avg_forward 20 garbage true (avg1 None) x45 (AxSeq [1; -2]))) = Some ([2; 3], [3; 9 # 2; 6; 7; 21 # 2; 14]%Q).
Proof. split; [ex_on|]. split; [reflexivity|]. split; [nats|]. vm_compute; reflexivity. Qed.

(** C40.  [lens d] is the output length of axis d and B lists the axes in ascending order; the
    result is right when the lengths in the order given equal the lengths in ascending order of
    the axes (ascending axes and equal lengths are special cases), and by [C40_iff] only then.
    [inside_count al l s ws sh j] is the number of offsets of window j that lie in the
    original, [inside_sum] the sum of the original elements there. *)
Theorem C40_count_exclude_pad_partial : forall (F : ofield) fuel junk (ks : nds Z) stride (m : pool F) x ax al l sts p ms (lens : nat -> Z) B,
  al <> [] -> expand (length al) ks = Some l -> expand (length al) stride = Some sts ->
  avg_init ks stride (Some p) = Ok m ->
  same_call F fuel p x ax al ms (map (avg_ker F) l) (map2 stride_or_size l sts) ->
  every_axis (length al) p (fun m cv _ => m = MConstant /\ cv = (f0, f0)) ->
  (forall k, In k l -> 1 <= k) ->
  (forall r, (r < length al)%nat -> is_ceil_div (nth (nth r al 0%nat) (shp x) 0) (nth r (map2 stride_or_size l sts) 1) (lens (nth r al 0%nat))) ->
  StronglySorted lt B -> Permutation al B -> map lens B = map lens al ->
  exists ws y, length ws = length al /\
    (forall r, (r < length al)%nat ->
       is_same_width (nth r l 0) (nth r (map2 stride_or_size l sts) 1) (nth (nth r al 0%nat) (shp x) 0) (nth r ws (0, 0))) /\
    snd (avg_forward fuel junk false m x ax) = Ok y /\ ndim y = ndim x /\
    (forall r c, (r < length al)%nat -> is_ceil_div (nth (nth r al 0%nat) (shp x) 0) (nth r (map2 stride_or_size l sts) 1) c ->
       nth (nth r al 0%nat) (shp y) 0 = c) /\
    (forall d, ~ In d al -> nth d (shp y) 0 = nth d (shp x) 0) /\
    forall j, valid (shp y) j ->
      fle f1 (inside_count F al l (map2 stride_or_size l sts) ws (shp x) j) /\
      at_ y j = fdiv (inside_sum F al l (map2 stride_or_size l sts) ws x j)
                     (inside_count F al l (map2 stride_or_size l sts) ws (shp x) j).
Proof. exact avg_original. Qed.
Print Assumptions C40_count_exclude_pad_partial.
(** The exact condition for the output lengths to be right, for any order of the axes. *)
Theorem C40_iff : forall (F : ofield) fuel junk (ks : nds Z) stride (m : pool F) x ax al l sts p ms (lens : nat -> Z) B,
  al <> [] -> expand (length al) ks = Some l -> expand (length al) stride = Some sts ->
  avg_init ks stride (Some p) = Ok m ->
  same_call F fuel p x ax al ms (map (avg_ker F) l) (map2 stride_or_size l sts) ->
  every_axis (length al) p (fun m cv _ => m = MConstant /\ cv = (f0, f0)) ->
  (forall k, In k l -> 1 <= k) ->
  (forall r, (r < length al)%nat -> is_ceil_div (nth (nth r al 0%nat) (shp x) 0) (nth r (map2 stride_or_size l sts) 1) (lens (nth r al 0%nat))) ->
  StronglySorted lt B -> Permutation al B ->
  (exists y, snd (avg_forward fuel junk false m x ax) = Ok y /\
     forall r, (r < length al)%nat -> nth (nth r al 0%nat) (shp y) 0 = lens (nth r al 0%nat)) <->
  map lens B = map lens al.
Proof. exact avg_original_iff. Qed.
Print Assumptions C40_iff.
(** ... and what happens otherwise: the counts of axis [nth r B] are broadcast against axis
    [nth r al], with a RuntimeError or an output of the larger of the two lengths. *)
Theorem C40_outcome : forall (F : ofield) fuel junk (ks : nds Z) stride (m : pool F) x ax al l sts p ms (lens : nat -> Z) B,
  al <> [] -> expand (length al) ks = Some l -> expand (length al) stride = Some sts ->
  avg_init ks stride (Some p) = Ok m ->
  same_call F fuel p x ax al ms (map (avg_ker F) l) (map2 stride_or_size l sts) ->
  every_axis (length al) p (fun m cv _ => m = MConstant /\ cv = (f0, f0)) ->
  (forall k, In k l -> 1 <= k) ->
  (forall r, (r < length al)%nat -> is_ceil_div (nth (nth r al 0%nat) (shp x) 0) (nth r (map2 stride_or_size l sts) 1) (lens (nth r al 0%nat))) ->
  StronglySorted lt B -> Permutation al B ->
  match snd (avg_forward fuel junk false m x ax) with
  | Ok y => ndim y = ndim x /\ (forall d, ~ In d al -> nth d (shp y) 0 = nth d (shp x) 0) /\
      forall r, (r < length al)%nat ->
        (lens (nth r B 0%nat) = lens (nth r al 0%nat) \/ lens (nth r B 0%nat) = 1 \/ lens (nth r al 0%nat) = 1) /\
        nth (nth r al 0%nat) (shp y) 0 = Z.max (lens (nth r B 0%nat)) (lens (nth r al 0%nat))
  | Err e => e = RuntimeError /\ exists r, (r < length al)%nat /\
      lens (nth r B 0%nat) <> lens (nth r al 0%nat) /\ lens (nth r B 0%nat) <> 1 /\ lens (nth r al 0%nat) <> 1
  end.
Proof. exact avg_original_outcome. Qed.
Print Assumptions C40_outcome.
(** Without a padder, without axes or with an axis named twice there is no result. *)
Theorem C40_needs : forall (F : ofield) fuel junk (m : pool F) (x : tensor F) ax y,
  snd (avg_forward fuel junk false m x ax) = Ok y ->
  exists p axes, pl_padder m = Some p /\ check_axes (Z.of_nat (ndim x)) ax = Ok axes /\ axes <> [] /\ NoDup axes.
Proof. exact avg_original_needs. Qed.
Print Assumptions C40_needs.
Definition zero_pad : padder QcF := mkPadder (NItem (0, 0)) (NItem MConstant) (NItem (f0, f0)) (NItem (f0, f0)) (NItem (None, None)) 0.
Lemma same_zero : same_call QcF 20 zero_pad x45 AxNone [0%nat; 1%nat] [MConstant; MConstant] (map (avg_ker QcF) [3; 2]) [1; 2].
Proof.
  split; [ex_on | unfold ndim; cbn; lia | nats | | nats | | |].
  - intros a [<-|[<-|[]]]; cbn; lia.
  - split; [reflexivity|discriminate|discriminate|discriminate].
  - intros m [<-|[<-|[]]]; exact I.
  - intros d k Hd Hk. assert (nth d (shp x45) 0 <= 5) by (cbn in Hd; repeat (destruct d as [|d]; [cbn; lia | try (exfalso; lia)])).
    destruct Hk as [->|[ker [[<-|[<-|[]]] ->]]]; rewrite ?avg_ker_klen; lia.
Qed.
Definition lens43 (d : nat) : Z := nth d [4; 3] 0.
Definition lens22 (d : nat) : Z := 2.
Definition avg31 pd : pool QcF := mkPool (NList [avg_ker QcF 3; avg_ker QcF 2]) (NList [3; 2]) (NList [3; 2]) pd 2.
Lemma zero_every : every_axis 2 zero_pad (fun m cv _ => m = MConstant /\ cv = (f0, f0)).
Proof.
  exists [MConstant; MConstant], [(f0, f0); (f0, f0)], [(f0, f0); (f0, f0)].
  split; [reflexivity|]. split; [reflexivity|]. split; [reflexivity|]. intros [|[|r]] Hr; auto; lia.
Qed.
Example C40_needs_example :
  snd (avg_forward 20 garbage false (avg1 None) x45 AxNone) = Err AttributeError /\
  snd (avg_forward 20 garbage false (avg1 (Some zero_pad)) x45 (AxSeq [0; 0])) = Err AssertionError /\
  snd (avg_forward 20 garbage false (mkPool (NItem []) (NItem 0) (NItem 1) None 0) x45 (AxSeq [])) = Err ValueError /\
  (exists y, snd (avg_forward 20 garbage false (avg1 (Some zero_pad)) x45 AxNone) = Ok y).
Proof.
  split; [vm_compute; reflexivity|]. split; [vm_compute; reflexivity|]. split; [vm_compute; reflexivity|].
  destruct (shape_ok (snd (avg_forward 20 garbage false (avg1 (Some zero_pad)) x45 AxNone)) [4; 3]) as [y [E _]]; [vm_compute; reflexivity|cbn; lia|]. exists y. exact E.
Qed.
Example C40_example :
  avg_init (NList [3; 2]) (NList [Some 1; None]) (Some zero_pad) = Ok (avg1 (Some zero_pad)) /\
  same_call QcF 20 zero_pad x45 AxNone [0%nat; 1%nat] [MConstant; MConstant] (map (avg_ker QcF) [3; 2]) [1; 2] /\
  every_axis 2 zero_pad (fun m cv _ => m = MConstant /\ cv = (f0, f0)) /\ StronglySorted lt [0; 1]%nat /\
  (forall r, (r < 2)%nat -> is_ceil_div (nth (nth r [0; 1]%nat 0%nat) (shp x45) 0) (nth r [1; 2] 1) (lens43 (nth r [0; 1]%nat 0%nat))) /\
  show (snd (avg_forward 20 garbage false (avg1 (Some zero_pad)) x45 AxNone)) =
    Some ([4; 3], [3 # 2; 15 # 4; 27 # 4; 2; 5; 9; 3; 15 # 2; 27 # 2; 7 # 2; 35 # 4; 63 # 4]%Q).
Proof.
  split; [reflexivity|]. split; [apply same_zero|]. split; [exact zero_every|].
  split; [repeat constructor; lia|]. split; [nats; unfold is_ceil_div; cbn; lia|]. vm_compute; reflexivity.
Qed.
Example C40_descending_example :
  avg_init (NList [3; 2]) (NItem None) (Some zero_pad) = Ok (avg31 (Some zero_pad)) /\
  same_call QcF 20 zero_pad x45 (AxSeq [1; 0]) [1%nat; 0%nat] [MConstant; MConstant] (map (avg_ker QcF) [3; 2]) [3; 2] /\
  (forall r, (r < 2)%nat -> is_ceil_div (nth (nth r [1; 0]%nat 0%nat) (shp x45) 0) (nth r [3; 2] 1) (lens22 (nth r [1; 0]%nat 0%nat))) /\
  Permutation [1; 0]%nat [0; 1]%nat /\ map lens22 [0; 1]%nat = map lens22 [1; 0]%nat /\
  show (snd (avg_forward 20 garbage false (avg31 (Some zero_pad)) x45 (AxSeq [1; 0]))) =
    Some ([2; 2], [9 # 4; 6; 21 # 4; 14]%Q).
Proof.
  split; [reflexivity|]. split.
  - split; [ex_on | unfold ndim; cbn; lia | nats | | nats | | |].
    + intros a [<-|[<-|[]]]; cbn; lia.
    + split; [reflexivity|discriminate|discriminate|discriminate].
    + intros m [<-|[<-|[]]]; exact I.
    + intros d k Hd Hk. assert (nth d (shp x45) 0 <= 5) by (cbn in Hd; repeat (destruct d as [|d]; [cbn; lia | try (exfalso; lia)])).
      destruct Hk as [->|[ker [[<-|[<-|[]]] ->]]]; rewrite ?avg_ker_klen; lia.
  - split; [nats; unfold is_ceil_div, lens22; cbn; lia|]. split; [apply perm_swap|]. split; [reflexivity|]. vm_compute; reflexivity.
Qed.

(** C40 is false for axes in descending order: the counts are put on the wrong axes. *)
Theorem C40_unsorted_error_refuted : exists (m : pool QcF) x,
  avg_init (NList [3; 2]) (NItem None) (Some zero_pad) = Ok m /\ on_axes x (AxSeq [1; 0]) [1%nat; 0%nat] /\
  same_call QcF 20 zero_pad x (AxSeq [1; 0]) [1%nat; 0%nat] [MConstant; MConstant] (map (avg_ker QcF) [3; 2]) [3; 2] /\
  snd (avg_forward 20 garbage false m x (AxSeq [1; 0])) = Err RuntimeError.
Proof.
  exists (avg31 (Some zero_pad)), (ofz [6; 5] (zrange 30)).
  split; [reflexivity|]. split; [ex_on|]. split.
  - split; [ex_on | unfold ndim; cbn; lia | nats | | nats | | |].
    + intros a [<-|[<-|[]]]; cbn; lia.
    + split; [reflexivity|discriminate|discriminate|discriminate].
    + intros m [<-|[<-|[]]]; exact I.
    + intros d k Hd Hk. assert (nth d (shp (ofz [6; 5] (zrange 30))) 0 <= 6) by (cbn in Hd; repeat (destruct d as [|d]; [cbn; lia | try (exfalso; lia)])).
      destruct Hk as [->|[ker [[<-|[<-|[]]] ->]]]; rewrite ?avg_ker_klen; lia.
  - vm_compute; reflexivity.
Qed.
Print Assumptions C40_unsorted_error_refuted.
(** ... or the output silently gets another shape: pooling a (2, 9) image over axes (1, 0). *)
Theorem C40_unsorted_shape_refuted : exists (m : pool QcF) x y,
  avg_init (NList [3; 2]) (NItem None) (Some zero_pad) = Ok m /\ on_axes x (AxSeq [1; 0]) [1%nat; 0%nat] /\
  shp x = [2; 9] /\ snd (avg_forward 20 garbage false m x (AxSeq [1; 0])) = Ok y /\ shp y = [3; 3].
Proof.
  destruct (shape_ok (snd (avg_forward 20 garbage false (avg31 (Some zero_pad)) (ofz [2; 9] (zrange 18)) (AxSeq [1; 0]))) [3; 3]) as [y [E1 E2]].
  { vm_compute; reflexivity. } { cbn; lia. }
  exists (avg31 (Some zero_pad)), (ofz [2; 9] (zrange 18)), y.
  split; [reflexivity|]. split; [ex_on|]. split; [reflexivity|]. split; [exact E1|exact E2].
Qed.
Print Assumptions C40_unsorted_shape_refuted.

(** C25.  [seen n pb k s j]: number of original positions e with j*s <= pb + e < j*s + k. *)
Theorem C25_counts : forall n pb pa k s, 0 <= n -> 0 <= pb -> 0 <= pa -> 1 <= k -> 1 <= s ->
  k <= n + pb + pa ->
  exists l, n_original_elements_1d n (pb, pa) k s = Ok l /\
    Z.of_nat (length l) = (n + pb + pa - k) / s + 1 /\
    forall j, 0 <= j < Z.of_nat (length l) -> nth (Z.to_nat j) l 0 = seen n pb k s j.
Proof. exact n_original_1d_spec. Qed.
Print Assumptions C25_counts.
Theorem C25_no_window : forall n pb pa k s, 1 <= s -> n + pb + pa < k -> n_original_elements_1d n (pb, pa) k s = Ok [].
Proof. exact n_original_1d_none. Qed.
Print Assumptions C25_no_window.
Example C25_example : n_original_elements_1d 4 (5, 6) 3 2 = Ok [0; 0; 2; 3; 1; 0; 0] /\ seen 4 5 3 2 2 = 2 /\
  n_original_elements_1d 1 (1, 1) 4 1 = Ok [].
Proof. repeat split; vm_compute; reflexivity. Qed.

(** C26 *)
Theorem C26_conv_1d : forall n k s d, 1 <= s -> d * (k - 1) < n ->
  exists m, conv_1d n k s d = Ok m /\ forall j, 0 <= j -> (j * s + d * (k - 1) < n <-> j < m).
Proof. exact conv_1d_counts. Qed.
Print Assumptions C26_conv_1d.
Example C26_example : conv_1d 10 3 2 2 = Ok 3 /\ 2 * (3 - 1) < 10.
Proof. split; [reflexivity|lia]. Qed.

(** C27 *)
Theorem C27_counts_nd : forall (F : ofield) (ns : list Z) (pws : list (Z * Z)) (ks ss : list Z), ns <> [] ->
  length pws = length ns -> length ks = length ns -> length ss = length ns ->
  (forall r, (r < length ns)%nat -> 0 <= nth r ns 0 /\ 0 <= fst (nth r pws (0, 0)) /\ 0 <= snd (nth r pws (0, 0)) /\
     1 <= nth r ks 0 /\ 1 <= nth r ss 0 /\ nth r ks 0 <= nth r ns 0 + fst (nth r pws (0, 0)) + snd (nth r pws (0, 0))) ->
  exists w : tensor F, n_original_elements_nd ns pws ks ss = Ok w /\
    shp w = map (fun r => (nth r ns 0 + fst (nth r pws (0, 0)) + snd (nth r pws (0, 0)) - nth r ks 0) / nth r ss 0 + 1) (seq 0 (length ns)) /\
    forall j, valid (shp w) j ->
      at_ w j = fprod F (map (fun r => fofZ (seen (nth r ns 0) (fst (nth r pws (0, 0))) (nth r ks 0) (nth r ss 0) (nth r j 0))) (seq 0 (length ns))).
Proof. exact n_original_nd_ok. Qed.
Print Assumptions C27_counts_nd.
Example C27_example :
  show (n_original_elements_nd [4; 3] [(5, 6); (1, 1)] [3; 3] [2; 1]) =
  Some ([7; 3], zq [0; 0; 0; 0; 0; 0; 4; 6; 4; 6; 9; 6; 2; 3; 2; 0; 0; 0; 0; 0; 0]).
Proof. vm_compute; reflexivity. Qed.

(** C65 *)
Theorem C65_outer : forall (F : ofield) (u v : tensor F), (forall n, In n (shp u) -> 0 <= n) ->
  exists w, outer u v = Ok w /\ shp w = shp u ++ shp v /\
    forall i j, valid (shp u) i -> valid (shp v) j -> at_ w (i ++ j) = fmul (at_ u i) (at_ v j).
Proof. exact outer_ok. Qed.
Print Assumptions C65_outer.
Example C65_example : show (outer (ofz [2] [3; 5]) (ofz [1; 3] [1; 2; 4])) = Some ([2; 1; 3], zq [3; 6; 12; 5; 10; 20]).
Proof. vm_compute; reflexivity. Qed.

(** C22.  A call is forward, the averaging forward, or pad; [after m cs] is the state of
    module m after the calls cs. *)
Theorem C22_history_independent : forall (F : ofield) (m : pool F) cs c, snd (do_call (after m cs) c) = snd (do_call m c).
Proof. exact history_independent. Qed.
Print Assumptions C22_history_independent.
(** ... also when several modules share one Padder object. *)
Theorem C22_shared_padder : forall (F : ofield) mods (p : padder F) h (m : pool F) c,
  snd (do_call (set_padder m (shared_after mods p h)) c) = snd (do_call (set_padder m p) c).
Proof. exact shared_history_independent. Qed.
Print Assumptions C22_shared_padder.
(** The state does change: the widths of the last call stay in the padder. *)
Example C22_example :
  let c := CForward 20 garbage x45 AxNone in
  pl_padder (after (pool1 (Some repl)) [c]) <> Some repl /\
  show (snd (do_call (after (pool1 (Some repl)) [CForward 20 garbage (ofz [7; 2] (zrange 14)) (AxSeq [1; 0]); CPad 20 garbage x23 AxNone]) c)) =
  show (snd (do_call (pool1 (Some repl)) c)).
Proof.
  split; [|vm_compute; reflexivity].
  assert (E : match pl_padder (after (pool1 (Some repl)) [CForward 20 garbage x45 AxNone]) with Some p => p_width p | None => NItem (0, 0) end = NList [(1, 1); (1, 0)])
    by (vm_compute; reflexivity).
  intros H. rewrite H in E. discriminate E.
Qed.
