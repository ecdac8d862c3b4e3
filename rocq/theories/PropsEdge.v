(** C43-C46, C48, C74: convolution along an axis, edge filters, unsharp masking.

    Vocabulary (ConvProofs.v, EdgeProofs.v, EdgeState.v, EdgeComponent.v, EdgeConst.v,
    EdgePropLemmas.v, SharpenProofs.v; PropsPool.v for the pooling vocabulary):
    - [axis_arg nd dim a]: the Python axis number dim (possibly negative) denotes axis a;
    - [truncates trunc]: trunc is Python's int(), which _conv_edge applies to the kernel entries;
    - [exact_path trunc ker]: the truncated kernel is neither (-1,0,1) nor (1,-2,1), or the kernel
      itself is one of these;
    - [without a al]: the axes al without a; [smoothers normalize raw]: the smoothing kernels raw,
      divided by their sums if normalize;
    - [edge_image fuel p m x ax al k]: a nonempty image x, distinct axes al, a padder p with the
      one mode m (which fills the padding) and enough fuel for kernels up to length k;
    - [named normalize pd shared e ker smooth]: e is Sobel, Prewitt, Scharr, Farid or Laplace;
    - [keeps_constants m]: m is not antisymmetric, constant, linear_ramp, zeros, empty or a function;
    - [raise_to p], [take_root p]: v -> v**p and v -> v**(1/p) (both the identity for p=1);
    - [sharpened a t x b y]: y = x + a*d, d = x-b with entries |d| < t dropped if t > 0. *)
From Coq Require Import QArith Qcanon.
From Verif Require Import EdgeShape EdgeAlias EdgeExample.
Open Scope Z_scope.

Ltac ex_on := split; [vm_compute; reflexivity | apply all_lt; vm_compute; reflexivity | repeat constructor; cbn; intuition lia].
Ltac nats := let d := fresh in let H := fresh in intros d H; cbn in H;
  repeat (destruct d as [|d]; [cbn; try lia; auto | try (exfalso; lia)]).

(** ** C43 *)
(** For every image without an empty axis. *)
Theorem C43_correlation_partial : forall (F : ofield) (x w : tensor F) dim a stride dilation k,
  axis_arg (ndim x) dim a -> (forall n, In n (shp x) -> 1 <= n) -> shp w = [k] -> 1 <= k -> 1 <= stride -> 1 <= dilation ->
  dilation * (k - 1) + 1 <= nth a (shp x) 0 ->
  exists y, any_conv_1d x w dim stride dilation = Ok y /\
    shp y = upd a ((nth a (shp x) 0 - dilation * (k - 1) - 1) / stride + 1) (shp x) /\
    forall j, valid (shp y) j ->
      at_ y j = fsum k (fun q => fmul (at_ w [q]) (at_ x (upd a (nth a j 0 * stride + q * dilation) j))).
Proof. exact any_conv_correlates. Qed.
Print Assumptions C43_correlation_partial.
Definition x322 := ofz [3; 2; 2] [1; 2; 3; 4; 5; 6; 7; 9; 10; 12; 14; 20].
Example C43_example : axis_arg (ndim x322) (-3) 0 /\ (forall n, In n (shp x322) -> 1 <= n) /\
  2 * (2 - 1) + 1 <= nth 0 (shp x322) 0 /\
  show (any_conv_1d x322 (ofz [2] [1; 10]) (-3) 1 2) = Some ([1; 2; 2], zq [101; 122; 143; 204]) /\
  show (any_conv_1d x322 (ofz [2] [1; 10]) 1 1 1) = Some ([3; 1; 2], zq [31; 42; 75; 96; 150; 212]) /\
  show (any_conv_1d x322 (ofz [2] [1; 10]) 2 3 1) = Some ([3; 2; 1], zq [21; 43; 65; 97; 130; 214]).
Proof.
  split; [unfold axis_arg, ndim; cbn; lia|]. split; [intros n [<-|[<-|[<-|[]]]]; lia|]. split; [cbn; lia|].
  split; [vm_compute; reflexivity|]. split; vm_compute; reflexivity.
Qed.
(** Kernels that do not fit, and bad strides or dilations, are errors. *)
Theorem C43_too_large : forall (F : ofield) (x w : tensor F) dim a stride dilation k,
  axis_arg (ndim x) dim a -> (forall n, In n (shp x) -> 1 <= n) -> shp w = [k] -> 1 <= k ->
  stride < 1 \/ dilation < 1 \/ nth a (shp x) 0 < dilation * (k - 1) + 1 ->
  any_conv_1d x w dim stride dilation = Err RuntimeError.
Proof. exact any_conv_too_large. Qed.
Print Assumptions C43_too_large.
Example C43_too_large_example : axis_arg (ndim x322) (-1) 2 /\ nth 2 (shp x322) 0 < 2 * (2 - 1) + 1 /\
  any_conv_1d x322 (ofz [2] [1; 10]) (-1) 1 2 = Err RuntimeError.
Proof. split; [unfold axis_arg, ndim; cbn; lia|]. split; [cbn; lia|vm_compute; reflexivity]. Qed.
(** It agrees with the unfold-and-multiply implementation in the same module. *)
Theorem C43_same_as_unfold : forall (F : ofield) (x : tensor F) (ker : list F) dim a stride,
  axis_arg (ndim x) dim a -> (forall n, In n (shp x) -> 1 <= n) -> ker <> [] -> 1 <= stride ->
  klen ker <= nth a (shp x) 0 ->
  exists y u z, any_conv_1d x (mkT [klen ker] (fun i => nth (Z.to_nat (nth 0 i 0)) ker f0)) dim stride 1 = Ok y /\
    tunfold a (klen ker) stride x = Ok u /\ tmatvec u ker = Ok z /\ teq y z.
Proof. exact any_conv_unfold. Qed.
Print Assumptions C43_same_as_unfold.
Example C43_same_as_unfold_example : axis_arg (ndim x322) 0 0 /\ klen [qz 1; qz 10; qz 3] <= nth 0 (shp x322) 0.
Proof. split; [unfold axis_arg, ndim; cbn; lia|]. unfold klen; cbn; lia. Qed.
(** C43 fails when another axis is empty: an error instead of an empty result. *)
Theorem C43_empty_axis : forall (F : ofield) (x w : tensor F) dim a stride dilation k, axis_arg (ndim x) dim a -> shp w = [k] ->
  (forall n, In n (shp x) -> 0 <= n) -> (exists d, (d < ndim x)%nat /\ d <> a /\ nth d (shp x) 0 = 0) ->
  any_conv_1d x w dim stride dilation = Err RuntimeError.
Proof. exact any_conv_empty. Qed.
Print Assumptions C43_empty_axis.
Theorem C43_empty_axis_refuted : exists (x w : tensor QcF),
  axis_arg (ndim x) 1 1 /\ shp x = [0; 3] /\ shp w = [2] /\ 1 * (2 - 1) + 1 <= nth 1 (shp x) 0 /\
  any_conv_1d x w 1 1 1 = Err RuntimeError.
Proof.
  exists (ofz [0; 3] []), (ofz [2] [1; 1]). split; [unfold axis_arg, ndim; cbn; lia|]. split; [reflexivity|]. split; [reflexivity|].
  split; [cbn; lia|vm_compute; reflexivity].
Qed.
Print Assumptions C43_empty_axis_refuted.

(** ** C44 *)
(** With a padder: c is the correlation of the padded image with the edge kernel, and the result
    the correlation of c, padded again, with the smoothing kernels. *)
Theorem C44_component_partial : forall (F : ofield) (trunc : F -> Z) fuel junk ker smooth raw normalize p shared (e : edge_filter F) x ea sx a al ms ms',
  truncates trunc -> exact_path trunc ker ->
  edge_init (NItem ker) smooth normalize (Some p) shared = Ok e -> ker <> [] ->
  check_axes (Z.of_nat (ndim x)) ea = Ok [Z.of_nat a] -> check_axes (Z.of_nat (ndim x)) sx = Ok (map Z.of_nat al) ->
  same_call F fuel p x (AxInt (Z.of_nat a)) [a] ms [ker] [1] -> ~ In MPeriodize ms ->
  expand (length (without a al)) smooth = Some raw ->
  same_call F fuel p x (AxSeq (map Z.of_nat (without a al))) (without a al) ms' (smoothers normalize raw) (repeat 1 (length (without a al))) ->
  exists w xp c ws cp y,
    is_same_width (klen ker) 1 (nth a (shp x) 0) w /\
    padder_forward fuel junk (with_width p [w]) x (AxInt (Z.of_nat a)) = Ok xp /\
    shp c = shp x /\
    (forall j, valid (shp x) j ->
       at_ c j = fsum (klen ker) (fun q => fmul (nth (Z.to_nat q) ker f0) (at_ xp (upd a (nth a j 0 + q) j)))) /\
    length ws = length (without a al) /\
    (forall r, (r < length (without a al))%nat ->
       is_same_width (klen (nth r (smoothers normalize raw) [])) 1 (nth (nth r (without a al) 0%nat) (shp x) 0) (nth r ws (0, 0))) /\
    padder_forward fuel junk (with_width p ws) c (AxSeq (map Z.of_nat (without a al))) = Ok cp /\
    snd (component trunc fuel junk e x ea sx) = Ok y /\ (~ In MPeriodize ms' -> shp y = shp x) /\
    forall j, valid (shp y) j ->
      at_ y j = correlation (without a al) (smoothers normalize raw) (repeat 1 (length (without a al))) cp j.
Proof. exact component_exact. Qed.
Print Assumptions C44_component_partial.
(** Without a padder. *)
Theorem C44_component_valid_partial : forall (F : ofield) (trunc : F -> Z) fuel junk ker smooth raw normalize shared (e : edge_filter F) x ea sx a al,
  truncates trunc -> exact_path trunc ker ->
  edge_init (NItem ker) smooth normalize None shared = Ok e -> ker <> [] ->
  check_axes (Z.of_nat (ndim x)) ea = Ok [Z.of_nat a] -> check_axes (Z.of_nat (ndim x)) sx = Ok (map Z.of_nat al) ->
  (a < ndim x)%nat -> (forall b, In b al -> (b < ndim x)%nat) -> NoDup al ->
  (forall d, (d < ndim x)%nat -> 0 <= nth d (shp x) 0) -> klen ker <= nth a (shp x) 0 ->
  expand (length (without a al)) smooth = Some raw ->
  (forall r, (r < length (without a al))%nat -> klen (nth r (smoothers normalize raw) []) <= nth (nth r (without a al) 0%nat) (shp x) 0) ->
  exists c y, shp c = upd a (nth a (shp x) 0 - klen ker + 1) (shp x) /\
    (forall j, valid (shp c) j ->
       at_ c j = fsum (klen ker) (fun q => fmul (nth (Z.to_nat q) ker f0) (at_ x (upd a (nth a j 0 + q) j)))) /\
    snd (component trunc fuel junk e x ea sx) = Ok y /\ ndim y = ndim x /\
    (forall r, (r < length (without a al))%nat -> nth r (smoothers normalize raw) [] <> [] ->
       nth (nth r (without a al) 0%nat) (shp y) 0 = nth (nth r (without a al) 0%nat) (shp x) 0 - klen (nth r (smoothers normalize raw) []) + 1) /\
    (forall d, ~ In d (without a al) -> nth d (shp y) 0 = nth d (shp c) 0) /\
    forall j, valid (shp y) j ->
      at_ y j = correlation (without a al) (smoothers normalize raw) (repeat 1 (length (without a al))) c j.
Proof. exact component_exact_valid. Qed.
Print Assumptions C44_component_valid_partial.
Definition x34 := ofz [3; 4] [1; 2; 4; 8; 3; 5; 9; 10; 20; 30; 50; 51].
Definition repl : padder QcF := pad1d (0, 0) MReplicate.
Definition kerD : list QcF := [qq 1 2; qz (-3); qq 1 3; qz 4].
Definition kerS : list QcF := [qz 1; qz 3].
(** An edge filter with the given kernels, not normalised, padder not shared. *)
Definition edge_of (ker s : list QcF) pd : edge_filter QcF :=
  mkEdge ker (mkPool (NItem ker) (NItem (klen ker)) (NItem 1) pd 0) (mkPool (NItem s) (NItem (klen s)) (NItem 1) pd 0) false.
Lemma edge_of_init ker s pd : edge_init (NItem ker) (NItem s) false pd false = Ok (edge_of ker s pd).
Proof. destruct pd; reflexivity. Qed.
Lemma x34_pos d : (d < ndim x34)%nat -> 3 <= nth d (shp x34) 0 <= 4.
Proof. intros H. change (ndim x34) with 2%nat in H. destruct d as [|[|d]]; [cbn; lia|cbn; lia|lia]. Qed.
Lemma image34 k : k <= 12 -> edge_image 16 repl MReplicate x34 AxNone [0%nat; 1%nat] k.
Proof.
  intros Hk. split; [ex_on | | | | exact I |].
  - intros d H. pose proof (x34_pos d H). lia.
  - intros a [<-|[<-|[]]]; cbn; lia.
  - split; [reflexivity|]. split; [eexists; reflexivity|]. split; eexists; reflexivity.
  - intros d H. pose proof (x34_pos d H). lia.
Qed.
Example C44_component_example :
  exact_path qtrunc kerD /\ edge_init (NItem kerD) (NItem kerS) false (Some repl) false = Ok (edge_of kerD kerS (Some repl)) /\
  check_axes (Z.of_nat (ndim x34)) (AxInt (-1)) = Ok [Z.of_nat 1] /\ check_axes (Z.of_nat (ndim x34)) AxNone = Ok (map Z.of_nat [0; 1]%nat) /\
  same_call QcF 16 repl x34 (AxInt 1) [1%nat] [MReplicate] [kerD] [1] /\ ~ In MPeriodize [@MReplicate QcF] /\
  without 1 [0; 1]%nat = [0%nat] /\ expand 1 (NItem kerS) = Some [kerS] /\
  same_call QcF 16 repl x34 (AxSeq [0]) [0%nat] [MReplicate] [kerS] [1] /\
  show (snd (component qtrunc 16 garbage (edge_of kerD kerS (Some repl)) x34 (AxInt (-1)) AxNone)) =
    Some ([3; 4], [70 # 3; 170 # 3; 334 # 3; 284 # 3; 139 # 3; 314 # 3; 349 # 3; 481 # 6; 487 # 2; 3061 # 6; 903 # 2; 1661 # 6]%Q).
Proof.
  split; [apply exact_length; discriminate|]. split; [reflexivity|]. split; [reflexivity|]. split; [reflexivity|].
  split; [apply (edge_image_one QcF 16 repl MReplicate x34 AxNone [0; 1]%nat 4 1); [apply image34; lia|cbn; auto|unfold klen; cbn; lia]|].
  split; [intros [E|[]]; discriminate|]. split; [reflexivity|]. split; [reflexivity|].
  split; [apply (edge_image_rest QcF 16 repl MReplicate x34 AxNone [0; 1]%nat 4 1 [kerS]); [apply image34; lia|cbn; auto|lia|intros k [<-|[]]; unfold klen; cbn; lia]|].
  vm_compute; reflexivity.
Qed.
Example C44_component_valid_example :
  exact_path qtrunc kerD /\ edge_init (NItem kerD) (NItem kerS) false None false = Ok (edge_of kerD kerS None) /\
  klen kerD <= nth 1 (shp x34) 0 /\ klen kerS <= nth 0 (shp x34) 0 /\
  show (snd (component qtrunc 16 garbage (edge_of kerD kerS None) x34 (AxInt (-1)) AxNone)) = Some ([2; 1], [349 # 3; 903 # 2]%Q).
Proof.
  split; [apply exact_length; discriminate|]. split; [reflexivity|]. split; [unfold klen; cbn; lia|]. split; [unfold klen; cbn; lia|].
  vm_compute; reflexivity.
Qed.
(** The fast path in general: it is selected by the integer parts of the kernel and ignores the rest. *)
Theorem C44_fast_path : forall (F : ofield) (trunc : F -> Z) fuel junk ker smooth normalize p shared (e : edge_filter F) x a ms,
  edge_init (NItem ker) smooth normalize (Some p) shared = Ok e -> ker <> [] ->
  same_call F fuel p x (AxInt (Z.of_nat a)) [a] ms [ker] [1] -> ~ In MPeriodize ms ->
  map trunc ker = [-1; 0; 1] \/ map trunc ker = [1; -2; 1] ->
  exists xp c,
    padder_forward fuel junk (with_width p [(1, 1)]) x (AxInt (Z.of_nat a)) = Ok xp /\
    snd (conv_edge trunc fuel junk e x (Z.of_nat a)) = Ok c /\ shp c = shp x /\
    forall j, valid (shp x) j -> at_ c j =
      match map trunc ker with
      | -1 :: _ => fsub (at_ xp (upd a (nth a j 0 + 2) j)) (at_ xp j)
      | _ => fadd (fsub (at_ xp (upd a (nth a j 0 + 2) j)) (fmul (fofZ 2) (at_ xp (upd a (nth a j 0 + 1) j)))) (at_ xp j)
      end.
Proof. exact conv_edge_fast. Qed.
Print Assumptions C44_fast_path.
Definition ker_bad : list QcF := [qq (-3) 2; qq 1 5; qq 19 10].
Example C44_fast_path_example :
  truncates qtrunc /\ map qtrunc ker_bad = [-1; 0; 1] /\
  edge_init (NItem ker_bad) (NItem []) false (Some repl) false = Ok (edge_of ker_bad [] (Some repl)) /\
  same_call QcF 16 repl x34 (AxInt 1) [1%nat] [MReplicate] [ker_bad] [1].
Proof.
  split; [apply qtrunc_ok|]. split; [vm_compute; reflexivity|]. split; [reflexivity|].
  apply (edge_image_one QcF 16 repl MReplicate x34 AxNone [0; 1]%nat 4 1); [apply image34; lia|cbn; auto|unfold klen; cbn; lia].
Qed.
(** C44 is false: the kernel (-1.5, 0.2, 1.9) is applied as (-1, 0, 1). *)
Theorem C44_truncated_kernel_refuted : exists (ker : list QcF) e x y,
  edge_init (NItem ker) (NItem []) false None false = Ok e /\
  snd (component qtrunc 16 garbage e x (AxInt 0) AxNone) = Ok y /\ valid (shp y) [0; 0] /\
  at_ y [0; 0] <> fsum (klen ker) (fun q => fmul (nth (Z.to_nat q) ker f0) (at_ x [q; 0])).
Proof.
  exists ker_bad, (edge_of ker_bad [] None), x34.
  destruct (snd (component qtrunc 16 garbage (edge_of ker_bad [] None) x34 (AxInt 0) AxNone)) as [y|er] eqn:E.
  - exists y. split; [reflexivity|]. split; [reflexivity|].
    assert (S : show (Ok y) = Some ([1; 4], zq [19; 28; 46; 43])) by (rewrite <- E; vm_compute; reflexivity).
    cbn [show] in S. injection S as S1 S2. rewrite S1 in S2. assert (S3 : shp y = [1; 4]) by exact S1.
    split; [rewrite S3; repeat constructor; lia|].
    cbn in S2. injection S2 as S2 _ _ _. intros H. apply (f_equal this) in H.
    pose proof (eq_trans (eq_sym S2) H) as G. vm_compute in G. discriminate.
  - exfalso. assert (S : show (Err er) = Some ([1; 4], zq [19; 28; 46; 43])) by (rewrite <- E; vm_compute; reflexivity). discriminate.
Qed.
Print Assumptions C44_truncated_kernel_refuted.

(** ** C45 *)
Theorem C45_component_partial : forall (F : ofield) (trunc : F -> Z) fuel junk normalize p m shared (e : edge_filter F) x ker smooth ea ax ax' a al c,
  truncates trunc -> named normalize (Some p) shared e ker smooth ->
  check_axes (Z.of_nat (ndim x)) ea = Ok [Z.of_nat a] -> In a al ->
  edge_image fuel p m x ax al 6 -> check_axes (Z.of_nat (ndim x)) ax' = Ok (map Z.of_nat al) -> keeps_constants F m -> constant_image c x ->
  exists y, snd (component trunc fuel junk e x ea ax') = Ok y /\ constant_image f0 y /\ (m <> MPeriodize -> shp y = shp x).
Proof. exact named_component. Qed.
Print Assumptions C45_component_partial.
(** The same for every filter whose edge kernel sums to zero (also after truncation), with and without a padder. *)
Theorem C45_balanced_kernel : forall (F : ofield) (trunc : F -> Z) fuel junk ker smooth raw normalize p m shared (e : edge_filter F) x ea ax ax' a al k c,
  edge_init (NItem ker) smooth normalize (Some p) shared = Ok e -> balanced trunc ker ->
  check_axes (Z.of_nat (ndim x)) ea = Ok [Z.of_nat a] -> In a al ->
  edge_image fuel p m x ax al (k + 1) -> check_axes (Z.of_nat (ndim x)) ax' = Ok (map Z.of_nat al) -> klen ker <= k -> keeps_constants F m ->
  expand (length (without a al)) smooth = Some raw -> (forall s, In s raw -> klen s <= k) -> constant_image c x ->
  exists y, snd (component trunc fuel junk e x ea ax') = Ok y /\ constant_image f0 y /\ (m <> MPeriodize -> shp y = shp x).
Proof. exact component_zero. Qed.
Print Assumptions C45_balanced_kernel.
Theorem C45_balanced_kernel_valid : forall (F : ofield) (trunc : F -> Z) fuel junk ker smooth raw normalize shared (e : edge_filter F) x ea sx a al c,
  edge_init (NItem ker) smooth normalize None shared = Ok e -> balanced trunc ker ->
  check_axes (Z.of_nat (ndim x)) ea = Ok [Z.of_nat a] -> check_axes (Z.of_nat (ndim x)) sx = Ok (map Z.of_nat al) ->
  (a < ndim x)%nat -> (forall b, In b al -> (b < ndim x)%nat) -> NoDup al ->
  (forall d, (d < ndim x)%nat -> 0 <= nth d (shp x) 0) -> klen ker <= nth a (shp x) 0 ->
  expand (length (without a al)) smooth = Some raw ->
  (forall r, (r < length (without a al))%nat -> klen (nth r raw []) <= nth (nth r (without a al) 0%nat) (shp x) 0) ->
  constant_image c x ->
  exists y, snd (component trunc fuel junk e x ea sx) = Ok y /\ constant_image f0 y.
Proof. exact component_zero_valid. Qed.
Print Assumptions C45_balanced_kernel_valid.
(** The magnitude of a constant image is the root of epsilon. *)
Theorem C45_magnitude : forall (F : ofield) (trunc : F -> Z) fuel junk normalize p m shared (e : edge_filter F) x ker smooth ax al c eps pw,
  truncates trunc -> named normalize (Some p) shared e ker smooth -> edge_image fuel p m x ax al 6 -> keeps_constants F m -> m <> MPeriodize ->
  (2 <= length al)%nat -> raise_to F pw f0 = f0 -> constant_image c x ->
  exists y, snd (magnitude trunc fuel junk e x ax eps pw) = Ok y /\ shp y = shp x /\ constant_image (take_root F pw eps) y.
Proof. exact named_magnitude. Qed.
Print Assumptions C45_magnitude.
(** The named filters can be built with every option. *)
Theorem C45_filters_exist : forall (F : ofield) normalize pd shared,
  (exists e : edge_filter F, sobel_init normalize pd shared = Ok e) /\ (exists e : edge_filter F, prewitt_init normalize pd shared = Ok e) /\
  (exists e : edge_filter F, scharr_init normalize pd shared = Ok e) /\ (exists e : edge_filter F, farid_init normalize pd shared = Ok e) /\
  (exists e : edge_filter F, laplace_init pd shared = Ok e).
Proof. exact named_ok. Qed.
Print Assumptions C45_filters_exist.
Definition flat34 := mkT [3; 4] (fun _ => qz 7).
Lemma flat34_pos d : (d < ndim flat34)%nat -> 3 <= nth d (shp flat34) 0 <= 4.
Proof. intros H. change (ndim flat34) with 2%nat in H. destruct d as [|[|d]]; [cbn; lia|cbn; lia|lia]. Qed.
Lemma flat_image m k : fills m -> k <= 12 -> edge_image 16 (pad1d (0, 0) m) m flat34 AxNone [0%nat; 1%nat] k.
Proof.
  intros Hm Hk. split; [ex_on | | | | exact Hm |].
  - intros d H. pose proof (flat34_pos d H). lia.
  - intros a [<-|[<-|[]]]; cbn; lia.
  - split; [reflexivity|]. split; [eexists; reflexivity|]. split; eexists; reflexivity.
  - intros d H. pose proof (flat34_pos d H). lia.
Qed.
Example C45_example : exists e,
  truncates qtrunc /\ named true (Some repl) true e central_kernel (ints [3; 10; 3]) /\
  edge_image 16 repl MReplicate flat34 AxNone [0; 1]%nat 6 /\ keeps_constants QcF MReplicate /\ constant_image (qz 7) flat34 /\
  balanced qtrunc (@central_kernel QcF) /\ raise_to QcF (PGen (fun v => fmul v v) (fun v => v)) f0 = f0 /\
  show (snd (component qtrunc 16 garbage e x34 (AxInt 0) AxNone)) =
    Some ([3; 4], [35 # 16; 51 # 16; 65 # 16; 41 # 16; 331 # 16; 475 # 16; 673 # 16; 697 # 16; 37 # 2; 53 # 2; 38; 41]%Q) /\
  show (snd (component qtrunc 16 garbage e flat34 (AxInt 0) AxNone)) = Some ([3; 4], zq (repeat 0 12)).
Proof.
  destruct (named_ok QcF true (Some repl) true) as [_ [_ [[e He] _]]]. exists e.
  split; [apply qtrunc_ok|]. split; [apply n_scharr; auto|]. split; [apply (flat_image MReplicate); [exact I|lia]|]. split; [exact I|].
  split; [intros i V; reflexivity|]. split; [eapply named_balanced; [apply qtrunc_ok|apply (n_scharr true (Some repl) true e); auto]|].
  split; [apply Qc_is_canon; reflexivity|]. rewrite (get_ok filter0 _ _ He). clear He. split; vm_compute; reflexivity.
Qed.
Example C45_valid_example : edge_init (NItem (ints [1; -2; 1])) (NItem [qz 1; qz 3]) false None true = Ok (mkEdge (ints [1; -2; 1])
    (mkPool (NItem (ints [1; -2; 1])) (NItem 3) (NItem 1) None 0) (mkPool (NItem [qz 1; qz 3]) (NItem 2) (NItem 1) None 0) true) /\
  balanced qtrunc (ints [1; -2; 1]) /\ klen (ints [1; -2; 1] : list QcF) <= nth 1 (shp flat34) 0 /\ klen [qz 1; qz 3] <= nth 0 (shp flat34) 0.
Proof.
  split; [reflexivity|]. split; [split; [discriminate|apply Qc_is_canon; vm_compute; reflexivity]|]. split; unfold klen; cbn; lia.
Qed.
(** C45's claim about shapes is false for mode periodize on an odd length. *)
Theorem C45_periodize_shape_refuted : exists (e : edge_filter QcF) x y,
  sobel_init true (Some (pad1d (0, 0) MPeriodize)) true = Ok e /\ constant_image (qz 7) x /\
  edge_image 16 (pad1d (0, 0) MPeriodize) MPeriodize x AxNone [0; 1]%nat 6 /\
  snd (component qtrunc 16 garbage e x (AxInt 0) AxNone) = Ok y /\ shp x = [3; 4] /\ shp y = [4; 4].
Proof.
  destruct (named_ok QcF true (Some (pad1d (0, 0) MPeriodize)) true) as [[e He] _]. exists e, flat34.
  assert (S : match snd (component qtrunc 16 garbage e flat34 (AxInt 0) AxNone) with Ok y => shp y | Err _ => [] end = [4; 4]).
  { rewrite (get_ok filter0 _ _ He). clear He. vm_compute. reflexivity. }
  destruct (snd (component qtrunc 16 garbage e flat34 (AxInt 0) AxNone)) as [y|er]; [|discriminate]. exists y.
  split; auto. split; [intros i V; reflexivity|]. split; [apply flat_image; [exact I|lia]|]. auto.
Qed.
Print Assumptions C45_periodize_shape_refuted.
(** The exact shape, for every image and mode: [span d] is the length of the kernel used along
    axis d; periodize adds one to every filtered axis of odd length with a kernel longer than 1. *)
Theorem C45_shape : forall (F : ofield) (trunc : F -> Z) fuel junk ker smooth raw normalize p m shared (e : edge_filter F) x ea ax ax' a al k span,
  edge_init (NItem ker) smooth normalize (Some p) shared = Ok e -> ker <> [] ->
  check_axes (Z.of_nat (ndim x)) ea = Ok [Z.of_nat a] -> In a al ->
  edge_image fuel p m x ax al (k + 1) -> check_axes (Z.of_nat (ndim x)) ax' = Ok (map Z.of_nat al) -> klen ker <= k ->
  expand (length (without a al)) smooth = Some raw -> (forall s, In s raw -> klen s <= k) ->
  span a = klen ker -> (forall r, (r < length (without a al))%nat -> span (nth r (without a al) 0%nat) = klen (nth r raw [])) ->
  exists y, snd (component trunc fuel junk e x ea ax') = Ok y /\ ndim y = ndim x /\
    (forall d, In d al -> m = MPeriodize -> Z.odd (nth d (shp x) 0) = true -> 2 <= span d ->
       nth d (shp y) 0 = nth d (shp x) 0 + 1) /\
    (forall d, ~ (In d al /\ m = MPeriodize /\ Z.odd (nth d (shp x) 0) = true /\ 2 <= span d) ->
       nth d (shp y) 0 = nth d (shp x) 0).
Proof. exact component_shape. Qed.
Print Assumptions C45_shape.
Example C45_shape_example : exists e,
  edge_init (NItem central_kernel) (NItem (ints [1; 2; 1])) true (Some (pad1d (0, 0) MPeriodize)) true = Ok e /\
  edge_image 16 (pad1d (0, 0) MPeriodize) MPeriodize flat34 AxNone [0; 1]%nat (3 + 1) /\
  expand (length (without 0 [0; 1]%nat)) (NItem (ints [1; 2; 1] : list QcF)) = Some [ints [1; 2; 1]] /\
  klen (ints [1; 2; 1] : list QcF) <= 3 /\ klen (@central_kernel QcF) <= 3 /\ Z.odd (nth 0 (shp flat34) 0) = true /\
  (match snd (component qtrunc 16 garbage e flat34 (AxInt 0) AxNone) with Ok y => shp y | Err _ => [] end) = [4; 4].
Proof.
  destruct (named_ok QcF true (Some (pad1d (0, 0) MPeriodize)) true) as [[e He] _]. exists e.
  split; [exact He|]. split; [apply flat_image; [exact I|lia]|]. split; [reflexivity|]. split; [unfold klen; cbn; lia|].
  split; [unfold klen; cbn; lia|]. split; [reflexivity|].
  rewrite (get_ok filter0 _ _ He). clear He. vm_compute. reflexivity.
Qed.

(** ** C46 *)
(** xp a is x padded by one on both sides of axis a; its middle is x. *)
Theorem C46_laplace_partial : forall (F : ofield) (trunc : F -> Z) fuel junk p m shared (e : edge_filter F) x ax al, truncates trunc ->
  laplace_init (Some p) shared = Ok e -> edge_image fuel p m x ax al 3 -> m <> MPeriodize -> (2 <= length al)%nat ->
  exists (xp : nat -> tensor F) y,
    (forall a, In a al -> padder_forward fuel junk (with_width p [(1, 1)]) x (AxInt (Z.of_nat a)) = Ok (xp a)) /\
    snd (laplace_forward trunc fuel junk e x ax) = Ok y /\ shp y = shp x /\
    (forall j, valid (shp x) j -> at_ y j =
       axis_sum (fun a => fadd (fsub (at_ (xp a) (upd a (nth a j 0 + 2) j)) (fmul (fofZ 2) (at_ (xp a) (upd a (nth a j 0 + 1) j)))) (at_ (xp a) j)) al) /\
    (forall a i, In a al -> valid (shp x) i -> at_ (xp a) (upd a (nth a i 0 + 1) i) = at_ x i).
Proof. exact laplace_ok. Qed.
Print Assumptions C46_laplace_partial.
(** Away from the borders the padder does not matter. *)
Theorem C46_interior : forall (F : ofield) (trunc : F -> Z) fuel junk p m shared (e : edge_filter F) x ax al, truncates trunc ->
  laplace_init (Some p) shared = Ok e -> edge_image fuel p m x ax al 3 -> m <> MPeriodize -> (2 <= length al)%nat ->
  exists y, snd (laplace_forward trunc fuel junk e x ax) = Ok y /\ shp y = shp x /\
    forall j, valid (shp x) j -> (forall a, In a al -> 1 <= nth a j 0 <= nth a (shp x) 0 - 2) ->
      at_ y j = axis_sum (fun a => fadd (fsub (at_ x (upd a (nth a j 0 + 1) j)) (fmul (fofZ 2) (at_ x j))) (at_ x (upd a (nth a j 0 - 1) j))) al.
Proof. exact laplace_interior. Qed.
Print Assumptions C46_interior.
Example C46_example : exists e, truncates qtrunc /\ laplace_init (Some repl) true = Ok e /\ edge_image 16 repl MReplicate x34 AxNone [0; 1]%nat 3 /\
  valid (shp x34) [1; 1] /\ 9 - 2 * 5 + 3 + (30 - 2 * 5 + 2) = 24 /\
  show (snd (laplace_forward qtrunc 16 garbage e x34 AxNone)) = Some ([3; 4], zq [3; 4; 7; -2; 17; 24; 33; 38; -7; -15; -60; -42]).
Proof.
  destruct (named_ok QcF true (Some repl) true) as [_ [_ [_ [_ [e He]]]]]. exists e. split; [apply qtrunc_ok|]. split; auto.
  split; [apply image34; lia|]. split; [repeat constructor; lia|]. split; [reflexivity|].
  rewrite (get_ok filter0 _ _ He). clear He. vm_compute; reflexivity.
Qed.
(** Every magnitude is the root of the sum of the components' powers plus epsilon, except perhaps the signed sum (p = 1)
    of a filter with an empty edge kernel, see C46_magnitude_in_place. *)
Theorem C46_magnitude : forall (F : ofield) (trunc : F -> Z) fuel junk ker smooth normalize pd shared (e : edge_filter F) x ax al eps p (cs : nat -> tensor F) sh,
  edge_init (NItem ker) smooth normalize pd shared = Ok e ->
  check_axes (Z.of_nat (ndim x)) ax = Ok (map Z.of_nat al) -> (2 <= length al)%nat ->
  (forall a, In a al -> snd (component trunc fuel junk e x (AxInt (Z.of_nat a)) (AxSeq (map Z.of_nat al))) = Ok (cs a) /\ shp (cs a) = sh) ->
  (p = P1 -> ker <> []) ->
  exists m, snd (magnitude trunc fuel junk e x ax eps p) = Ok m /\ shp m = sh /\
    forall i, valid sh i -> at_ m i = take_root F p (fadd (axis_sum (fun a => raise_to F p (at_ (cs a) i)) al) eps).
Proof. exact magnitude_ok. Qed.
Print Assumptions C46_magnitude.
(** Without any kernel the component is the image itself, and the same object: [magnitude += c] adds the sum to itself,
    so n axes give 2^(n-1) times the image instead of n times. *)
Theorem C46_magnitude_in_place : forall (F : ofield) (trunc : F -> Z) fuel junk normalize shared (e : edge_filter F) x ax al eps,
  edge_init (NItem []) (NItem []) normalize None shared = Ok e ->
  check_axes (Z.of_nat (ndim x)) ax = Ok (map Z.of_nat al) -> (forall a, In a al -> (a < ndim x)%nat) -> (2 <= length al)%nat ->
  (forall a, In a al -> snd (component trunc fuel junk e x (AxInt (Z.of_nat a)) (AxSeq (map Z.of_nat al))) = Ok x) /\
  exists m, snd (magnitude trunc fuel junk e x ax eps P1) = Ok m /\ shp m = shp x /\
    forall i, valid (shp x) i -> at_ m i = fadd (fmul (twice F (length al - 1)) (at_ x i)) eps.
Proof. exact no_kernel_magnitude. Qed.
Print Assumptions C46_magnitude_in_place.
Example C46_in_place_example : exists e, edge_init (F := QcF) (NItem []) (NItem []) false (Some repl) true = Ok e /\
  show (snd (magnitude qtrunc 16 garbage e (ofz [1; 1; 2] [5; 7]) AxNone (qz 1) P1)) = Some ([1; 1; 2], zq [21; 29]) /\
  show (snd (magnitude qtrunc 16 garbage e (ofz [1; 1; 2] [5; 7]) AxNone (qz 1) (PGen (fun v => v) (fun v => v)))) = Some ([1; 1; 2], zq [16; 22]) /\
  show (snd (magnitude qtrunc 16 garbage e (ofz [1; 2] [5; 7]) AxNone (qz 1) P1)) = Some ([1; 2], zq [11; 15]).
Proof.
  assert (H : exists e, edge_init (F := QcF) (NItem []) (NItem []) false (Some repl) true = Ok e) by (eexists; reflexivity).
  destruct H as [e He]. exists e. split; auto. rewrite (get_ok filter0 _ _ He). clear He.
  split; [vm_compute; reflexivity|]. split; [vm_compute; reflexivity|]. vm_compute; reflexivity.
Qed.
Theorem C46_all_components : forall (F : ofield) (trunc : F -> Z) fuel junk ker smooth normalize pd shared (e : edge_filter F) x ax al (cs : nat -> tensor F),
  edge_init (NItem ker) smooth normalize pd shared = Ok e ->
  check_axes (Z.of_nat (ndim x)) ax = Ok (map Z.of_nat al) -> (2 <= length al)%nat ->
  (forall a, In a al -> snd (component trunc fuel junk e x (AxInt (Z.of_nat a)) (AxSeq (map Z.of_nat al))) = Ok (cs a)) ->
  snd (all_components trunc fuel junk e x ax) = Ok (map cs al).
Proof. exact all_components_ok. Qed.
Print Assumptions C46_all_components.
Example C46_magnitude_example : exists e, sobel_init false (Some repl) true = Ok e /\
  show (snd (component qtrunc 16 garbage e x34 (AxInt 0) AxNone)) = Some ([3; 4], zq [9; 13; 15; 11; 85; 121; 163; 175; 76; 108; 148; 164]) /\
  show (snd (component qtrunc 16 garbage e x34 (AxInt 1) AxNone)) = Some ([3; 4], zq [5; 15; 23; 13; 15; 45; 37; 7; 32; 96; 68; 4]) /\
  show (snd (magnitude qtrunc 16 garbage e x34 AxNone (qz 2) (PGen (fun v => fmul v v) (fun v => v)))) =
    Some ([3; 4], zq (map (fun uv => fst uv * fst uv + snd uv * snd uv + 2)
      [(9, 5); (13, 15); (15, 23); (11, 13); (85, 15); (121, 45); (163, 37); (175, 7); (76, 32); (108, 96); (148, 68); (164, 4)])).
Proof.
  destruct (named_ok QcF false (Some repl) true) as [[e He] _]. exists e. split; auto.
  rewrite (get_ok filter0 _ _ He). clear He. split; [vm_compute; reflexivity|]. split; vm_compute; reflexivity.
Qed.
(** C46 is false for a single axis: an error. *)
Theorem C46_needs_two_axes : forall (F : ofield) (trunc : F -> Z) fuel junk (e : edge_filter F) x ax al eps p,
  check_axes (Z.of_nat (ndim x)) ax = Ok al -> (length al < 2)%nat ->
  snd (magnitude trunc fuel junk e x ax eps p) = Err ValueError /\ snd (all_components trunc fuel junk e x ax) = Err ValueError.
Proof. exact magnitude_needs_two. Qed.
Print Assumptions C46_needs_two_axes.
Theorem C46_one_axis_refuted : exists (e : edge_filter QcF) x, laplace_init (Some repl) true = Ok e /\
  edge_image 16 repl MReplicate x (AxInt 0) [0%nat] 3 /\ snd (laplace_forward qtrunc 16 garbage e x (AxInt 0)) = Err ValueError.
Proof.
  destruct (named_ok QcF true (Some repl) true) as [_ [_ [_ [_ [e He]]]]]. exists e, x34. split; auto. split.
  - destruct (image34 3 ltac:(lia)) as [_ B C D E G]. split; auto; [ex_on|]. intros a [<-|[]]. cbn. lia.
  - apply (magnitude_needs_two QcF qtrunc 16 garbage e x34 (AxInt 0) [0]); [reflexivity|cbn; lia].
Qed.
Print Assumptions C46_one_axis_refuted.

(** ** C48 *)
(** For every blur that keeps the shape. *)
Theorem C48_formula : forall (F : ofield) fuel junk (blur m : pool F) kind a t pd (u : unsharp F) x b ax axes,
  to_filter blur pd = Ok m -> unsharp_init blur kind a t pd = Ok u -> check_axes (Z.of_nat (ndim x)) ax = Ok axes ->
  snd (blur_forward fuel junk kind m x (AxSeq axes)) = Ok b -> shp b = shp x ->
  exists y, snd (unsharp_forward fuel junk u x ax) = Ok y /\ sharpened a t x b y.
Proof. exact unsharp_ok. Qed.
Print Assumptions C48_formula.
(** Separable blurs with a padder keep the shape; amount 0 is the identity; constants are fixed. *)
Theorem C48_separable_partial : forall (F : ofield) fuel junk (blur : pool F) a t pd pd0 (u : unsharp F) x ax al kers sts0 p ms,
  built (length al) kers sts0 pd0 blur -> match pd with None => pd0 | Some _ => pd end = Some p ->
  unsharp_init blur BSep a t pd = Ok u -> check_axes (Z.of_nat (ndim x)) ax = Ok (map Z.of_nat al) ->
  same_call F fuel p x (AxSeq (map Z.of_nat al)) al ms kers (repeat 1 (length al)) -> ~ In MPeriodize ms ->
  exists ws xp b y, length ws = length al /\
    (forall r, (r < length al)%nat -> is_same_width (klen (nth r kers [])) 1 (nth (nth r al 0%nat) (shp x) 0) (nth r ws (0, 0))) /\
    padder_forward fuel junk (with_width p ws) x (AxSeq (map Z.of_nat al)) = Ok xp /\
    shp b = shp x /\ (forall j, valid (shp x) j -> at_ b j = correlation al kers (repeat 1 (length al)) xp j) /\
    snd (unsharp_forward fuel junk u x ax) = Ok y /\ sharpened a t x b y /\
    (a = f0 -> teq y x) /\
    (every_axis (length al) p const_mode -> (forall k, In k kers -> k = [] \/ wsum k = f1) -> forall c, constant_image c x -> teq y x).
Proof. exact unsharp_separable. Qed.
Print Assumptions C48_separable_partial.
Definition kerA : list QcF := [qq 1 4; qq 1 2; qq 1 4].
Definition blurA pd : pool QcF := mkPool (NItem kerA) (NItem 3) (NItem 3) pd 0.
Example C48_example :
  built 2 [kerA; kerA] [3; 3] None (blurA None) /\
  unsharp_init (blurA None) BSep (qz 2) (qq 3 2) (Some repl) = Ok (mkUnsharp (mkPool (NItem kerA) (NItem 3) (NItem 1) (Some repl) 0) BSep (qz 2) (qq 3 2)) /\
  same_call QcF 16 repl x34 (AxSeq [0; 1]) [0; 1]%nat [MReplicate; MReplicate] [kerA; kerA] [1; 1] /\
  every_axis 2 repl const_mode /\ wsum kerA = f1 /\
  show (snd (sep_forward 16 garbage (mkPool (NItem kerA) (NItem 3) (NItem 1) (Some repl) 0) x34 AxNone)) =
    Some ([3; 4], [29 # 16; 49 # 16; 87 # 16; 123 # 16; 123 # 16; 183 # 16; 265 # 16; 309 # 16; 71 # 4; 103 # 4; 36; 81 # 2]%Q) /\
  show (snd (unsharp_forward 16 garbage (mkUnsharp (mkPool (NItem kerA) (NItem 3) (NItem 1) (Some repl) 0) BSep (qz 2) (qq 3 2)) x34 AxNone)) =
    Some ([3; 4], [1; 2; 4; 8; -51 # 8; -63 # 8; -49 # 8; -69 # 8; 49 # 2; 77 # 2; 78; 72]%Q).
Proof.
  split; [apply (built_init 2 [kerA; kerA] (NItem kerA) (NItem (Some 3)) [Some 3; Some 3]); reflexivity|]. split; [reflexivity|].
  split; [apply (edge_image_call QcF 16 repl MReplicate x34 AxNone [0; 1]%nat 3 (AxSeq [0; 1]) [0; 1]%nat [kerA; kerA]);
     [apply image34; lia|unfold ndim; cbn; lia|reflexivity|intros b Hb; exact Hb|repeat constructor; cbn; intuition lia|lia|intros k [<-|[<-|[]]]; unfold klen; cbn; lia]|].
  split; [exists [MReplicate; MReplicate], [(qz 7, qz 8); (qz 7, qz 8)], [(qz 0, qz 10); (qz 0, qz 10)]; do 3 (split; [reflexivity|]); intros [|[|r]] Hr; cbn; auto; lia|].
  split; [apply Qc_is_canon; vm_compute; reflexivity|]. split; vm_compute; reflexivity.
Qed.
(** Without any padder the blurred image is smaller: an error, or, when blurring leaves a single row
    and column, a silent broadcast with the blurred value used everywhere. *)
Theorem C48_no_padder_refuted : exists (u : unsharp QcF) x x1,
  unsharp_init (blurA None) BSep (qz 2) (qz 0) None = Ok u /\ shp x = [3; 5] /\ shp x1 = [3; 3] /\
  snd (unsharp_forward 16 garbage u x AxNone) = Err RuntimeError /\
  show (snd (unsharp_forward 16 garbage u x1 AxNone)) = Some ([3; 3], zq [-48; -48; -48; -48; -48; -48; 240; 240; 240]) /\
  (forall i, valid (shp x1) i -> nth 0 i 0 < 2 -> at_ x1 i = f0).
Proof.
  exists (mkUnsharp (mkPool (NItem kerA) (NItem 3) (NItem 1) None 0) BSep (qz 2) (qz 0)), (ofz [3; 5] (zrange 15)), (ofz [3; 3] [0; 0; 0; 0; 0; 0; 96; 96; 96]).
  split; [reflexivity|]. split; [reflexivity|]. split; [reflexivity|]. split; [vm_compute; reflexivity|]. split; [vm_compute; reflexivity|].
  intros i V H. destruct i as [|i [|j [|k l]]]; try (apply valid_length in V; discriminate). apply valid_cons in V. destruct V as [V1 V2].
  apply valid_cons in V2. destruct V2 as [V2 _]. cbn in H. assert (i = 0 \/ i = 1) by lia. assert (j = 0 \/ j = 1 \/ j = 2) by lia.
  intuition (subst; reflexivity).
Qed.
Print Assumptions C48_no_padder_refuted.

(** ** C74: results do not depend on earlier calls, although component changes the padder of both
    filters (and they may share it). *)
Theorem C74_edge_history : forall (F : ofield) (trunc : F -> Z) ker smooth normalize pd shared (e : edge_filter F) cs c,
  edge_init (NItem ker) smooth normalize pd shared = Ok e ->
  snd (do_edge trunc (edge_after trunc e cs) c) = snd (do_edge trunc e c).
Proof. exact edge_history. Qed.
Print Assumptions C74_edge_history.
Theorem C74_unsharp_history : forall (F : ofield) (u : unsharp F) cs fuel junk x ax,
  snd (unsharp_forward fuel junk (unsharp_after u cs) x ax) = snd (unsharp_forward fuel junk u x ax).
Proof. exact unsharp_history. Qed.
Print Assumptions C74_unsharp_history.
(** The state does change. *)
Example C74_example : exists e, sobel_init false (Some repl) true = Ok e /\
  option_map p_width (pl_padder (ef_smooth e)) = Some (NItem (0, 0)) /\
  option_map p_width (pl_padder (ef_smooth (edge_after qtrunc e [EComponent 16 garbage x34 (AxInt 0) AxNone]))) = Some (NList [(1, 1)]).
Proof.
  destruct (named_ok QcF false (Some repl) true) as [[e He] _]. exists e. split; auto.
  rewrite (get_ok filter0 _ _ He). clear He. split; vm_compute; reflexivity.
Qed.
