(** C41, C42, C47, C75: Gaussian kernels, Gaussian pooling, LaplacianOfGaussian.  Scalars are the reals.

    Vocabulary (GaussProofs.v, GaussDeriv.v, GaussEdge.v, GaussPool.v; PropsEdge.v, PropsPool.v):
    - [bell sigma x] = exp(-x^2 / (2 sigma^2)); [bell_sum ks sigma] = sum over 0 <= i < ks of
      bell sigma (i - ks/2); [taps ks] = 2*(ks/2)+1 (ks if odd, ks+1 if even);
    - [derivatives n g]: g (k+1) is the derivative of g k for k < n (derivable_pt_lim);
    - [derives_gaussian sigma s n g]: g 0 x = exp(-x^2/(2 sigma^2))/s and [derivatives n g];
    - [half_width sigma] = exp(-1/(2 sigma^2)); [rsum n f] = f 0 + ... + f (n-1);
    - [exact_path Rtrunc k]: the integer parts of k are not a special kernel of the fast path;
    - [gauss_spec n ks sigma order stride lk ls lo ss]: the arguments denote, for n >= 1 axes, the
      kernel sizes lk >= 1, the sigmas ls <> 0, the orders lo >= 0 and the strides ss (None or >= 1);
    - [gauss_call]: as same_call in PropsPool.v. *)
From Coq Require Import Reals Lra.
From Verif Require Import IndexLemmas GaussPool ExampleUtil.
Open Scope Z_scope.

(** ** C41 *)
Theorem C41_gaussian_kernel : forall ks sigma, 1 <= ks -> sigma <> 0%R ->
  exists k, gaussian_kernel_1d ks sigma 0 = Ok k /\ Z.of_nat (length k) = ks /\
    (forall v, In v k -> (0 < v)%R) /\ fold_right Rplus 0%R k = 1%R /\
    (forall i, 0 <= i < ks -> nth (Z.to_nat i) k 0%R = (bell sigma (IZR (i - ks / 2)) / bell_sum ks sigma)%R) /\
    (Z.odd ks = true -> forall i, 0 <= i < ks -> nth (Z.to_nat i) k 0%R = nth (Z.to_nat (ks - 1 - i)) k 0%R) /\
    (forall i j, 0 <= i < j -> j <= ks / 2 -> j < ks -> (nth (Z.to_nat i) k 0 < nth (Z.to_nat j) k 0)%R) /\
    (forall i j, ks / 2 <= i < j -> j < ks -> (nth (Z.to_nat j) k 0 < nth (Z.to_nat i) k 0)%R).
Proof. exact gauss_kernel. Qed.
Print Assumptions C41_gaussian_kernel.
(** sigma = 0 and negative orders are errors. *)
Theorem C41_errors : forall ks sigma order, order < 0 \/ sigma = 0%R ->
  exists e, gaussian_kernel_1d ks sigma order = Err e /\ (e = ValueError \/ e = ZeroDivisionError).
Proof. exact gauss_errors. Qed.
Print Assumptions C41_errors.
Example C41_example : 1 <= 2 /\ (1 / 2)%R <> 0%R /\
  gaussian_kernel_1d 2 (1 / 2) 0 = Ok [exp (-2) / (1 + exp (-2)); 1 / (1 + exp (-2))]%R.
Proof. exact kernel2_ex. Qed.

(** ** C42: entry i is the n-th derivative of the normalised Gaussian at ks/2 - i.  For even ks and
    n >= 1 the normalisation is over ks+1 points (the last entry is cut off without rescaling). *)
Theorem C42_derivative : forall ks sigma n, 1 <= ks -> sigma <> 0%R -> 1 <= n \/ n = 0 /\ Z.odd ks = true ->
  exists k, gaussian_kernel_1d ks sigma n = Ok k /\ Z.of_nat (length k) = ks /\
    forall g, derives_gaussian sigma (bell_sum (taps ks) sigma) (Z.to_nat n) g ->
      forall i, 0 <= i < ks -> nth (Z.to_nat i) k 0%R = g (Z.to_nat n) (IZR (ks / 2 - i)).
Proof. exact gauss_deriv. Qed.
Print Assumptions C42_derivative.
Theorem C42_parity : forall ks sigma n, 1 <= ks -> sigma <> 0%R -> 0 <= n -> Z.odd ks = true ->
  exists k, gaussian_kernel_1d ks sigma n = Ok k /\
    (forall i, 0 <= i < ks -> nth (Z.to_nat i) k 0%R = ((-1) ^ Z.to_nat n * nth (Z.to_nat (ks - 1 - i)) k 0)%R) /\
    (Z.odd n = true -> fold_right Rplus 0%R k = 0%R).
Proof. exact gauss_parity. Qed.
Print Assumptions C42_parity.
(** Such derivatives exist, and are unique. *)
Example C42_hypotheses : forall sigma s n, sigma <> 0%R -> exists g, derives_gaussian sigma s n g.
Proof. exact derives_exists. Qed.
Example C42_example : taps 3 = 3 /\ taps 4 = 5 /\
  gaussian_kernel_1d 3 1 1 = Ok [- (exp (- (1 / 2)) / (1 + 2 * exp (- (1 / 2)))); 0; exp (- (1 / 2)) / (1 + 2 * exp (- (1 / 2)))]%R /\
  gaussian_kernel_1d 3 1 2 = Ok [0; - 1 / (1 + 2 * exp (- (1 / 2))); 0]%R.
Proof. exact kernel3_ex. Qed.

(** ** C47: LaplacianOfGaussian(ks, sigma) is the sum over the axes a of the image correlated with
    gaussian_kernel_1d(ks, sigma, 2) along a and with gaussian_kernel_1d(ks, sigma, 0) along the other
    axes, provided the fast path of _conv_edge is not taken. *)
Theorem C47_log_partial : forall fuel junk ks sigma k0 k2 p m shared (e : edge_filter RF) (x : tensor RF) ax al,
  1 <= ks -> sigma <> 0%R -> gaussian_kernel_1d ks sigma 0 = Ok k0 -> gaussian_kernel_1d ks sigma 2 = Ok k2 ->
  exact_path (F := RF) Rtrunc k2 ->
  log_init (NItem ks) (NItem sigma) (Some p) shared = Ok e ->
  edge_image (F := RF) fuel p m x ax al ks -> m <> MPeriodize -> (2 <= length al)%nat ->
  exists (cs : nat -> tensor RF) y,
    snd (log_forward fuel junk e x ax) = Ok y /\ shp y = shp x /\
    (forall j, valid (shp x) j -> at_ y j = @axis_sum RF (fun a => at_ (cs a) j) al) /\
    forall a, In a al -> exists w xp c ws cp,
      is_same_width ks 1 (nth a (shp x) 0) w /\
      padder_forward (F := RF) fuel junk (with_width p [w]) x (AxInt (Z.of_nat a)) = Ok xp /\
      shp c = shp x /\
      (forall j, valid (shp x) j -> at_ c j = rsum ks (fun q => nth (Z.to_nat q) k2 0 * at_ xp (upd a (nth a j 0%Z + q)%Z j))%R) /\
      length ws = length (without a al) /\
      (forall r, (r < length (without a al))%nat -> is_same_width ks 1 (nth (nth r (without a al) 0%nat) (shp x) 0) (nth r ws (0, 0))) /\
      padder_forward (F := RF) fuel junk (with_width p ws) c (AxSeq (map Z.of_nat (without a al))) = Ok cp /\
      shp (cs a) = shp x /\
      forall j, valid (shp x) j ->
        at_ (cs a) j = correlation (F := RF) (without a al) (repeat k0 (length (without a al))) (repeat 1 (length (without a al))) cp j.
Proof. exact log_sums. Qed.
Print Assumptions C47_log_partial.
(** One component of GaussianGrad, any derivative order. *)
Theorem C47_component_partial : forall fuel junk ks sigma n k0 kn p m shared (e : edge_filter RF) (x : tensor RF) ax al a,
  1 <= ks -> sigma <> 0%R -> gaussian_kernel_1d ks sigma 0 = Ok k0 -> gaussian_kernel_1d ks sigma n = Ok kn -> klen kn = ks ->
  exact_path (F := RF) Rtrunc kn ->
  gg_init (NItem ks) (NItem sigma) None None true n (Some p) shared = Ok e ->
  edge_image (F := RF) fuel p m x ax al ks -> m <> MPeriodize -> In a al ->
  exists w xp c ws cp y,
    is_same_width ks 1 (nth a (shp x) 0) w /\
    padder_forward (F := RF) fuel junk (with_width p [w]) x (AxInt (Z.of_nat a)) = Ok xp /\
    shp c = shp x /\
    (forall j, valid (shp x) j -> at_ c j = rsum ks (fun q => nth (Z.to_nat q) kn 0 * at_ xp (upd a (nth a j 0%Z + q)%Z j))%R) /\
    length ws = length (without a al) /\
    (forall r, (r < length (without a al))%nat -> is_same_width ks 1 (nth (nth r (without a al) 0%nat) (shp x) 0) (nth r ws (0, 0))) /\
    padder_forward (F := RF) fuel junk (with_width p ws) c (AxSeq (map Z.of_nat (without a al))) = Ok cp /\
    snd (component (F := RF) Rtrunc fuel junk e x (AxInt (Z.of_nat a)) (AxSeq (map Z.of_nat al))) = Ok y /\ shp y = shp x /\
    forall j, valid (shp x) j ->
      at_ y j = correlation (F := RF) (without a al) (repeat k0 (length (without a al))) (repeat 1 (length (without a al))) cp j.
Proof. exact gg_component. Qed.
Print Assumptions C47_component_partial.
(** The filters can always be built, and these kernels are safe: order 1, and every size but 3. *)
Theorem C47_builds : forall ks sigma n, 1 <= ks -> sigma <> 0%R -> 0 <= n ->
  exists k0 kn, gaussian_kernel_1d ks sigma 0 = Ok k0 /\ gaussian_kernel_1d ks sigma n = Ok kn /\
    klen k0 = ks /\ klen kn = ks /\ np_sum k0 = 1%R /\
    forall pd shared, exists e, gg_init (NItem ks) (NItem sigma) None None true n pd shared = Ok e.
Proof. exact gg_ok. Qed.
Print Assumptions C47_builds.
Theorem C47_order1_safe : forall ks sigma k, 1 <= ks -> sigma <> 0%R -> gaussian_kernel_1d ks sigma 1 = Ok k -> exact_path Rtrunc k.
Proof. exact order1_exact. Qed.
Print Assumptions C47_order1_safe.
Theorem C47_sizes_safe : forall ks sigma n k, 1 <= ks -> ks <> 3 -> sigma <> 0%R -> 1 <= n ->
  gaussian_kernel_1d ks sigma n = Ok k -> exact_path Rtrunc k.
Proof. exact other_sizes_exact. Qed.
Print Assumptions C47_sizes_safe.
(** Size 3, order 2: exactly when the fast path is taken. *)
Theorem C47_size3 : forall sigma k, sigma <> 0%R -> gaussian_kernel_1d 3 sigma 2 = Ok k ->
  (map Rtrunc k = [1; -2; 1] <-> (1 <= nth 0 k 0 < 2 /\ -3 < nth 1 k 0 <= -2)%R) /\ map Rtrunc k <> [-1; 0; 1].
Proof. exact order2_fast. Qed.
Print Assumptions C47_size3.
Definition replR : padder RF := mkPadder (NItem (0, 0)) (NItem MReplicate) (NItem (0, 0)%R) (NItem (0, 0)%R) (NItem (None, None)) 0.
Definition ramp34 : tensor RF := mkT [3; 4] (fun i => IZR (nth 0 i 0 + 2 * nth 1 i 0)).
Lemma replR_image fuel k : k + 4 <= Z.of_nat fuel -> edge_image (F := RF) fuel replR MReplicate ramp34 AxNone [0%nat; 1%nat] k.
Proof.
  intros H. assert (P : forall d, (d < 2)%nat -> 3 <= nth d [3; 4] 0 <= 4) by (intros [|[|d]] Hd; cbn; lia). split.
  - split; [reflexivity | apply all_lt; reflexivity | repeat constructor; cbn; intuition lia].
  - intros d Hd. specialize (P d Hd). cbn [shp ramp34]. lia.
  - intros a [<-|[<-|[]]]; cbn; lia.
  - split; [reflexivity|]. split; [eexists; reflexivity|]. split; eexists; reflexivity.
  - exact I.
  - intros d Hd. specialize (P d Hd). cbn [shp ramp34]. lia.
Qed.
Example C47_example : exists k0 k2 e,
  gaussian_kernel_1d 5 2 0 = Ok k0 /\ gaussian_kernel_1d 5 2 2 = Ok k2 /\ exact_path (F := RF) Rtrunc k2 /\
  log_init (NItem 5) (NItem 2%R) (Some replR) true = Ok e /\
  edge_image (F := RF) 9 replR MReplicate ramp34 AxNone [0%nat; 1%nat] 5 /\ klen k2 = 5.
Proof.
  destruct (C47_builds 5 2 2 ltac:(lia) ltac:(lra) ltac:(lia)) as [k0 [k2 [A [B [C [D [_ E]]]]]]]. destruct (E (Some replR) true) as [e He].
  exists k0, k2, e. split; auto. split; auto. split; [apply (C47_sizes_safe 5 2 2 k2); auto; try lia; lra|]. split; auto. split; auto. apply replR_image. lia.
Qed.
(** But LaplacianOfGaussian(3, 0.55) replaces its second derivative by (1, -2, 1). *)
Theorem C47_log_refuted : forall fuel junk, exists k0 k2 (e : edge_filter RF) y,
  gaussian_kernel_1d 3 (11 / 20) 0 = Ok k0 /\ gaussian_kernel_1d 3 (11 / 20) 2 = Ok k2 /\
  log_init (NItem 3) (NItem (11 / 20)%R) None true = Ok e /\
  snd (log_forward fuel junk e spot AxNone) = Ok y /\ shp y = [1; 1] /\
  at_ y [0; 0] <> true_log k0 k2 spot.
Proof. exact log_wrong. Qed.
Print Assumptions C47_log_refuted.

(** ** C75: GaussianPoolNd uses the kernels of C41/C42, one per axis. *)
Theorem C75_kernels : forall n ks sigma order stride lk lsig lo ss pd,
  gauss_spec n ks sigma order stride lk lsig lo ss ->
  exists m (kers : list (list R)), gauss_init ks sigma order stride pd = Ok m /\ length kers = n /\
    built (F := RF) n kers (map2 (real_stride (F := RF)) kers ss) pd m /\
    forall r, (r < n)%nat -> gaussian_kernel_1d (nth r lk 0) (nth r lsig 0%R) (nth r lo 0) = Ok (nth r kers []).
Proof. exact gauss_pool. Qed.
Print Assumptions C75_kernels.
(** Blurring (order 0) keeps constant images constant and every image within its range. *)
Theorem C75_constant_valid : forall fuel junk ks sigma order stride lk lsig lo ss (x : tensor RF) ax al,
  gauss_spec (length al) ks sigma order stride lk lsig lo ss -> (forall o, In o lo -> o = 0) ->
  forall c, on_axes x ax al ->
  (forall r, (r < length al)%nat -> nth r lk 0 <= nth (nth r al 0%nat) (shp x) 0) -> constant_image (F := RF) c x ->
  exists m x', gauss_init ks sigma order stride None = Ok m /\ snd (sep_forward (F := RF) fuel junk m x ax) = Ok x' /\ constant_image (F := RF) c x'.
Proof. exact gauss_constant_valid. Qed.
Print Assumptions C75_constant_valid.
Theorem C75_range_valid : forall fuel junk ks sigma order stride lk lsig lo ss (x : tensor RF) ax al,
  gauss_spec (length al) ks sigma order stride lk lsig lo ss -> (forall o, In o lo -> o = 0) ->
  forall a b, on_axes x ax al ->
  (forall r, (r < length al)%nat -> nth r lk 0 <= nth (nth r al 0%nat) (shp x) 0) -> in_range (F := RF) a b x ->
  exists m x', gauss_init ks sigma order stride None = Ok m /\ snd (sep_forward (F := RF) fuel junk m x ax) = Ok x' /\ in_range (F := RF) a b x'.
Proof. exact gauss_range_valid. Qed.
Print Assumptions C75_range_valid.
Theorem C75_constant_same : forall fuel junk ks sigma order stride lk lsig lo ss (x : tensor RF) ax al,
  gauss_spec (length al) ks sigma order stride lk lsig lo ss -> (forall o, In o lo -> o = 0) ->
  forall p ms c, gauss_call fuel p x ax al ms lk -> every_axis (F := RF) (length al) p const_mode -> constant_image (F := RF) c x ->
  exists m x', gauss_init ks sigma order stride (Some p) = Ok m /\ snd (sep_forward (F := RF) fuel junk m x ax) = Ok x' /\ constant_image (F := RF) c x'.
Proof. exact gauss_constant_same. Qed.
Print Assumptions C75_constant_same.
Theorem C75_range_same : forall fuel junk ks sigma order stride lk lsig lo ss (x : tensor RF) ax al,
  gauss_spec (length al) ks sigma order stride lk lsig lo ss -> (forall o, In o lo -> o = 0) ->
  forall p ms a b, gauss_call fuel p x ax al ms lk -> every_axis (F := RF) (length al) p (range_mode (F := RF) a b) -> in_range (F := RF) a b x ->
  exists m x', gauss_init ks sigma order stride (Some p) = Ok m /\ snd (sep_forward (F := RF) fuel junk m x ax) = Ok x' /\ in_range (F := RF) a b x'.
Proof. exact gauss_range_same. Qed.
Print Assumptions C75_range_same.
Example C75_example :
  gauss_spec 2 (NItem 3) (NList [1; 2]%R) (NItem 0) (NItem (Some 1)) [3; 3] [1; 2]%R [0; 0] [Some 1; Some 1] /\
  (forall r, (r < 2)%nat -> nth r [3; 3] 0 <= nth (nth r [0; 1]%nat 0%nat) (shp ramp34) 0) /\
  gauss_call 9 replR ramp34 AxNone [0; 1]%nat [MReplicate; MReplicate] [3; 3] /\
  every_axis (F := RF) 2 replR const_mode /\ every_axis (F := RF) 2 replR (range_mode (F := RF) 0%R 8%R) /\
  in_range (F := RF) 0%R 8%R ramp34 /\ constant_image (F := RF) 5%R (mkT [3; 4] (fun _ => 5%R)).
Proof.
  split.
  { split; auto; try reflexivity.
    - intros k [<-|[<-|[]]]; lia.
    - intros s [<-|[<-|[]]]; lra.
    - intros o [<-|[<-|[]]]; lia.
    - intros s [E|[E|[]]]; injection E as <-; lia. }
  split. { intros [|[|r]] Hr; cbn; lia. }
  destruct (replR_image 9 5 ltac:(lia)) as [A1 A2 A3 A4 A5 A6].
  split. { split; auto; [unfold ndim; cbn; lia| | |].
    - exact (uniform_for RF 2 replR MReplicate A4).
    - intros m [<-|[<-|[]]]; exact I.
    - intros d k Hd [->|[<-|[<-|[]]]]; specialize (A6 d Hd); lia. }
  split. { do 3 eexists. split; [reflexivity|]. split; [reflexivity|]. split; [reflexivity|]. intros [|[|r]] Hr; [exact I|exact I|lia]. }
  split. { do 3 eexists. split; [reflexivity|]. split; [reflexivity|]. split; [reflexivity|]. intros [|[|r]] Hr; [exact I|exact I|lia]. }
  split; [|intros i _; reflexivity]. intros v V. apply valid2 in V as [i [j [-> [Hi Hj]]]]. cbn [at_ ramp34 nth]. rewrite !RF_le.
  assert (0 <= i + 2 * j <= 8) by lia. split; apply IZR_le; lia.
Qed.
