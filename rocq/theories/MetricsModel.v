(** Model of torchimage/metrics/base.py, metrics/mse.py and metrics/ssim.py (PSNR: PsnrModel.v). *)
From Verif Require Export PoolModel ReduceModel MiscModel.
Open Scope Z_scope.

(** The reduction argument; any other string is [ROther]. *)
Inductive reduction := RMean | RSum | RNone | ROther.

Section Metrics.
Context {F : ofield}.
Notation T := (tensor F).

(** metrics/base.py:38-46 [BaseMetric._reduce] *)
Definition metric_reduce (r : reduction) (x : T) (axes : list Z) : res T :=
  match r with
  | RMean => tmean x axes false
  | RSum => tsum x axes false
  | RNone => Ok x
  | ROther => Err ValueError
  end.
Definition seqb (s t : list Z) : bool := if list_eq_dec Z.eq_dec s t then true else false.
(** metrics/base.py:48-56 [BaseMetric.forward] *)
Definition metric_forward (forward_full : T -> T -> res T) (r : reduction) (y_pred y_true : T) (reduce_axes : axes_arg) : res T :=
  _ <- assertb (seqb (shp y_pred) (shp y_true)) ;;
  axes <- check_axes (Z.of_nat (ndim y_pred)) reduce_axes ;;
  x <- forward_full y_pred y_true ;;
  metric_reduce r x axes.
(** metrics/mse.py:7-8 [MSE.forward_full] *)
Definition mse_full (y_pred y_true : T) : res T :=
  d <- tmap2 fsub y_pred y_true ;; Ok (tmap (fun v => fmul v v) d).
Definition mse_forward : reduction -> T -> T -> axes_arg -> res T := metric_forward mse_full.

(** ** metrics/ssim.py *)

(** Attributes of an SSIM module. *)
Record ssim := mkSsim { ss_blur : pool F; ss_K1 : F; ss_K2 : F; ss_sample : bool; ss_crop : bool }.
(** ssim.py:61-73 [SSIM.__init__] with a pooling object for blur (the strings "gaussian" and "mean"
    stand for particular ones). *)
Definition ssim_init (blur : pool F) (padder : option (padder F)) (K1 K2 : F) (use_sample_covariance crop_border : bool) : res ssim :=
  b <- to_filter blur padder ;; Ok (mkSsim b K1 K2 use_sample_covariance crop_border).
Definition set_blur (s : ssim) (b : pool F) : ssim := mkSsim b (ss_K1 s) (ss_K2 s) (ss_sample s) (ss_crop s).

(** Computations on the state of the module (the blur's padder keeps its last pad_width). *)
Definition st (A : Type) := ssim -> ssim * res A.
Definition ret {A} (r : res A) : st A := fun s => (s, r).
Definition sbind {A B} (c : st A) (k : A -> st B) : st B :=
  fun s => let '(s', r) := c s in match r with Ok a => k a s' | Err e => (s', Err e) end.
Notation "x <== e ;; k" := (sbind e (fun x => k)) (at level 61, e at next level, right associativity).

(** Elementwise division; torch gives inf or nan for a zero divisor, here a ZeroDivisionError. *)
Definition tdiv (a b : T) : res T :=
  y <- tmap2 fdiv a b ;;
  if tany (tmap is_zero b) then Err ZeroDivisionError else Ok y.

(** The forward function of the blur's class: [sep_forward fuel junk] or [avg_forward fuel junk _]. *)
Variable fwd : pool F -> T -> axes_arg -> pool F * res T.

(** [self.blur.forward(x, axes=axes)] *)
Definition blur_forward (x : T) (axes : list Z) : st T :=
  fun s => let '(b, r) := fwd (ss_blur s) x (AxSeq axes) in (set_blur s b, r).

(** ssim.py:75-97 [_scale_factor]; for a window of one pixel numpy gives inf, here a
    ZeroDivisionError. *)
Definition scale_factor (s : ssim) (axes : list Z) : res F :=
  if ss_sample s then
    ks <- mapM (nds_get (pl_size (ss_blur s))) (zrange (Z.of_nat (length axes))) ;;
    let n := zprod ks in
    if n - 1 =? 0 then Err ZeroDivisionError else Ok (fdiv (fofZ n) (fofZ (n - 1)))
  else Ok f1.

Record stats := mkStats { mu1_sq : T; mu2_sq : T; mu1_mu2 : T; sigma1_sq : T; sigma2_sq : T; sigma12 : T }.
(** ssim.py:99-117 [_mu_sigma] *)
Definition mu_sigma (y1 y2 : T) (axes : list Z) : st stats :=
  mu1 <== blur_forward y1 axes ;;
  mu2 <== blur_forward y2 axes ;;
  let sq := tmap (fun v => fmul v v) in
  m12 <== ret (tmap2 fmul mu1 mu2) ;;
  y11 <== ret (tmap2 fmul y1 y1) ;;
  b11 <== blur_forward y11 axes ;;
  s1 <== ret (tmap2 fsub b11 (sq mu1)) ;;
  y22 <== ret (tmap2 fmul y2 y2) ;;
  b22 <== blur_forward y22 axes ;;
  s2 <== ret (tmap2 fsub b22 (sq mu2)) ;;
  y12 <== ret (tmap2 fmul y1 y2) ;;
  b12 <== blur_forward y12 axes ;;
  s12 <== ret (tmap2 fsub b12 m12) ;;
  f <== (fun s => ret (scale_factor s axes) s) ;;
  let scaled t := if is_zero (fsub f f1) then t else tmap (fun v => fmul v f) t in
  ret (Ok (mkStats (sq mu1) (sq mu2) m12 (scaled s1) (scaled s2) (scaled s12))).

Definition two : F := fadd f1 f1.
(** ssim.py:119-124 [_ssim_full] *)
Definition ssim_full (y1 y2 : T) (axes : list Z) : st T :=
  q <== mu_sigma y1 y2 axes ;;
  fun s => ret (
    let C1 := fmul (ss_K1 s) (ss_K1 s) in
    let C2 := fmul (ss_K2 s) (ss_K2 s) in
    n <- tmap2 fmul (tmap (fun v => fadd (fmul two v) C1) (mu1_mu2 q)) (tmap (fun v => fadd (fmul two v) C2) (sigma12 q)) ;;
    l <- tmap2 fadd (mu1_sq q) (mu2_sq q) ;;
    c <- tmap2 fadd (sigma1_sq q) (sigma2_sq q) ;;
    d <- tmap2 fmul (tmap (fun v => fadd v C1) l) (tmap (fun v => fadd v C2) c) ;;
    tdiv n d) s.

(** ssim.py:132-134, the loop over the content axes. *)
Fixpoint crop_idx (w : nds (Z * Z)) (sh : list Z) (i : Z) (axes : list Z) (idx : list slice) : res (list slice) :=
  match axes with
  | [] => Ok idx
  | a :: axes' =>
    p <- nds_get w i ;;
    n <- pyidx sh a ;;
    a <- axis_nat (length idx) a ;;
    crop_idx w sh (i + 1) axes' (upd a (srng (fst p) (n - snd p)) idx)
  end.
(** ssim.py:126-135 [_crop_border] *)
Definition crop_border (full : T) (axes : list Z) : st T := fun s => ret (
  match ss_crop s, pl_padder (ss_blur s) with
  | true, Some p =>
    idx <- crop_idx (p_width p) (shp full) 0 axes (repeat sfull (ndim full)) ;;
    tget full idx
  | _, _ => Ok full
  end) s.

(** ssim.py:140-186 [SSIM.forward] (with [_reduce], 137-138): score and full map. *)
Definition ssim_forward (y_pred y_true : T) (content_axes reduce_axes : axes_arg) : st (T * T) :=
  _ <== ret (assertb (seqb (shp y_pred) (shp y_true))) ;;
  ca <== ret (check_axes (Z.of_nat (ndim y_pred)) content_axes) ;;
  ra <== ret (check_axes (Z.of_nat (ndim y_pred)) reduce_axes) ;;
  full <== ssim_full y_pred y_true ca ;;
  c <== crop_border full ca ;;
  score <== ret (tmean c ra false) ;;
  ret (Ok (score, full)).

(** *** MS_SSIM *)

(** The further attributes: weights, use_prod, eps. *)
Record msssim := mkMs { ms_weights : list F; ms_prod : bool; ms_eps : F }.
(** torch.pow on two numbers. *)
Variable pow : F -> F -> F.
(** ssim.py:240-243 [_downsample]; [dfwd] is AvgPoolNd.forward. *)
Variable dfwd : pool F -> T -> axes_arg -> pool F * res T.
Definition downsample (x : T) (axes : list Z) : res T :=
  l <- avg_init (NItem 2) (NItem (Some 2)) None ;;
  snd (dfwd l x (AxSeq axes)).

(** ssim.py:249-254 [_cs_full] *)
Definition cs_full (y1 y2 : T) (axes : list Z) : st T :=
  q <== mu_sigma y1 y2 axes ;;
  fun s => ret (
    let C2 := fmul (ss_K2 s) (ss_K2 s) in
    c <- tmap2 fadd (sigma1_sq q) (sigma2_sq q) ;;
    tdiv (tmap (fun v => fadd (fmul two v) C2) (sigma12 q)) (tmap (fun v => fadd v C2) c)) s.

(** ssim.py:256-260 [_check_shape_large_enough]: n / 2^(L-1) > k, exactly; for L = 0 the
    divisor is 1/2. *)
Fixpoint check_large (levels : Z) (size : nds Z) (sh : list Z) (i : Z) (axes : list Z) : res unit :=
  match axes with
  | [] => Ok tt
  | a :: axes' =>
    n <- pyidx sh a ;;
    k <- nds_get size i ;;
    _ <- assertb (if levels =? 0 then k <? n * 2 else k * 2 ^ (levels - 1) <? n) ;;
    check_large levels size sh (i + 1) axes'
  end.

(** [t.clamp(eps)] *)
Definition clamp_min (eps : F) (t : T) : T := tmap (fun v => if fleb eps v then v else eps) t.
(** ssim.py:286-295 and 304-308: a level's contribution, and adding it to the score so far. *)
Definition level_score (m : msssim) (w : F) (score : T) : T :=
  if ms_prod m then tmap (fun v => pow v w) (clamp_min (ms_eps m) score) else tmap (fun v => fmul v w) score.
Definition add_score (m : msssim) (final : option T) (t : T) : res T :=
  match final with
  | None => Ok t
  | Some f => tmap2 (if ms_prod m then fmul else fadd) f t
  end.
(** ssim.py:281-298: [for i in range(self.n_levels - 1)], over the weights but the last. *)
Fixpoint ms_loop (m : msssim) (ws : list F) (y1 y2 : T) (axes : list Z) (final : option T) : st (T * T * option T) :=
  match ws with
  | [] => ret (Ok (y1, y2, final))
  | w :: ws' =>
    cs <== cs_full y1 y2 axes ;;
    cs <== crop_border cs axes ;;
    score <== ret (tmean cs axes true) ;;
    final <== ret (add_score m final (level_score m w score)) ;;
    y1 <== ret (downsample y1 axes) ;;
    y2 <== ret (downsample y2 axes) ;;
    ms_loop m ws' y1 y2 axes (Some final)
  end.
(** ssim.py:262-314 [MS_SSIM.forward].  With a single weight final_score is still None when it is
    multiplied (or added to): TypeError. *)
Definition ms_forward (m : msssim) (y_pred y_true : T) (content_axes reduce_axes : axes_arg) : st T :=
  _ <== ret (assertb (seqb (shp y_pred) (shp y_true))) ;;
  ca <== ret (check_axes (Z.of_nat (ndim y_pred)) content_axes) ;;
  ra <== ret (check_axes (Z.of_nat (ndim y_pred)) reduce_axes) ;;
  _ <== (fun s => ret (check_large (Z.of_nat (length (ms_weights m))) (pl_size (ss_blur s)) (shp y_pred) 0 ca) s) ;;
  r <== ms_loop m (removelast (ms_weights m)) y_pred y_true ca None ;;
  let '(y1, y2, final) := r in
  full <== ssim_full y1 y2 ca ;;
  full <== crop_border full ca ;;
  score <== ret (tmean full ca true) ;;
  w <== ret (pyidx (ms_weights m) (-1)) ;;
  final <== ret (match final with None => Err TypeError | Some f => add_score m (Some f) (level_score m w score) end) ;;
  ret (tmean final ra false).
End Metrics.
Arguments ssim F : clear implicits.
Arguments msssim F : clear implicits.
