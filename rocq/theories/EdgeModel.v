(** Model of torchimage/pooling/operator.py, filtering/edges.py (except GaussianGrad and
    LaplacianOfGaussian, see GaussModel.v) and filtering/sharpen.py. *)
From Verif Require Export PoolModel.

Section Edge.
Context {F : ofield}.
Notation T := (tensor F).

(** * pooling/operator.py *)

(** torch's output length of a convolution without padding. *)
Definition conv_len (n k s d : Z) : Z := (n - d * (k - 1) - 1) / s + 1.
(** When torch accepts a kernel of k taps on n samples. *)
Definition conv_fits (n k s d : Z) : bool :=
  (1 <=? s) && (1 <=? d) && (1 <=? k) && (d * (k - 1) + 1 <=? n).

(** [F.conv1d(x, w, bias=None, stride=s, padding=0, dilation=d, groups=1)] for one input and one
    output channel: x (N, 1, n), w (1, 1, k). *)
Definition conv1d_one (x w : T) (s d : Z) : res T :=
  match shp x, shp w with
  | [b; 1; n], [1; 1; k] =>
    if conv_fits n k s d then
      Ok (mkT [b; 1; conv_len n k s d]
            (fun i => fsum k (fun q => fmul (at_ w [0; 0; q]) (at_ x [nth 0 i 0; 0; nth 2 i 0 * s + q * d]))))
    else Err RuntimeError
  | _, _ => Err RuntimeError
  end.
(** [F.conv2d(x, w, bias=None, stride=(s, 1), padding=0, dilation=(d, 1), groups=1)] for
    x (N, 1, n, m), w (1, 1, k, 1). *)
Definition conv2d_one (x w : T) (s d : Z) : res T :=
  match shp x, shp w with
  | [b; 1; n; m], [1; 1; k; 1] =>
    if conv_fits n k s d && (1 <=? m) then
      Ok (mkT [b; 1; conv_len n k s d; m]
            (fun i => fsum k (fun q =>
               fmul (at_ w [0; 0; q; 0]) (at_ x [nth 0 i 0; 0; nth 2 i 0 * s + q * d; nth 3 i 0]))))
    else Err RuntimeError
  | _, _ => Err RuntimeError
  end.

(** operator.py:6-44 [any_conv_1d]. *)
Definition any_conv_1d (x w : T) (dim stride dilation : Z) : res T :=
  let nd := Z.of_nat (ndim x) in
  y <- (if (dim =? -1) || (dim =? nd - 1) then
          n <- pyidx (shp x) (-1) ;;
          x' <- treshape x [-1; 1; n] ;;
          w' <- treshape w [1; 1; -1] ;;
          conv1d_one x' w' stride dilation
        else
          n <- pyidx (shp x) dim ;;
          x' <- treshape x [zprod (firstn (Z.to_nat (clampi nd dim)) (shp x)); 1; n; -1] ;;
          w' <- treshape w [1; 1; -1; 1] ;;
          conv2d_one x' w' stride dilation) ;;
  a <- axis_nat (ndim x) dim ;;
  treshape y (upd a (-1) (shp x)).

(** * filtering/edges.py *)

(** [int(k)]: the integer part of a scalar (rounding towards zero). *)
Variable trunc : F -> Z.

(** State of an EdgeFilter.  [ef_shared]: both filters hold the same Padder object (a Padder was
    passed); otherwise each has its own (a mode name was passed: base.py:67-68). *)
Record edge_filter := mkEdge {
  ef_kernel : list F;
  ef_edge : pool F;
  ef_smooth : pool F;
  ef_shared : bool
}.

(** edges.py:43-46 [_reweight].  numpy divides by a zero sum silently (inf / nan); the model,
    without such values, raises. *)
Definition reweight (kernel : list F) : res (list F) :=
  let s := lsum kernel in
  match kernel with
  | [] => Ok []
  | _ => if fleb s f0 && fleb f0 s then Err ZeroDivisionError
         else Ok (map (fun k => fdiv k s) kernel)
  end.

(** edges.py:33-55 [EdgeFilter.__init__], after NdSpec parsing of the kernels. *)
Definition edge_init (edge_kernel smooth_kernel : nds (list F)) (normalize : bool)
    (same_padder : option (padder F)) (shared : bool) : res edge_filter :=
  match edge_kernel with
  | NList _ => Err ValueError
  | NItem ker =>
    smooth_kernel <- (if normalize then nds_map reweight smooth_kernel else Ok smooth_kernel) ;;
    e0 <- sep_init (NItem ker) (NItem None) None ;;
    e <- to_filter e0 same_padder ;;
    s0 <- sep_init smooth_kernel (NItem None) None ;;
    s <- to_filter s0 same_padder ;;
    Ok (mkEdge ker e s shared)
  end.

(** New state after a call of one of the two filters; a shared Padder object is seen by both. *)
Definition share (from into : pool F) (shared : bool) : pool F :=
  match shared, pl_padder from with true, Some p => set_padder into p | _, _ => into end.
Definition set_edge (e : edge_filter) (m : pool F) : edge_filter :=
  mkEdge (ef_kernel e) m (share m (ef_smooth e) (ef_shared e)) (ef_shared e).
Definition set_smooth (e : edge_filter) (m : pool F) : edge_filter :=
  mkEdge (ef_kernel e) (share m (ef_edge e) (ef_shared e)) m (ef_shared e).

(** [x[make_idx(lo, hi, dim=a, ndim=x.ndim)]] for any integer a (utils.py:31-33). *)
Definition slice_axis (x : T) (s : slice) (a : Z) : res T :=
  d <- axis_nat (ndim x) a ;;
  tget x (make_idx s d (ndim x)).

Definition zlist_eqb (l m : list Z) : bool := all2 Z.eqb l m.

(** edges.py:57-69 [_conv_edge] *)
Definition conv_edge (fuel : nat) (junk : list Z -> F) (e : edge_filter) (x : T) (edge_axis : Z)
  : edge_filter * res T :=
  let discrete_kernel := map trunc (ef_kernel e) in
  if zlist_eqb discrete_kernel [-1; 0; 1] then
    let '(m, r) := pool_pad fuel junk (ef_edge e) x (AxInt edge_axis) in
    (set_edge e m,
     x <- r ;;
     hi <- slice_axis x (mkS (Some 2) None 1) edge_axis ;;
     lo <- slice_axis x (mkS (Some 0) (Some (-2)) 1) edge_axis ;;
     tmap2 fsub hi lo)
  else if zlist_eqb discrete_kernel [1; -2; 1] then
    let '(m, r) := pool_pad fuel junk (ef_edge e) x (AxInt edge_axis) in
    (set_edge e m,
     x <- r ;;
     hi <- slice_axis x (mkS (Some 2) None 1) edge_axis ;;
     lo <- slice_axis x (mkS (Some 0) (Some (-2)) 1) edge_axis ;;
     s <- tmap2 fadd hi lo ;;
     mid <- slice_axis x (mkS (Some 1) (Some (-1)) 1) edge_axis ;;
     tmap2 fsub s (tmap (fmul (fofZ 2)) mid))
  else
    let '(m, r) := sep_forward fuel junk (ef_edge e) x (AxInt edge_axis) in
    (set_edge e m, r).

(** edges.py:74-87 [component] (with [_conv_smooth], 71-72). *)
Definition component (fuel : nat) (junk : list Z -> F) (e : edge_filter) (x : T)
    (edge_axis smooth_axes : axes_arg) : edge_filter * res T :=
  match check_axes (Z.of_nat (ndim x)) edge_axis with
  | Err er => (e, Err er)
  | Ok [a] =>
    match check_axes (Z.of_nat (ndim x)) smooth_axes with
    | Err er => (e, Err er)
    | Ok sa =>
      let sa := filter (fun b => negb (b =? a)) sa in
      let '(e, r) := conv_edge fuel junk e x a in
      match r with
      | Err er => (e, Err er)
      | Ok c => let '(m, r) := sep_forward fuel junk (ef_smooth e) c (AxSeq sa) in (set_smooth e m, r)
      end
    end
  | Ok _ => (e, Err ValueError)
  end.

(** edges.py:96-99: the loop of [all_components]. *)
Fixpoint component_list (fuel : nat) (junk : list Z -> F) (e : edge_filter) (x : T)
    (axes todo : list Z) : edge_filter * res (list T) :=
  match todo with
  | [] => (e, Ok [])
  | a :: todo' =>
    let '(e, r) := component fuel junk e x (AxInt a) (AxSeq axes) in
    match r with
    | Err er => (e, Err er)
    | Ok c => let '(e, r) := component_list fuel junk e x axes todo' in
              (e, l <- r ;; Ok (c :: l))
    end
  end.
(** edges.py:89-100 [all_components] *)
Definition all_components (fuel : nat) (junk : list Z -> F) (e : edge_filter) (x : T)
    (axes : axes_arg) : edge_filter * res (list T) :=
  match check_axes (Z.of_nat (ndim x)) axes with
  | Err er => (e, Err er)
  | Ok axes => if Nat.ltb (length axes) 2 then (e, Err ValueError)
               else component_list fuel junk e x axes axes
  end.

(** edges.py:102-103, 105-106 *)
Definition horizontal (fuel : nat) (junk : list Z -> F) (e : edge_filter) (x : T) :=
  component fuel junk e x (AxInt (-2)) (AxInt (-1)).
Definition vertical (fuel : nat) (junk : list Z -> F) (e : edge_filter) (x : T) :=
  component fuel junk e x (AxInt (-1)) (AxInt (-2)).

(** [m += c] for tensors: c is broadcast to the shape of m. *)
Definition tiadd (m c : T) : res T :=
  if expandable (shp c) (shp m)
  then Ok (mkT (shp m) (fun i => fadd (at_ m i) (at_ c (bidx (shp c) i))))
  else Err RuntimeError.

(** The exponent p of [magnitude]: 1, or another number with the functions
    [c ** p] and [m ** (1 / p)]. *)
Inductive exponent := P1 | PGen (pow root : F -> F).
Definition powered (p : exponent) (c : T) : T := match p with P1 => c | PGen pow _ => tmap pow c end.

(** Does the component along the first of the axes hand back the input object itself?  [forward] of a pool leaves
    out the axes with an empty kernel and [pad] returns its input when no width is positive. *)
Definition untouched (e : edge_filter) (axes : list Z) : bool :=
  match ef_kernel e, axes with
  | [], a :: _ =>
    forallb (fun i => match nds_get (pl_kernel (ef_smooth e)) i with Ok [] => true | _ => false end)
      (zrange (Z.of_nat (length (filter (fun b => negb (b =? a)) axes))))
  | _, _ => false
  end.
(** With p = 1 the first component itself is the sum; [magnitude += c] then also changes the input if that is the
    same object, and the next components are those of the changed input. *)
Definition next_input (e : edge_filter) (axes : list Z) (p : exponent) (x m : T) : T :=
  match p with P1 => if untouched e axes then m else x | PGen _ _ => x end.
(** edges.py:118-128: the loop of [magnitude]. *)
Fixpoint mag_loop (fuel : nat) (junk : list Z -> F) (e : edge_filter) (x : T) (axes todo : list Z)
    (p : exponent) (acc : option T) : edge_filter * res (option T) :=
  match todo with
  | [] => (e, Ok acc)
  | a :: todo' =>
    let '(e, r) := component fuel junk e x (AxInt a) (AxSeq axes) in
    match (c <- r ;; match acc with
                     | None => Ok (powered p c)
                     | Some m => tiadd m (powered p c)
                     end) with
    | Err er => (e, Err er)
    | Ok m => mag_loop fuel junk e (next_input e axes p x m) axes todo' p (Some m)
    end
  end.
(** edges.py:108-136 [magnitude] *)
Definition magnitude (fuel : nat) (junk : list Z -> F) (e : edge_filter) (x : T) (axes : axes_arg)
    (epsilon : F) (p : exponent) : edge_filter * res T :=
  match check_axes (Z.of_nat (ndim x)) axes with
  | Err er => (e, Err er)
  | Ok axes =>
    if Nat.ltb (length axes) 2 then (e, Err ValueError)
    else
      let '(e, r) := mag_loop fuel junk e x axes axes p None in
      (e, m <- r ;;
          match m with
          | None => Err TypeError
          | Some m =>
            let m := if fleb epsilon f0 && fleb f0 epsilon then m else tmap (fun v => fadd v epsilon) m in
            Ok (match p with P1 => m | PGen _ root => tmap root m end)
          end)
  end.

(** edges.py:139-163: the named filters.  Farid's decimal literals are taken as exact decimals. *)
Definition ints (l : list Z) : list F := map fofZ l.
Definition decimal (n e : Z) : F := fdiv (fofZ n) (fofZ (10 ^ e)).
Definition central_kernel : list F := ints [-1; 0; 1].
Definition laplace_kernel : list F := ints [1; -2; 1].
Definition sobel_init := edge_init (NItem central_kernel) (NItem (ints [1; 2; 1])).
Definition prewitt_init := edge_init (NItem central_kernel) (NItem (ints [1; 1; 1])).
Definition scharr_init := edge_init (NItem central_kernel) (NItem (ints [3; 10; 3])).
Definition farid_smooth : list F :=
  [decimal 376593171958126 16; decimal 249153396177344 15; decimal 426374573253687 15;
   decimal 249153396177344 15; decimal 376593171958126 16].
Definition farid_edge : list F :=
  [decimal (-109603762960254) 15; decimal (-276690988455557) 15; f0;
   decimal 276690988455557 15; decimal 109603762960254 15].
Definition farid_init := edge_init (NItem farid_edge) (NItem farid_smooth).
(** edges.py:213-215, 217-218 [Laplace] *)
Definition laplace_init (same_padder : option (padder F)) (shared : bool) : res edge_filter :=
  edge_init (NItem laplace_kernel) (NItem []) false same_padder shared.
Definition laplace_forward (fuel : nat) (junk : list Z -> F) (e : edge_filter) (x : T) (axes : axes_arg) :=
  magnitude fuel junk e x axes f0 P1.

(** * filtering/sharpen.py *)

(** The blur of an UnsharpMask: a SeparablePoolNd (GaussianPoolNd) or an AvgPoolNd with its
    count_include_pad flag. *)
Inductive blur_kind := BSep | BAvg (count_include_pad : bool).
Record unsharp := mkUnsharp { um_blur : pool F; um_kind : blur_kind; um_amount : F; um_threshold : F }.
(** sharpen.py:34-41 *)
Definition unsharp_init (blur : pool F) (kind : blur_kind) (amount threshold : F) (pd : option (padder F))
  : res unsharp :=
  blur <- to_filter blur pd ;; Ok (mkUnsharp blur kind amount threshold).
Definition blur_forward (fuel : nat) (junk : list Z -> F) (k : blur_kind) (m : pool F) (x : T) (axes : axes_arg) :=
  match k with BSep => sep_forward fuel junk m x axes | BAvg cip => avg_forward fuel junk cip m x axes end.
Definition fabs (a : F) : F := if fleb f0 a then a else fopp a.
(** sharpen.py:43-49 [forward] *)
Definition unsharp_forward (fuel : nat) (junk : list Z -> F) (u : unsharp) (x : T) (axes : axes_arg)
  : unsharp * res T :=
  match check_axes (Z.of_nat (ndim x)) axes with
  | Err er => (u, Err er)
  | Ok axes =>
    let '(m, r) := blur_forward fuel junk (um_kind u) (um_blur u) x (AxSeq axes) in
    (mkUnsharp m (um_kind u) (um_amount u) (um_threshold u),
     blurred <- r ;;
     y <- tmap2 fsub x blurred ;;
     let t := um_threshold u in
     let y := if fleb t f0 then y else tmap (fun v => if fleb t (fabs v) then v else f0) y in
     tmap2 fadd x (tmap (fmul (um_amount u)) y))
  end.
End Edge.
Arguments edge_filter F : clear implicits.
Arguments exponent F : clear implicits.
Arguments unsharp F : clear implicits.
