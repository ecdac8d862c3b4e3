(** Model of torchimage/pooling/base.py, pooling/uniform.py, shapes/conv_like.py and
    misc/outer.py. *)
From Verif Require Export TensorOps PadModel.

(** * shapes/conv_like.py *)

(** shapes/conv_like.py:8-30 [conv_1d]. *)
Definition conv_1d (in_size kernel_size stride dilation : Z) : res Z :=
  if stride =? 0 then Err ZeroDivisionError
  else Ok ((in_size - dilation * (kernel_size - 1) - 1) / stride + 1).

(** [[v] * n]: empty for negative n. *)
Definition zrepeat {A} (v : A) (n : Z) : list A := repeat v (Z.to_nat n).
(** [l[:n]] *)
Definition pyfirst {A} (n : Z) (l : list A) : list A :=
  firstn (Z.to_nat (if n <? 0 then n + Z.of_nat (length l) else n)) l.

(** conv_like.py:89-91: [for i in range(n)]: append kernel_size - pad_before, move on by stride. *)
Fixpoint rising (n : nat) (kernel_size stride pad_before : Z) : list Z * Z :=
  match n with
  | O => ([], pad_before)
  | S n' => let '(l, pb) := rising n' kernel_size stride (pad_before - stride) in
            (kernel_size - pad_before :: l, pb)
  end.
(** conv_like.py:97-99 *)
Fixpoint plateau (fuel : nat) (in_size stride pad_before : Z) : res (list Z * Z) :=
  if 0 <? pad_before then
    match fuel with
    | O => Err OutOfFuel
    | S fuel' => r <- plateau fuel' in_size stride (pad_before - stride) ;;
                 Ok (in_size :: fst r, snd r)
    end
  else Ok ([], pad_before).
(** [range(start, 0, -stride)] *)
Definition down_range (start stride : Z) : list Z :=
  map (fun k => start - k * stride) (zrange (- ((- start) / stride))).

(** shapes/conv_like.py:38-113 [n_original_elements_1d]; stride >= 1 (for stride <= 0 Python
    raises or loops; the model raises on 0 only). *)
Definition n_original_elements_1d (in_size : Z) (pad_width : Z * Z) (kernel_size stride : Z)
  : res (list Z) :=
  let '(pad_before, pad_after) := pad_width in
  out_size <- conv_1d (in_size + pad_before + pad_after) kernel_size stride 1 ;;
  if pad_before + pad_after + in_size <? kernel_size then Ok []
  else
    let '(ret0, pad_before) :=
      if kernel_size <? pad_before then
        let q := (pad_before - kernel_size) / stride in
        let r := (pad_before - kernel_size) mod stride in
        (zrepeat 0 (q + 1), kernel_size - (stride - r))
      else ([], pad_before) in
    let n_rising_monotone := (pad_before + in_size - kernel_size) / stride + 1 in
    let n_rising := Z.min n_rising_monotone (pad_before / stride + 1) in
    let '(ret1, pad_before) := rising (Z.to_nat n_rising) kernel_size stride pad_before in
    let n_same := Z.max (n_rising_monotone - n_rising) 0 in
    let ret2 := zrepeat kernel_size n_same in
    let pad_before := pad_before - stride * n_same in
    pl <- plateau (Z.to_nat pad_before) in_size stride pad_before ;;
    let '(ret3, pad_before) := pl in
    let in_size := in_size + pad_before in
    let '(ret4, n_zeros_after) :=
      if in_size <? 0 then ([], (in_size + pad_after - kernel_size) / stride + 1)
      else
        let l := down_range (Z.min in_size kernel_size) stride in
        let in_size := in_size - stride * Z.of_nat (length l) in
        (l, (pad_after + in_size - kernel_size) / stride + 1) in
    Ok (pyfirst out_size (ret0 ++ ret1 ++ ret2 ++ ret3 ++ ret4 ++ zrepeat 0 n_zeros_after)).

Section Pool.
Context {F : ofield}.
Notation T := (tensor F).

(** misc/outer.py:4-27 [outer]. *)
Definition outer (u v : T) : res T :=
  u' <- treshape u (shp u ++ repeat 1 (ndim v)) ;;
  tmap2 fmul u' v.

(** [torch.tensor(l)] for a list of ints, in the dtype of the scalars. *)
Definition tofZs (l : list Z) : T :=
  mkT [Z.of_nat (length l)] (fun i => fofZ (nth (Z.to_nat (nth 0 i 0)) l 0)).

(** [functools.reduce(outer, l)] *)
Definition reduce_outer (l : list T) : res T :=
  match l with
  | [] => Err TypeError
  | t :: l' => fold_left (fun acc u => a <- acc ;; outer a u) l' (Ok t)
  end.

(** shapes/conv_like.py:116-122 [n_original_elements_nd] for equally long lists (as called by
    AvgPoolNd); with lists, NdSpec.apply is item-wise.  Line 119: an empty list of pad widths cannot
    be expanded to pairs ([_check_zero_length], ragged.py:188-193). *)
Definition n_original_elements_nd (in_size : list Z) (pad_width : list (Z * Z))
    (kernel_size stride : list Z) : res T :=
  _ <- match pad_width with [] => Err ValueError | _ => Ok tt end ;;
  ls <- mapM (fun i =>
          n <- pyidx in_size i ;; pw <- pyidx pad_width i ;;
          k <- pyidx kernel_size i ;; s <- pyidx stride i ;;
          n_original_elements_1d n pw k s) (zrange (Z.of_nat (length in_size))) ;;
  reduce_outer (map tofZs ls).

(** * pooling/base.py *)

(** NdSpec.apply on two specs (ndspec.py:382-416), index_ndim <= 1. *)
Definition nds_apply2 {A B D} (f : A -> B -> res D) (a : nds A) (b : nds B) : res (nds D) :=
  sh <- agg_index_shape [nds_ishape a; nds_ishape b] ;;
  match sh with
  | None => x <- nds_get a 0 ;; y <- nds_get b 0 ;; d <- f x y ;; Ok (NItem d)
  | Some n =>
    ds <- mapM (fun i => x <- nds_get a i ;; y <- nds_get b i ;; f x y) (zrange n) ;;
    Ok (NList ds)
  end.

(** State of a SeparablePoolNd module. *)
Record pool := mkPool {
  pl_kernel : nds (list F);
  pl_size : nds Z;
  pl_stride : nds Z;
  pl_padder : option (padder F);
  pl_ndim : Z
}.

Definition len_spec (k : nds (list F)) : nds Z :=
  match k with
  | NItem l => NItem (Z.of_nat (length l))
  | NList ls => NList (map (fun l => Z.of_nat (length l)) ls)
  end.

(** pooling/base.py:99-119 [read_stride] *)
Definition read_stride (size : nds Z) (stride : nds (option Z)) : res (nds Z) :=
  stride <- nds_map check_stride stride ;;
  nds_apply2 (fun s ks => Ok (match s with None => ks | Some s => s end)) stride size.

(** pooling/base.py:188-189 [_align_params] *)
Definition pool_align (kernel : nds (list F)) (stride : nds Z) : res Z :=
  agg_index_len [nds_ishape kernel; nds_ishape stride].

(** pooling/base.py:155-186 [SeparablePoolNd.__init__], after NdSpec parsing of the kernel
    and stride; the same_padder is None or a Padder (a mode name is
    [Padder(mode=name)], line 68). *)
Definition sep_init (kernel : nds (list F)) (stride : nds (option Z)) (same_padder : option (padder F))
  : res pool :=
  let size := len_spec kernel in
  stride <- read_stride size stride ;;
  n <- pool_align kernel stride ;;
  Ok (mkPool kernel size stride same_padder n).

(** pooling/base.py:121-151 [to_filter] *)
Definition to_filter (m : pool) (same_padder : option (padder F)) : res pool :=
  let pd := match same_padder with None => pl_padder m | Some _ => same_padder end in
  let stride := NItem 1 in
  n <- pool_align (pl_kernel m) stride ;;
  Ok (mkPool (pl_kernel m) (pl_size m) stride pd n).

Definition set_padder (m : pool) (p : padder F) : pool :=
  mkPool (pl_kernel m) (pl_size m) (pl_stride m) (Some p) (pl_ndim m).

Definition some_spec {A} (s : nds A) : nds (option A) :=
  match s with NItem a => NItem (Some a) | NList l => NList (map Some l) end.

(** pooling/base.py:74-97 [pad]: the padder is modified in place. *)
Definition pool_pad (fuel : nat) (junk : list Z -> F) (m : pool) (x : T) (axes : axes_arg)
  : pool * res T :=
  match check_axes (Z.of_nat (ndim x)) axes with
  | Err e => (m, Err e)
  | Ok axes =>
    match pl_padder m with
    | None => (m, Ok x)
    | Some p =>
      match mapM (fun a => pyidx (shp x) a) axes with
      | Err e => (m, Err e)
      | Ok in_shape =>
        let '(p', r) := to_same p (pl_size m) (some_spec (pl_stride m)) (NList (map Some in_shape)) in
        (set_padder m p',
         _ <- r ;; padder_forward fuel junk p' x (AxSeq axes))
      end
    end
  end.

(** pooling/base.py:222-228: the loop over the axes. *)
Fixpoint pool_loop (m : pool) (x : T) (i : Z) (axes : list Z) : res T :=
  match axes with
  | [] => Ok x
  | a :: axes' =>
    ks <- nds_get (pl_size m) i ;;
    if ks =? 0 then pool_loop m x (i + 1) axes'
    else
      s <- nds_get (pl_stride m) i ;;
      a <- axis_nat (ndim x) a ;;
      u <- tunfold a ks s x ;;
      k <- nds_get (pl_kernel m) i ;;
      x' <- tmatvec u k ;;
      pool_loop m x' (i + 1) axes'
  end.

(** pooling/base.py:191-228 [SeparablePoolNd.forward]: new module state and result. *)
Definition sep_forward (fuel : nat) (junk : list Z -> F) (m : pool) (x : T) (axes : axes_arg)
  : pool * res T :=
  match check_axes (Z.of_nat (ndim x)) axes with
  | Err e => (m, Err e)
  | Ok axes =>
    if (pl_ndim m =? 0) || (pl_ndim m =? Z.of_nat (length axes)) then
      let '(m', r) := pool_pad fuel junk m x (AxSeq axes) in
      (m', xp <- r ;; pool_loop m' xp 0 axes)
    else (m, Err AssertionError)
  end.

(** * pooling/uniform.py *)

(** uniform.py:12-14 [_get_kernel]; np.ones of a negative size raises ValueError. *)
Definition avg_kernel_1d (ks : Z) : res (list F) :=
  if ks <? 0 then Err ValueError else Ok (zrepeat (fdiv f1 (fofZ ks)) ks).
(** uniform.py:16-22 *)
Definition avg_init (kernel_size : nds Z) (stride : nds (option Z)) (same_padder : option (padder F))
  : res pool :=
  k <- nds_map avg_kernel_1d kernel_size ;;
  sep_init k stride same_padder.

(** [np.argsort] of distinct integers: positions in ascending order of the value. *)
Fixpoint insert_pos (l : list Z) (i : nat) (s : list nat) : list nat :=
  match s with
  | [] => [i]
  | j :: s' => if nth i l 0 <=? nth j l 0 then i :: s else j :: insert_pos l i s'
  end.
Definition argsort (l : list Z) : list nat := fold_right (insert_pos l) [] (seq 0 (length l)).

Fixpoint distinctb (l : list Z) : bool :=
  match l with [] => true | a :: l' => negb (existsb (Z.eqb a) l') && distinctb l' end.

(** uniform.py:45-47: [new_shape[axes[i]] = z.shape[i]] *)
Definition z_shape (nd : nat) (axes : list Z) (zs : list Z) (idx : list nat) : res (list Z) :=
  fold_left (fun acc i =>
      s <- acc ;; a <- pyidx axes (Z.of_nat i) ;; a <- axis_nat nd a ;;
      n <- pyidx zs (Z.of_nat i) ;; Ok (upd a n s))
    idx (Ok (repeat 1 nd)).

(** uniform.py:24-51 [AvgPoolNd.forward] *)
Definition avg_forward (fuel : nat) (junk : list Z -> F) (count_include_pad : bool) (m : pool) (x : T)
    (axes : axes_arg) : pool * res T :=
  if count_include_pad then sep_forward fuel junk m x axes
  else
    match check_axes (Z.of_nat (ndim x)) axes with
    | Err e => (m, Err e)
    | Ok axes =>
      match mapM (nds_get (pl_size m)) (zrange (Z.of_nat (length axes))) with
      | Err e => (m, Err e)
      | Ok sizes =>
        let z_old := zprod sizes in
        let idx := argsort axes in
        if distinctb axes then
          let '(m', r) := sep_forward fuel junk m x (AxSeq axes) in
          (m',
           y <- r ;;
           in_size <- mapM (fun i => a <- pyidx axes (Z.of_nat i) ;; pyidx (shp x) a) idx ;;
           pad_width <- mapM (fun i => match pl_padder m' with None => Err AttributeError
                                       | Some p => nds_get (p_width p) (Z.of_nat i) end) idx ;;
           kernel_size <- mapM (fun i => nds_get (pl_size m') (Z.of_nat i)) idx ;;
           stride <- mapM (fun i => nds_get (pl_stride m') (Z.of_nat i)) idx ;;
           z <- n_original_elements_nd in_size pad_width kernel_size stride ;;
           new_shape <- z_shape (ndim y) axes (shp z) idx ;;
           z <- treshape z new_shape ;;
           tmap2 fdiv (tmap (fun e => fmul e (fofZ z_old)) y) z)
        else (m, Err AssertionError)
      end
    end.
End Pool.
Arguments pool F : clear implicits.
