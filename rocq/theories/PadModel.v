(** Model of torchimage/padding/pad_1d.py, padding/utils.py,
    padding/generic_pad.py and utils/validation.py. *)
From Verif Require Export Tensor.

(** * padding/utils.py *)

(** padding/utils.py:36-61 [modify_idx]: replace the slice at axis [dim].
    Simplification: [dim] is a nonnegative axis number. *)
Definition modify_idx (s : slice) (idx : list slice) (dim : nat) : list slice := upd dim s idx.

(** padding/utils.py:8-33 [make_idx], for [0 <= dim < nd]. *)
Definition make_idx (s : slice) (dim nd : nat) : list slice :=
  repeat sfull dim ++ [s] ++ repeat sfull (nd - dim - 1).

(** padding/utils.py:64-117 [same_padding_width].  [None] is Python's None.
    Simplification: [ceil(in_size / stride)] is exact (no float division). *)
Definition zceil_div (a b : Z) : Z := - ((- a) / b).
Definition same_pad_split (pad_total : Z) : Z * Z :=
  let pad_total := Z.max pad_total 0 in
  let pad_after := pad_total / 2 in
  (pad_total - pad_after, pad_after).
Definition same_padding_width (kernel_size : Z) (stride : option Z) (in_size : option Z)
  : res (Z * Z) :=
  match stride with
  | Some 1 => Ok (same_pad_split (kernel_size - 1))
  | _ =>
    match in_size with
    | None => Err ValueError
    | Some n =>
      let s := match stride with None => kernel_size | Some s => s end in
      if s =? 0 then Err ZeroDivisionError
      else
        let out_size := zceil_div n s in
        Ok (same_pad_split ((out_size - 1) * s + kernel_size - n))
    end
  end.

(** padding/utils.py:128-178 [pad_width_format], numpy -> torch. *)
Definition pw_numpy_to_torch (padding : list (list Z)) : list Z := concat (rev padding).
(** The slices [padding[i:i+2]] for i in range(0, len, 2) (line 176). *)
Fixpoint chunk2 (l : list Z) : list (list Z) :=
  match l with
  | [] => []
  | [a] => [[a]]
  | a :: b :: l' => [a; b] :: chunk2 l'
  end.
(** torch -> numpy (lines 172-176); [None] for ndim raises AssertionError.
    A negative repetition count gives the empty tuple. *)
Definition pw_torch_to_numpy (padding : list Z) (nd : option Z) : res (list (list Z)) :=
  match nd with
  | None => Err AssertionError
  | Some nd =>
    let ndim_padded := Z.of_nat (length padding) / 2 in
    Ok (repeat [0; 0] (Z.to_nat (nd - ndim_padded)) ++ rev (chunk2 padding))
  end.

(** filtering/utils.py:4-40 [_same_padding_pair] (the DeprecationWarnings are not
    modelled). *)
Definition same_padding_pair (kernel_size : Z) : Z * Z :=
  if kernel_size <=? 1 then (0, 0)
  else
    let pad_beg := kernel_size / 2 in
    if kernel_size mod 2 =? 1 then (pad_beg, pad_beg) else (pad_beg, pad_beg - 1).

(** * utils/validation.py *)

(** The [axes] argument: None, slice, int, or a sequence of int. *)
Inductive axes_arg :=
| AxNone | AxSlice (s : slice) | AxInt (a : Z) | AxSeq (l : list Z).

(** Bound of a slice with negative step (PySlice_AdjustIndices): -1 means before the start. *)
Definition clamp_down (n i : Z) : Z := Z.max (-1) (Z.min (n - 1) (if i <? 0 then i + n else i)).
(** [range(n)[s]]; a step of 0 raises ValueError. *)
Definition range_slice (n : Z) (s : slice) : res (list Z) :=
  if s_st s =? 0 then Err ValueError
  else if 0 <? s_st s then let r := resolve n s in Ok (map (rpos r) (zrange (r_len r)))
  else
    let start := match s_lo s with None => n - 1 | Some i => clamp_down n i end in
    let stop := match s_hi s with None => -1 | Some i => clamp_down n i end in
    let len := if stop <? start then (start - stop - 1) / (- s_st s) + 1 else 0 in
    Ok (map (fun k => start + k * s_st s) (zrange len)).

(** utils/validation.py:3-34 [check_axes]; [nd] is x.ndim. *)
Definition check_axes (nd : Z) (axes : axes_arg) : res (list Z) :=
  match axes with
  | AxNone => Ok (zrange nd)
  | AxSlice s => range_slice nd s
  | AxInt a => Ok [if 0 <=? a then a else nd + a]
  | AxSeq l =>
    let l' := map (fun a => if 0 <=? a then a else nd + a) l in
    _ <- assertb (forallb (fun a => (0 <=? a) && (a <=? nd)) l') ;;
    Ok l'
  end.

(** utils/validation.py:37-48 [check_stride] on None or an int. *)
Definition check_stride (stride : option Z) : res (option Z) :=
  match stride with
  | None => Ok None
  | Some s => if s <? 1 then Err ValueError else Ok (Some s)
  end.

(** utils/validation.py:51-59 [check_pad_width] on ints. *)
Definition check_pad_width (pad_before pad_after : Z) : res (Z * Z) :=
  if (pad_before <? 0) || (pad_after <? 0) then Err ValueError
  else Ok (pad_before, pad_after).

(** * padding/pad_1d.py *)
Section Pad1d.
Context {F : ofield}.
Notation T := (tensor F).

(** [idx[dim].start, idx[dim].stop] (first line of every pad_1d function). *)
Definition head_tail (idx : list slice) (dim : nat) : res (Z * Z) :=
  match nth_error idx dim with
  | Some (mkS (Some h) (Some t) _) => Ok (h, t)
  | Some _ => Err TypeError
  | None => Err IndexError
  end.

(** pad_1d.py:78-90 *)
Definition replicate_1d (x : T) (idx : list slice) (dim : nat) : res T :=
  ht <- head_tail idx dim ;;
  let '(head, tail) := ht in
  let f s := modify_idx s idx dim in
  x <- (if 0 <? head then v <- tget x (f (srng head (head + 1))) ;; tset x (f (sto head)) v
        else Ok x) ;;
  (if tail <? dimlen x dim
   then v <- tget x (f (srng (tail - 1) tail)) ;; tset x (f (sfrom tail)) v
   else Ok x).

(** pad_1d.py:104-108: the loop "should pad before" of circular_1d. *)
Fixpoint circular_before (fuel : nat) (x : T) (idx : list slice) (dim : nat)
    (tail length curr : Z) : res T :=
  if 0 <? curr then
    match fuel with
    | O => Err OutOfFuel
    | S fuel' =>
      let chunk := Z.min curr length in
      v <- tget x (modify_idx (srng (tail - chunk) tail) idx dim) ;;
      x' <- tset x (modify_idx (srng (curr - chunk) curr) idx dim) v ;;
      circular_before fuel' x' idx dim tail length (curr - chunk)
    end
  else Ok x.

(** pad_1d.py:110-114: the loop "should pad after". *)
Fixpoint circular_after (fuel : nat) (x : T) (idx : list slice) (dim : nat)
    (head length curr : Z) : res T :=
  if curr <? dimlen x dim then
    match fuel with
    | O => Err OutOfFuel
    | S fuel' =>
      let chunk := Z.min (dimlen x dim - curr) length in
      v <- tget x (modify_idx (srng head (head + chunk)) idx dim) ;;
      x' <- tset x (modify_idx (srng curr (curr + chunk)) idx dim) v ;;
      circular_after fuel' x' idx dim head length (curr + chunk)
    end
  else Ok x.

(** pad_1d.py:93-116 *)
Definition circular_1d (fuel : nat) (x : T) (idx : list slice) (dim : nat) : res T :=
  ht <- head_tail idx dim ;;
  let '(head, tail) := ht in
  let length := tail - head in
  if length =? 1 then replicate_1d x idx dim
  else
    x <- circular_before fuel x idx dim tail length head ;;
    circular_after fuel x idx dim head length tail.

(** pad_1d.py:119-137 *)
Definition periodize_1d (fuel : nat) (x : T) (idx : list slice) (dim : nat) : res T :=
  ht <- head_tail idx dim ;;
  let '(head, tail) := ht in
  let length := tail - head in
  if length mod 2 =? 0 then circular_1d fuel x idx dim
  else
    let new_idx := modify_idx (srng head (tail + 1)) idx dim in
    v <- tget x (modify_idx (srng (tail - 1) tail) idx dim) ;;
    x <- tset x (modify_idx (srng tail (tail + 1)) idx dim) v ;;
    circular_1d fuel x new_idx dim.

(** pad_1d.py:153-154 *)
Definition neg_if (negate : bool) (t : T) : T := if negate then tmap fopp t else t.

(** pad_1d.py:163-173 *)
Fixpoint symmetric_before (fuel : nat) (negate : bool) (cache : option T) (x : T)
    (idx : list slice) (dim : nat) (tail length curr : Z) (flip : bool) : res T :=
  if 0 <? curr then
    match fuel with
    | O => Err OutOfFuel
    | S fuel' =>
      let chunk := Z.min curr length in
      v <- (if flip then
              match cache with
              | None => v <- tget x (modify_idx (srng curr (curr + chunk)) idx dim) ;;
                        Ok (neg_if negate (tflip dim v))
              | Some c => tget c (make_idx (mkS (Some (- chunk)) None 1) dim (ndim x))
              end
            else tget x (modify_idx (srng (tail - chunk) tail) idx dim)) ;;
      x' <- tset x (modify_idx (srng (curr - chunk) curr) idx dim) v ;;
      symmetric_before fuel' negate cache x' idx dim tail length (curr - chunk) (negb flip)
    end
  else Ok x.

(** pad_1d.py:175-185 *)
Fixpoint symmetric_after (fuel : nat) (negate : bool) (cache : option T) (x : T)
    (idx : list slice) (dim : nat) (head length curr : Z) (flip : bool) : res T :=
  if curr <? dimlen x dim then
    match fuel with
    | O => Err OutOfFuel
    | S fuel' =>
      let chunk := Z.min (dimlen x dim - curr) length in
      v <- (if flip then
              match cache with
              | None => v <- tget x (modify_idx (srng (curr - chunk) curr) idx dim) ;;
                        Ok (neg_if negate (tflip dim v))
              | Some c => tget c (make_idx (sto chunk) dim (ndim x))
              end
            else tget x (modify_idx (srng head (head + chunk)) idx dim)) ;;
      x' <- tset x (modify_idx (srng curr (curr + chunk)) idx dim) v ;;
      symmetric_after fuel' negate cache x' idx dim head length (curr + chunk) (negb flip)
    end
  else Ok x.

(** pad_1d.py:140-187.  [x.shape[dim] // length] with length = 0: the operands
    are numpy integers, for which the quotient is 0 (with a warning), as [Z.div]. *)
Definition symmetric_1d (fuel : nat) (x : T) (idx : list slice) (dim : nat) (negate : bool)
  : res T :=
  ht <- head_tail idx dim ;;
  let '(head, tail) := ht in
  let length := tail - head in
  if (length =? 1) && negb negate then replicate_1d x idx dim
  else
    cache <- (if 2 <=? dimlen x dim / length
              then v <- tget x idx ;; Ok (Some (neg_if negate (tflip dim v)))
              else Ok None) ;;
    x <- symmetric_before fuel negate cache x idx dim tail length head true ;;
    symmetric_after fuel negate cache x idx dim head length tail true.

(** pad_1d.py:214-224 *)
Fixpoint reflect_before (fuel : nat) (cache : option T) (x : T)
    (idx : list slice) (dim : nat) (tail length curr : Z) (flip : bool) : res T :=
  if 0 <? curr then
    match fuel with
    | O => Err OutOfFuel
    | S fuel' =>
      let chunk := Z.min curr (if flip then length - 2 else length) in
      v <- (if flip then
              match cache with
              | None => v <- tget x (modify_idx (srng (curr + 1) (curr + 1 + chunk)) idx dim) ;;
                        Ok (tflip dim v)
              | Some c => tget c (make_idx (mkS (Some (- chunk)) None 1) dim (ndim x))
              end
            else tget x (modify_idx (srng (tail - chunk) tail) idx dim)) ;;
      x' <- tset x (modify_idx (srng (curr - chunk) curr) idx dim) v ;;
      reflect_before fuel' cache x' idx dim tail length (curr - chunk) (negb flip)
    end
  else Ok x.

(** pad_1d.py:226-236 *)
Fixpoint reflect_after (fuel : nat) (cache : option T) (x : T)
    (idx : list slice) (dim : nat) (head length curr : Z) (flip : bool) : res T :=
  if curr <? dimlen x dim then
    match fuel with
    | O => Err OutOfFuel
    | S fuel' =>
      let chunk := Z.min (dimlen x dim - curr) (if flip then length - 2 else length) in
      v <- (if flip then
              match cache with
              | None => v <- tget x (modify_idx (srng (curr - 1 - chunk) (curr - 1)) idx dim) ;;
                        Ok (tflip dim v)
              | Some c => tget c (make_idx (sto chunk) dim (ndim x))
              end
            else tget x (modify_idx (srng head (head + chunk)) idx dim)) ;;
      x' <- tset x (modify_idx (srng curr (curr + chunk)) idx dim) v ;;
      reflect_after fuel' cache x' idx dim head length (curr + chunk) (negb flip)
    end
  else Ok x.

(** pad_1d.py:190-237 *)
Definition reflect_1d (fuel : nat) (x : T) (idx : list slice) (dim : nat) : res T :=
  ht <- head_tail idx dim ;;
  let '(head, tail) := ht in
  let length := tail - head in
  if length =? 1 then replicate_1d x idx dim
  else if length =? 2 then circular_1d fuel x idx dim
  else
    cache <- (if 2 <=? dimlen x dim / length
              then v <- tget x (modify_idx (srng (head + 1) (tail - 1)) idx dim) ;;
                   Ok (Some (tflip dim v))
              else Ok None) ;;
    x <- reflect_before fuel cache x idx dim tail length head true ;;
    reflect_after fuel cache x idx dim head length tail true.

(** [2 * a - b] on tensors (pad_1d.py:251, 257, 279, 285). *)
Definition two_a_minus_b (a b : T) : res T :=
  tmap2 fsub (tmap (fmul (fofZ 2)) a) b.

(** pad_1d.py:248-252 *)
Fixpoint odd_symmetric_before (fuel : nat) (x : T) (idx : list slice) (dim : nat)
    (length curr : Z) : res T :=
  if 0 <? curr then
    match fuel with
    | O => Err OutOfFuel
    | S fuel' =>
      let chunk := Z.min curr length in
      a <- tget x (modify_idx (srng curr (curr + 1)) idx dim) ;;
      b <- tget x (modify_idx (srng curr (curr + chunk)) idx dim) ;;
      v <- two_a_minus_b a (tflip dim b) ;;
      x' <- tset x (modify_idx (srng (curr - chunk) curr) idx dim) v ;;
      odd_symmetric_before fuel' x' idx dim length (curr - chunk)
    end
  else Ok x.

(** pad_1d.py:254-258 *)
Fixpoint odd_symmetric_after (fuel : nat) (x : T) (idx : list slice) (dim : nat)
    (length curr : Z) : res T :=
  if curr <? dimlen x dim then
    match fuel with
    | O => Err OutOfFuel
    | S fuel' =>
      let chunk := Z.min (dimlen x dim - curr) length in
      a <- tget x (modify_idx (srng (curr - 1) curr) idx dim) ;;
      b <- tget x (modify_idx (srng (curr - chunk) curr) idx dim) ;;
      v <- two_a_minus_b a (tflip dim b) ;;
      x' <- tset x (modify_idx (srng curr (curr + chunk)) idx dim) v ;;
      odd_symmetric_after fuel' x' idx dim length (curr + chunk)
    end
  else Ok x.

(** pad_1d.py:240-259 *)
Definition odd_symmetric_1d (fuel : nat) (x : T) (idx : list slice) (dim : nat) : res T :=
  ht <- head_tail idx dim ;;
  let '(head, tail) := ht in
  let length := tail - head in
  x <- odd_symmetric_before fuel x idx dim length head ;;
  odd_symmetric_after fuel x idx dim length tail.

(** pad_1d.py:276-280 *)
Fixpoint odd_reflect_before (fuel : nat) (x : T) (idx : list slice) (dim : nat)
    (length_flipped curr : Z) : res T :=
  if 0 <? curr then
    match fuel with
    | O => Err OutOfFuel
    | S fuel' =>
      let chunk := Z.min curr length_flipped in
      a <- tget x (modify_idx (srng curr (curr + 1)) idx dim) ;;
      b <- tget x (modify_idx (srng (curr + 1) (curr + 1 + chunk)) idx dim) ;;
      v <- two_a_minus_b a (tflip dim b) ;;
      x' <- tset x (modify_idx (srng (curr - chunk) curr) idx dim) v ;;
      odd_reflect_before fuel' x' idx dim length_flipped (curr - chunk)
    end
  else Ok x.

(** pad_1d.py:282-286 *)
Fixpoint odd_reflect_after (fuel : nat) (x : T) (idx : list slice) (dim : nat)
    (length_flipped curr : Z) : res T :=
  if curr <? dimlen x dim then
    match fuel with
    | O => Err OutOfFuel
    | S fuel' =>
      let chunk := Z.min (dimlen x dim - curr) length_flipped in
      a <- tget x (modify_idx (srng (curr - 1) curr) idx dim) ;;
      b <- tget x (modify_idx (srng (curr - 1 - chunk) (curr - 1)) idx dim) ;;
      v <- two_a_minus_b a (tflip dim b) ;;
      x' <- tset x (modify_idx (srng curr (curr + chunk)) idx dim) v ;;
      odd_reflect_after fuel' x' idx dim length_flipped (curr + chunk)
    end
  else Ok x.

(** pad_1d.py:262-287 *)
Definition odd_reflect_1d (fuel : nat) (x : T) (idx : list slice) (dim : nat) : res T :=
  ht <- head_tail idx dim ;;
  let '(head, tail) := ht in
  let length := tail - head in
  if length =? 1 then replicate_1d x idx dim
  else
    let length_flipped := length - 1 in
    x <- odd_reflect_before fuel x idx dim length_flipped head ;;
    odd_reflect_after fuel x idx dim length_flipped tail.

(** [torch.arange(start, end, step)] as a 1-d tensor of scalars. *)
Definition tarange (start end_ step : Z) : T :=
  mkT [Z.max 0 (- ((start - end_) / step))]
      (fun i => fofZ (start + nth 0 i 0 * step)).
(** [torch.linspace(start, end, steps)] (exact grid). *)
Definition tlinspace (start end_ : F) (steps : Z) : T :=
  mkT [steps]
      (fun i => fadd start (fmul (fofZ (nth 0 i 0)) (fdiv (fsub end_ start) (fofZ (steps - 1))))).
(** [.view([-1] + [1] * k)] of a 1-d tensor. *)
Definition tview_col (k : nat) (t : T) : T :=
  mkT (nth 0 (shp t) 0 :: repeat 1 k) (fun i => at_ t [nth 0 i 0]).

(** [[-1] + [1] * (x.ndim - dim - 1)] counts a negative [dim] as it stands.  The functions get the position [dim] of
    the axis and [neg]: whether the caller named it by a negative number (an int below -ndim, see [axis_nat]). *)
Definition unit_axes (neg : bool) (x : T) (dim : nat) : nat :=
  if neg then (ndim x + (ndim x - dim - 1))%nat else (ndim x - dim - 1)%nat.
(** [x[f] = v] drops leading axes of length 1 of [v] (torch: slicePrefix1sSize); only the long shapes of [unit_axes true] have superfluous ones. *)
Fixpoint drop_ones (k : nat) (s : list Z) : list Z :=
  match k, s with S k', 1 :: s' => drop_ones k' s' | _, _ => s end.
Definition unit_prefix (neg : bool) (nd : nat) (v : T) : T :=
  if neg then
    let s := drop_ones (ndim v - nd) (shp v) in
    mkT s (fun i => at_ v (repeat 0 (ndim v - length s) ++ i))
  else v.

(** pad_1d.py:290-310 *)
Definition smooth_1d (neg : bool) (x : T) (idx : list slice) (dim : nat) : res T :=
  ht <- head_tail idx dim ;;
  let '(head, tail) := ht in
  if tail - head =? 1 then replicate_1d x idx dim
  else
    let f s := modify_idx s idx dim in
    let arange_ s e st := tview_col (unit_axes neg x dim) (tarange s e st) in
    x <- (if 0 <? head then
            let dist := arange_ head 0 (-1) in
            a <- tget x (f (srng head (head + 1))) ;;
            b <- tget x (f (srng (head + 1) (head + 2))) ;;
            d <- tmap2 fsub b a ;;
            m <- tmap2 fmul dist d ;;
            v <- tmap2 fsub a m ;;
            tset x (f (sto head)) (unit_prefix neg (ndim x) v)
          else Ok x) ;;
    (if tail <? dimlen x dim then
       let dist := arange_ 1 (dimlen x dim - tail + 1) 1 in
       a <- tget x (f (srng (tail - 1) tail)) ;;
       b <- tget x (f (srng (tail - 2) (tail - 1))) ;;
       d <- tmap2 fsub a b ;;
       m <- tmap2 fmul dist d ;;
       v <- tmap2 fadd a m ;;
       tset x (f (sfrom tail)) (unit_prefix neg (ndim x) v)
     else Ok x).

(** pad_1d.py:313-330 *)
Definition linear_ramp_1d (neg : bool) (x : T) (idx : list slice) (dim : nat) (before after : F) : res T :=
  ht <- head_tail idx dim ;;
  let '(head, tail) := ht in
  let f s := modify_idx s idx dim in
  let linspace_ s e n sl := v <- tget (tlinspace s e n) [sl] ;; Ok (tview_col (unit_axes neg x dim) v) in
  x <- (if 0 <? head then
          dist <- linspace_ f0 f1 (head + 1) (mkS None (Some (-1)) 1) ;;
          a <- tget x (f (srng head (head + 1))) ;;
          m <- tmap2 fmul dist (tmap (fun e => fsub e before) a) ;;
          tset x (f (sto head)) (unit_prefix neg (ndim x) (tmap (fadd before) m))
        else Ok x) ;;
  (if tail <? dimlen x dim then
     dist <- linspace_ f1 f0 (dimlen x dim - tail + 1) (mkS (Some 1) None 1) ;;
     a <- tget x (f (srng (tail - 1) tail)) ;;
     m <- tmap2 fmul dist (tmap (fun e => fsub after e) a) ;;
     tset x (f (sfrom tail)) (unit_prefix neg (ndim x) (tmap (fun e => fsub after e) m))
   else Ok x).

(** pad_1d.py:348-360 *)
Definition constant_1d (x : T) (idx : list slice) (dim : nat) (before after : F) : res T :=
  ht <- head_tail idx dim ;;
  let '(head, tail) := ht in
  let f s := modify_idx s idx dim in
  x <- (if 0 <? head then tset x (f (sto head)) (tscalar before) else Ok x) ;;
  (if tail <? dimlen x dim then tset x (f (sfrom tail)) (tscalar after) else Ok x).

(** pad_1d.py:333-345 *)
Definition zeros_1d (x : T) (idx : list slice) (dim : nat) : res T :=
  constant_1d x idx dim f0 f0.

(** Statistics of a nonempty list (torch.mean/max/min/median on one line).
    torch.median returns the lower of the two central elements. *)
Definition lmax (l : list F) : F :=
  match l with [] => f0 | a :: l' => fold_left (fun m e => if fleb m e then e else m) l' a end.
Definition lmin (l : list F) : F :=
  match l with [] => f0 | a :: l' => fold_left (fun m e => if fleb e m then e else m) l' a end.
Definition lsum (l : list F) : F := fold_right fadd f0 l.
Definition lmean (l : list F) : F := fdiv (lsum l) (fofZ (Z.of_nat (length l))).
Fixpoint linsert (a : F) (l : list F) : list F :=
  match l with [] => [a] | b :: l' => if fleb a b then a :: l else b :: linsert a l' end.
Definition lsort (l : list F) : list F := fold_right linsert [] l.
Definition lmedian (l : list F) : F := nth ((length l - 1) / 2)%nat (lsort l) f0.

Inductive stat_mode := SMean | SMedian | SMax | SMin.
Definition stat_fun (m : stat_mode) : list F -> F :=
  match m with SMean => lmean | SMedian => lmedian | SMax => lmax | SMin => lmin end.

(** pad_1d.py:363-368 [_stat_funcs[mode](x, dim)] with keepdim=True.  On an empty
    line torch raises (max/min/median) or yields NaN (mean, not representable
    here); both are an error in the model. *)
Definition tstat (m : stat_mode) (t : T) (dim : nat) : res T :=
  if dimlen t dim <=? 0 then Err RuntimeError
  else Ok (mkT (upd dim 1 (shp t))
               (fun i => stat_fun m (map (fun k => at_ t (upd dim k i)) (zrange (dimlen t dim))))).

(** pad_1d.py:371-400 *)
Definition stat_1d (x : T) (idx : list slice) (dim : nat) (before after : option Z)
    (m : stat_mode) : res T :=
  ht <- head_tail idx dim ;;
  let '(head, tail) := ht in
  let length := tail - head in
  let f s := modify_idx s idx dim in
  x <- (match before, after with
        | None, None =>
          if (0 <? head) && (tail <? dimlen x dim) then
            v <- tget x (f (srng head tail)) ;;
            result <- tstat m v dim ;;
            x <- tset x (f (sto head)) result ;;
            tset x (f (sfrom tail)) result
          else Ok x
        | _, _ => Ok x
        end) ;;
  x <- (if 0 <? head then
          s <- match before with
               | None => v <- tget x (f (srng head tail)) ;; tstat m v dim
               | Some b =>
                 let b := Z.min length (Z.max 1 b) in
                 v <- tget x (f (srng head (head + b))) ;; tstat m v dim
               end ;;
          tset x (f (sto head)) s
        else Ok x) ;;
  (if tail <? dimlen x dim then
     s <- match after with
          | None => v <- tget x (f (srng head tail)) ;; tstat m v dim
          | Some a =>
            let a := Z.min length (Z.max 1 a) in
            v <- tget x (f (srng (tail - a) tail)) ;; tstat m v dim
          end ;;
     tset x (f (sfrom tail)) s
   else Ok x).

(** * padding/generic_pad.py *)

(** NdSpec as consumed by Padder: a single item, broadcast to every index, or a
    list of items (utils/ndspec.py; index_ndim is 0 or 1, generic_pad.py:94).
    The full NdSpec model is in NdSpecModel.v. *)
Inductive nds (A : Type) := NItem (a : A) | NList (l : list A).
Arguments NItem {A} a.
Arguments NList {A} l.

(** utils/ndspec.py:220-233 [__getitem__] with an int key. *)
Definition nds_get {A} (s : nds A) (i : Z) : res A :=
  match s with NItem a => Ok a | NList l => pyidx l i end.
(** The index shape: [None] for (), [Some n] for (n,). *)
Definition nds_ishape {A} (s : nds A) : option Z :=
  match s with NItem _ => None | NList l => Some (Z.of_nat (length l)) end.

(** utils/ndspec.py:301-380 [agg_index_shape] / [agg_index_len] restricted to
    index_ndim <= 1: the distinct nonempty index shapes must be at most one. *)
Fixpoint agg_shapes (l : list (option Z)) : list Z :=
  match l with
  | [] => []
  | None :: l' => agg_shapes l'
  | Some n :: l' => let r := agg_shapes l' in if existsb (Z.eqb n) r then r else n :: r
  end.
Definition agg_index_shape (l : list (option Z)) : res (option Z) :=
  match agg_shapes l with
  | [] => Ok None
  | [n] => Ok (Some n)
  | _ => Err ValueError
  end.
Definition agg_index_len (l : list (option Z)) : res Z :=
  s <- agg_index_shape l ;; Ok (match s with None => 0 | Some n => n end).

(** Padding modes (generic_pad.py:10-28): the named modes, user callables, and
    any other string. *)
Inductive mode :=
| MReplicate | MSmooth | MCircular | MPeriodize | MSymmetric | MReflect
| MAntisymmetric | MOddReflect | MOddSymmetric
| MStat (m : stat_mode)
| MZeros | MConstant | MLinearRamp | MEmpty
| MFun (f : T -> list slice -> nat -> res T)
| MUnknown.

Record padder := mkPadder {
  p_width : nds (Z * Z);
  p_mode : nds mode;
  p_const : nds (F * F);
  p_end : nds (F * F);
  p_stat : nds (option Z * option Z);
  p_ndim : Z
}.

(** generic_pad.py:91-94 [_align_params] *)
Definition align_ndim (w : nds (Z * Z)) (m : nds mode) (c e : nds (F * F))
    (s : nds (option Z * option Z)) : res Z :=
  agg_index_len [nds_ishape w; nds_ishape m; nds_ishape c; nds_ishape e; nds_ishape s].

Definition nds_map {A B} (f : A -> res B) (s : nds A) : res (nds B) :=
  match s with
  | NItem a => b <- f a ;; Ok (NItem b)
  | NList l => bs <- mapM f l ;; Ok (NList bs)
  end.

(** generic_pad.py:37-89 [Padder.__init__] after NdSpec parsing of the arguments.
    Line 83 evaluates [_check_padding_mode] and discards the result. *)
Definition padder_init (w : nds (Z * Z)) (m : nds mode) (c e : nds (F * F))
    (s : nds (option Z * option Z)) : res padder :=
  w' <- nds_map (fun p => check_pad_width (fst p) (snd p)) w ;;
  n <- align_ndim w' m c e s ;;
  Ok (mkPadder w' m c e s n).

(** NdSpec.apply on three specs (ndspec.py:382-416), index_ndim <= 1. *)
Definition nds_apply3 {A B C D} (f : A -> B -> C -> res D) (a : nds A) (b : nds B) (c : nds C)
  : res (nds D) :=
  sh <- agg_index_shape [nds_ishape a; nds_ishape b; nds_ishape c] ;;
  match sh with
  | None =>
    x <- nds_get a 0 ;; y <- nds_get b 0 ;; z <- nds_get c 0 ;;
    d <- f x y z ;; Ok (NItem d)
  | Some n =>
    ds <- mapM (fun i => x <- nds_get a i ;; y <- nds_get b i ;; z <- nds_get c i ;; f x y z)
               (zrange n) ;;
    Ok (NList ds)
  end.

(** generic_pad.py:96-125 [Padder.to_same]: new state of the padder and outcome.
    When [NdSpec.apply] raises nothing is modified; when [_align_params] raises the
    padding width has already been replaced. *)
Definition to_same (p : padder) (kernel_size : nds Z) (stride in_shape : nds (option Z))
  : padder * res unit :=
  match nds_apply3 same_padding_width kernel_size stride in_shape with
  | Err e => (p, Err e)
  | Ok w =>
    match align_ndim w (p_mode p) (p_const p) (p_end p) (p_stat p) with
    | Err e => (mkPadder w (p_mode p) (p_const p) (p_end p) (p_stat p) (p_ndim p), Err e)
    | Ok n => (mkPadder w (p_mode p) (p_const p) (p_end p) (p_stat p) n, Ok tt)
    end
  end.

(** The [idx] value returned by [_fill_value_1d]: a tuple of slices, or (mode
    "zeros", generic_pad.py:164) the function object [pad_1d.zeros_1d]. *)
Inductive idxval := Idx (l : list slice) | FunctionObject.

(** Axis number as used for [head_vec[a]], [idx[axis]]: Python negative indexing.
    (check_axes can return a negative number only for an int below -ndim.)  Two padding functions (smooth, linear_ramp)
    treat a negative number differently from the axis it stands for: see [unit_axes].  User functions are handed the
    position (simplification: the code hands them the negative number). *)
Definition axis_nat (nd : nat) (a : Z) : res nat :=
  let k := if a <? 0 then a + Z.of_nat nd else a in
  if (0 <=? k) && (k <? Z.of_nat nd) then Ok (Z.to_nat k) else Err IndexError.

(** generic_pad.py:160-183: selection of the 1-d padding function. *)
Definition pad_func_of (fuel : nat) (neg : bool) (m : mode) (cv ev : F * F) (sl : option Z * option Z)
  : res (T -> list slice -> nat -> res T) :=
  match m with
  | MFun f => Ok f
  | MConstant => Ok (fun x idx dim => constant_1d x idx dim (fst cv) (snd cv))
  | MLinearRamp => Ok (fun x idx dim => linear_ramp_1d neg x idx dim (fst ev) (snd ev))
  | MStat s => Ok (fun x idx dim => stat_1d x idx dim (fst sl) (snd sl) s)
  | MReplicate => Ok replicate_1d
  | MSmooth => Ok (smooth_1d neg)
  | MCircular => Ok (circular_1d fuel)
  | MPeriodize => Ok (periodize_1d fuel)
  | MSymmetric => Ok (fun x idx dim => symmetric_1d fuel x idx dim false)
  | MReflect => Ok (reflect_1d fuel)
  | MAntisymmetric => Ok (fun x idx dim => symmetric_1d fuel x idx dim true)
  | MOddReflect => Ok (odd_reflect_1d fuel)
  | MOddSymmetric => Ok (odd_symmetric_1d fuel)
  | MZeros | MEmpty => Err ValueError (* handled before this point *)
  | MUnknown => Err ValueError
  end.

Definition is_periodize (m : mode) : bool := match m with MPeriodize => true | _ => false end.

(** Parameter look-ups are only made by the modes that need them
    (generic_pad.py:166, 171, 176). *)
Definition mode_params (p : padder) (m : mode) (i : Z)
  : res ((F * F) * (F * F) * (option Z * option Z)) :=
  match m with
  | MConstant => cv <- nds_get (p_const p) i ;; Ok (cv, (f0, f0), (None, None))
  | MLinearRamp => ev <- nds_get (p_end p) i ;; Ok ((f0, f0), ev, (None, None))
  | MStat _ => sl <- nds_get (p_stat p) i ;; Ok ((f0, f0), (f0, f0), sl)
  | _ => Ok ((f0, f0), (f0, f0), (None, None))
  end.

(** generic_pad.py:127-193 [_fill_value_1d]: new buffer content and returned idx.  [axis] is the position of the axis,
    [neg] says that the number given was negative. *)
Definition fill_value_1d (fuel : nat) (neg : bool) (p : padder) (y : T) (i : Z) (axis : nat) (idx : idxval)
  : res (T * idxval) :=
  pw <- nds_get (p_width p) i ;;
  if (fst pw =? 0) && (snd pw =? 0) then Ok (y, idx)
  else
    m <- nds_get (p_mode p) i ;;
    match m with
    | MEmpty => Ok (y, idx)
    | MZeros => Ok (y, FunctionObject)
    | _ =>
      ps <- mode_params p m i ;;
      let '(cv, ev, sl) := ps in
      pf <- pad_func_of fuel neg m cv ev sl ;;
      match idx with
      | FunctionObject => Err TypeError
      | Idx l =>
        y' <- pf y l axis ;;
        ht <- head_tail l axis ;;
        let '(head, tail) := ht in
        let new_tail := tail + snd pw + (if is_periodize m then (tail - head) mod 2 else 0) in
        Ok (y', Idx (modify_idx (srng (head - fst pw) new_tail) l axis))
      end
    end.

(** [range(-np, 0)] *)
Definition neg_range (np : Z) : list Z := map (fun k => k - np) (zrange np).

Definition vadd (v : list Z) (a : nat) (d : Z) : list Z := upd a (nth a v 0 + d) v.

(** generic_pad.py:237-246: accumulation of head_vec and pad_after_vec. *)
Fixpoint width_loop (p : padder) (shape axes is : list Z) (hv pv : list Z)
  : res (list Z * list Z) :=
  match is with
  | [] => Ok (hv, pv)
  | i :: is' =>
    pw <- nds_get (p_width p) i ;;
    if (fst pw =? 0) && (snd pw =? 0) then width_loop p shape axes is' hv pv
    else
      a <- pyidx axes i ;;
      a <- axis_nat (length shape) a ;;
      m <- nds_get (p_mode p) i ;;
      let hv := vadd hv a (fst pw) in
      let pv := vadd pv a (snd pw) in
      let pv := if is_periodize m then vadd pv a (nth a shape 0 mod 2) else pv in
      width_loop p shape axes is' hv pv
  end.

(** generic_pad.py:259-260 *)
Fixpoint fill_loop (fuel : nat) (p : padder) (y : T) (axes is : list Z) (idx : idxval) : res T :=
  match is with
  | [] => Ok y
  | i :: is' =>
    a <- pyidx axes i ;;
    (* [axis] is only used (as a list index) when something is filled *)
    pw <- nds_get (p_width p) i ;;
    if (fst pw =? 0) && (snd pw =? 0) then fill_loop fuel p y axes is' idx
    else
      k <- axis_nat (ndim y) a ;;
      r <- fill_value_1d fuel (a <? 0) p y i k idx ;;
      fill_loop fuel p (fst r) axes is' (snd r)
  end.

Definition list_eqb (l m : list Z) : bool := all2 Z.eqb l m.

(** generic_pad.py:195-262 [Padder.forward]; [junk] is the content of the tensor
    returned by torch.empty. *)
Definition padder_forward (fuel : nat) (junk : list Z -> F) (p : padder) (x : T) (axes : axes_arg)
  : res T :=
  _ <- assertb (Nat.ltb 0 (ndim x)) ;;
  axes <- check_axes (Z.of_nat (ndim x)) axes ;;
  match axes with
  | [] => Ok x
  | _ =>
    let len := Z.of_nat (length axes) in
    let np := if 0 <? p_ndim p then Z.min len (p_ndim p) else len in
    let z := repeat 0 (ndim x) in
    hp <- width_loop p (shp x) axes (neg_range np) z z ;;
    let '(head_vec, pad_after_vec) := hp in
    let tail_vec := map2 Z.add head_vec (shp x) in
    let new_shape := map2 Z.add tail_vec pad_after_vec in
    if list_eqb (shp x) new_shape then Ok x
    else
      let y := tempty new_shape junk in
      let idx := map2 srng head_vec tail_vec in
      y <- tset y idx x ;;
      fill_loop fuel p y axes (neg_range np) (Idx idx)
  end.

(** generic_pad.py:264-320 [Padder.pad_axis]. *)
Definition pad_axis (fuel : nat) (junk : list Z -> F) (p : padder) (x : T) (i : Z) (axis : axes_arg)
  : res T :=
  axs <- check_axes (Z.of_nat (ndim x)) axis ;;
  match axs with
  | [a] =>
    pw <- nds_get (p_width p) i ;;
    if (fst pw =? 0) && (snd pw =? 0) then Ok x
    else
      k <- axis_nat (ndim x) a ;;
      let head := fst pw in
      let tail := head + dimlen x k in
      let length := tail + snd pw in
      let idx := make_idx (srng head tail) k (ndim x) in
      let y := tempty (upd k length (shp x)) junk in
      y <- tset y idx x ;;
      r <- fill_value_1d fuel (a <? 0) p y i k (Idx idx) ;;
      Ok (fst r)
  | _ => Err AssertionError
  end.

End Pad1d.
Arguments NItem {A} a.
Arguments NList {A} l.
Arguments padder F : clear implicits.
Arguments mode F : clear implicits.
