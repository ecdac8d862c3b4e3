(** Padding with the assignments [x[dst] = x[src]], whose right-hand side is a view of the memory that is being written,
    as a parameter.  The other assignments of pad_1d.py have a freshly computed right-hand side (torch.flip, arithmetic
    and statistics copy), or read the flipped cache, which is memory of its own. *)
From Verif Require Export PadModel MiscModel.
Open Scope Z_scope.

Section Alias.
Context {F : ofield}.
Notation T := (tensor F).

(** Read everything, then write: the semantics of the rest of the development. *)
Definition plain_copy (x : T) (dst src : list slice) : res T := v <- tget x src ;; tset x dst v.
(** Copy one element after the other inside the same memory, in the order [ord] of the index list. *)
Definition copy_one (D S : list rsl) (m : T) (i : list Z) : T :=
  mkT (shp m) (fun j => if list_eqb j (map2 rpos D i) then at_ m (map2 rpos S (bidx (map r_len S) i)) else at_ m j).
Definition copy_in_order (ord : list (list Z) -> list (list Z)) (x : T) (dst src : list slice) : res T :=
  if Nat.eqb (length src) (length (shp x)) && Nat.eqb (length dst) (length (shp x)) then
    let D := map2 resolve (shp x) dst in
    let S := map2 resolve (shp x) src in
    if expandable (map r_len S) (map r_len D) then Ok (fold_left (copy_one D S) (ord (tindices (map r_len D))) x)
    else Err RuntimeError
  else Err IndexError.
(** Refuse to copy between regions with a common element (torch: "some elements of the input tensor and the written-to
    tensor refer to a single memory location"). *)
Definition meets (d s : rsl) : bool :=
  (0 <? r_len d) && (0 <? r_len s) && (r_lo d <? r_lo s + r_len s) && (r_lo s <? r_lo d + r_len d).
Definition checked_copy (x : T) (dst src : list slice) : res T :=
  if all2 meets (map2 resolve (shp x) dst) (map2 resolve (shp x) src) then Err RuntimeError else plain_copy x dst src.

Variable cp : T -> list slice -> list slice -> res T.

(** pad_1d.py:78-90 *)
Definition replicate_cp (x : T) (idx : list slice) (dim : nat) : res T :=
  ht <- head_tail idx dim ;;
  let '(head, tail) := ht in
  let f s := modify_idx s idx dim in
  x <- (if 0 <? head then cp x (f (sto head)) (f (srng head (head + 1))) else Ok x) ;;
  (if tail <? dimlen x dim then cp x (f (sfrom tail)) (f (srng (tail - 1) tail)) else Ok x).
(** pad_1d.py:104-108 *)
Fixpoint circular_before_cp (fuel : nat) (x : T) (idx : list slice) (dim : nat) (tail length curr : Z) : res T :=
  if 0 <? curr then
    match fuel with
    | O => Err OutOfFuel
    | S fuel' =>
      let chunk := Z.min curr length in
      x' <- cp x (modify_idx (srng (curr - chunk) curr) idx dim) (modify_idx (srng (tail - chunk) tail) idx dim) ;;
      circular_before_cp fuel' x' idx dim tail length (curr - chunk)
    end
  else Ok x.
(** pad_1d.py:110-114 *)
Fixpoint circular_after_cp (fuel : nat) (x : T) (idx : list slice) (dim : nat) (head length curr : Z) : res T :=
  if curr <? dimlen x dim then
    match fuel with
    | O => Err OutOfFuel
    | S fuel' =>
      let chunk := Z.min (dimlen x dim - curr) length in
      x' <- cp x (modify_idx (srng curr (curr + chunk)) idx dim) (modify_idx (srng head (head + chunk)) idx dim) ;;
      circular_after_cp fuel' x' idx dim head length (curr + chunk)
    end
  else Ok x.
(** pad_1d.py:93-116 *)
Definition circular_cp (fuel : nat) (x : T) (idx : list slice) (dim : nat) : res T :=
  ht <- head_tail idx dim ;;
  let '(head, tail) := ht in
  let length := tail - head in
  if length =? 1 then replicate_cp x idx dim
  else
    x <- circular_before_cp fuel x idx dim tail length head ;;
    circular_after_cp fuel x idx dim head length tail.
(** pad_1d.py:119-137 *)
Definition periodize_cp (fuel : nat) (x : T) (idx : list slice) (dim : nat) : res T :=
  ht <- head_tail idx dim ;;
  let '(head, tail) := ht in
  let length := tail - head in
  if length mod 2 =? 0 then circular_cp fuel x idx dim
  else
    let new_idx := modify_idx (srng head (tail + 1)) idx dim in
    x <- cp x (modify_idx (srng tail (tail + 1)) idx dim) (modify_idx (srng (tail - 1) tail) idx dim) ;;
    circular_cp fuel x new_idx dim.
(** pad_1d.py:163-173 *)
Fixpoint symmetric_before_cp (fuel : nat) (negate : bool) (cache : option T) (x : T)
    (idx : list slice) (dim : nat) (tail length curr : Z) (flip : bool) : res T :=
  if 0 <? curr then
    match fuel with
    | O => Err OutOfFuel
    | S fuel' =>
      let chunk := Z.min curr length in
      let dst := modify_idx (srng (curr - chunk) curr) idx dim in
      x' <- (if flip then
               v <- match cache with
                    | None => v <- tget x (modify_idx (srng curr (curr + chunk)) idx dim) ;;
                              Ok (neg_if negate (tflip dim v))
                    | Some c => tget c (make_idx (mkS (Some (- chunk)) None 1) dim (ndim x))
                    end ;;
               tset x dst v
             else cp x dst (modify_idx (srng (tail - chunk) tail) idx dim)) ;;
      symmetric_before_cp fuel' negate cache x' idx dim tail length (curr - chunk) (negb flip)
    end
  else Ok x.
(** pad_1d.py:175-185 *)
Fixpoint symmetric_after_cp (fuel : nat) (negate : bool) (cache : option T) (x : T)
    (idx : list slice) (dim : nat) (head length curr : Z) (flip : bool) : res T :=
  if curr <? dimlen x dim then
    match fuel with
    | O => Err OutOfFuel
    | S fuel' =>
      let chunk := Z.min (dimlen x dim - curr) length in
      let dst := modify_idx (srng curr (curr + chunk)) idx dim in
      x' <- (if flip then
               v <- match cache with
                    | None => v <- tget x (modify_idx (srng (curr - chunk) curr) idx dim) ;;
                              Ok (neg_if negate (tflip dim v))
                    | Some c => tget c (make_idx (sto chunk) dim (ndim x))
                    end ;;
               tset x dst v
             else cp x dst (modify_idx (srng head (head + chunk)) idx dim)) ;;
      symmetric_after_cp fuel' negate cache x' idx dim head length (curr + chunk) (negb flip)
    end
  else Ok x.
(** pad_1d.py:140-187 *)
Definition symmetric_cp (fuel : nat) (x : T) (idx : list slice) (dim : nat) (negate : bool) : res T :=
  ht <- head_tail idx dim ;;
  let '(head, tail) := ht in
  let length := tail - head in
  if (length =? 1) && negb negate then replicate_cp x idx dim
  else
    cache <- (if 2 <=? dimlen x dim / length
              then v <- tget x idx ;; Ok (Some (neg_if negate (tflip dim v)))
              else Ok None) ;;
    x <- symmetric_before_cp fuel negate cache x idx dim tail length head true ;;
    symmetric_after_cp fuel negate cache x idx dim head length tail true.
(** pad_1d.py:214-224 *)
Fixpoint reflect_before_cp (fuel : nat) (cache : option T) (x : T)
    (idx : list slice) (dim : nat) (tail length curr : Z) (flip : bool) : res T :=
  if 0 <? curr then
    match fuel with
    | O => Err OutOfFuel
    | S fuel' =>
      let chunk := Z.min curr (if flip then length - 2 else length) in
      let dst := modify_idx (srng (curr - chunk) curr) idx dim in
      x' <- (if flip then
               v <- match cache with
                    | None => v <- tget x (modify_idx (srng (curr + 1) (curr + 1 + chunk)) idx dim) ;;
                              Ok (tflip dim v)
                    | Some c => tget c (make_idx (mkS (Some (- chunk)) None 1) dim (ndim x))
                    end ;;
               tset x dst v
             else cp x dst (modify_idx (srng (tail - chunk) tail) idx dim)) ;;
      reflect_before_cp fuel' cache x' idx dim tail length (curr - chunk) (negb flip)
    end
  else Ok x.
(** pad_1d.py:226-236 *)
Fixpoint reflect_after_cp (fuel : nat) (cache : option T) (x : T)
    (idx : list slice) (dim : nat) (head length curr : Z) (flip : bool) : res T :=
  if curr <? dimlen x dim then
    match fuel with
    | O => Err OutOfFuel
    | S fuel' =>
      let chunk := Z.min (dimlen x dim - curr) (if flip then length - 2 else length) in
      let dst := modify_idx (srng curr (curr + chunk)) idx dim in
      x' <- (if flip then
               v <- match cache with
                    | None => v <- tget x (modify_idx (srng (curr - 1 - chunk) (curr - 1)) idx dim) ;;
                              Ok (tflip dim v)
                    | Some c => tget c (make_idx (sto chunk) dim (ndim x))
                    end ;;
               tset x dst v
             else cp x dst (modify_idx (srng head (head + chunk)) idx dim)) ;;
      reflect_after_cp fuel' cache x' idx dim head length (curr + chunk) (negb flip)
    end
  else Ok x.
(** pad_1d.py:190-237 *)
Definition reflect_cp (fuel : nat) (x : T) (idx : list slice) (dim : nat) : res T :=
  ht <- head_tail idx dim ;;
  let '(head, tail) := ht in
  let length := tail - head in
  if length =? 1 then replicate_cp x idx dim
  else if length =? 2 then circular_cp fuel x idx dim
  else
    cache <- (if 2 <=? dimlen x dim / length
              then v <- tget x (modify_idx (srng (head + 1) (tail - 1)) idx dim) ;; Ok (Some (tflip dim v))
              else Ok None) ;;
    x <- reflect_before_cp fuel cache x idx dim tail length head true ;;
    reflect_after_cp fuel cache x idx dim head length tail true.
(** pad_1d.py:262-287 and 290-310: axes of length 1 are replicated, the others get new values. *)
Definition odd_reflect_cp (fuel : nat) (x : T) (idx : list slice) (dim : nat) : res T :=
  ht <- head_tail idx dim ;;
  let '(head, tail) := ht in
  if tail - head =? 1 then replicate_cp x idx dim else odd_reflect_1d fuel x idx dim.
Definition smooth_cp (neg : bool) (x : T) (idx : list slice) (dim : nat) : res T :=
  ht <- head_tail idx dim ;;
  let '(head, tail) := ht in
  if tail - head =? 1 then replicate_cp x idx dim else smooth_1d neg x idx dim.

(** generic_pad.py:160-183 *)
Definition pad_func_cp (fuel : nat) (neg : bool) (m : mode F) (cv ev : F * F) (sl : option Z * option Z)
  : res (T -> list slice -> nat -> res T) :=
  match m with
  | MReplicate => Ok replicate_cp
  | MSmooth => Ok (smooth_cp neg)
  | MCircular => Ok (circular_cp fuel)
  | MPeriodize => Ok (periodize_cp fuel)
  | MSymmetric => Ok (fun x idx dim => symmetric_cp fuel x idx dim false)
  | MReflect => Ok (reflect_cp fuel)
  | MAntisymmetric => Ok (fun x idx dim => symmetric_cp fuel x idx dim true)
  | MOddReflect => Ok (odd_reflect_cp fuel)
  | _ => pad_func_of fuel neg m cv ev sl
  end.
(** generic_pad.py:127-193 *)
Definition fill_value_cp (fuel : nat) (neg : bool) (p : padder F) (y : T) (i : Z) (axis : nat) (idx : idxval)
  : res (T * idxval) :=
  pw <- nds_get (p_width p) i ;;
  if (fst pw =? 0) && (snd pw =? 0) then Ok (y, idx)
  else
    m <- nds_get (p_mode p) i ;;
    match m with
    | MEmpty => Ok (y, idx)
    | MZeros => Ok (y, FunctionObject)
    | _ =>
      ps <- mode_params p m i ;;
      let '(cv, ev, sl) := ps in
      pf <- pad_func_cp fuel neg m cv ev sl ;;
      match idx with
      | FunctionObject => Err TypeError
      | Idx l =>
        y' <- pf y l axis ;;
        ht <- head_tail l axis ;;
        let '(head, tail) := ht in
        let new_tail := tail + snd pw + (if is_periodize m then (tail - head) mod 2 else 0) in
        Ok (y', Idx (modify_idx (srng (head - fst pw) new_tail) l axis))
      end
    end.
(** generic_pad.py:259-260 *)
Fixpoint fill_loop_cp (fuel : nat) (p : padder F) (y : T) (axes is : list Z) (idx : idxval) : res T :=
  match is with
  | [] => Ok y
  | i :: is' =>
    a <- pyidx axes i ;;
    pw <- nds_get (p_width p) i ;;
    if (fst pw =? 0) && (snd pw =? 0) then fill_loop_cp fuel p y axes is' idx
    else
      k <- axis_nat (ndim y) a ;;
      r <- fill_value_cp fuel (a <? 0) p y i k idx ;;
      fill_loop_cp fuel p (fst r) axes is' (snd r)
  end.
(** generic_pad.py:195-262; the copy of x into the new buffer is between different memories. *)
Definition padder_forward_cp (fuel : nat) (junk : list Z -> F) (p : padder F) (x : T) (axes : axes_arg) : res T :=
  _ <- assertb (Nat.ltb 0 (ndim x)) ;;
  axes <- check_axes (Z.of_nat (ndim x)) axes ;;
  match axes with
  | [] => Ok x
  | _ =>
    let len := Z.of_nat (length axes) in
    let np := if 0 <? p_ndim p then Z.min len (p_ndim p) else len in
    let z := repeat 0 (ndim x) in
    hp <- width_loop p (shp x) axes (neg_range np) z z ;;
    let '(head_vec, pad_after_vec) := hp in
    let tail_vec := map2 Z.add head_vec (shp x) in
    let new_shape := map2 Z.add tail_vec pad_after_vec in
    if list_eqb (shp x) new_shape then Ok x
    else
      let y := tempty new_shape junk in
      let idx := map2 srng head_vec tail_vec in
      y <- tset y idx x ;;
      fill_loop_cp fuel p y axes (neg_range np) (Idx idx)
  end.
(** generic_pad.py:264-320 *)
Definition pad_axis_cp (fuel : nat) (junk : list Z -> F) (p : padder F) (x : T) (i : Z) (axis : axes_arg) : res T :=
  axs <- check_axes (Z.of_nat (ndim x)) axis ;;
  match axs with
  | [a] =>
    pw <- nds_get (p_width p) i ;;
    if (fst pw =? 0) && (snd pw =? 0) then Ok x
    else
      k <- axis_nat (ndim x) a ;;
      let head := fst pw in
      let tail := head + dimlen x k in
      let length := tail + snd pw in
      let idx := make_idx (srng head tail) k (ndim x) in
      let y := tempty (upd k length (shp x)) junk in
      y <- tset y idx x ;;
      r <- fill_value_cp fuel (a <? 0) p y i k (Idx idx) ;;
      Ok (fst r)
  | _ => Err AssertionError
  end.
End Alias.
