(** Model of torchimage/misc/polynomial.py, misc/power.py and random.py:random_crop. *)
From Verif Require Export ReduceModel.
Open Scope Z_scope.

Section Misc.
Context {F : ofield}.
Notation T := (tensor F).

(** misc/polynomial.py:32-38, the loop over the ascending weights; [n] = len(weight).
    [y.add_(xx, alpha=w)] adds w*xx to y (same shapes). *)
Fixpoint poly_loop (x xx : T) (y : option T) (i n : Z) (ws : list F) : res (option T) :=
  match ws with
  | [] => Ok y
  | w :: ws' =>
    y <- (if i =? 0 then Ok (Some (tmap (fmul w) xx))
          else match y with
               | None => Err AttributeError
               | Some y => y' <- tmap2 (fun a b => fadd a (fmul w b)) y xx ;; Ok (Some y')
               end) ;;
    xx <- (if i <? n - 1 then tmap2 fmul xx x else Ok xx) ;;
    poly_loop x xx y (i + 1) n ws'
  end.
(** misc/polynomial.py:4-40 [poly1d]: [p[-1]] of an empty tuple raises IndexError, [None += bias] TypeError. *)
Definition poly1d (x : T) (p : list F) : res T :=
  bias <- pyidx p (-1) ;;
  let weight := rev (removelast p) in
  y <- poly_loop x x None 0 (Z.of_nat (length weight)) weight ;;
  match y with
  | None => Err TypeError
  | Some y => Ok (tmap (fun v => fadd v bias) y)
  end.

(** An argument that is a number or a tensor (power.py:37-47); dtypes and devices are not modelled. *)
Inductive operand := Scalar (c : F) | Tens (t : T).
Definition as_tensor (o : operand) : T := match o with Scalar c => tscalar c | Tens t => t end.
(** [-v for v in l] *)
Definition neg_all (l : list F) : list F := map fopp l.
Definition is_zero (v : F) : bool := fleb v f0 && fleb f0 v.

(** misc/power.py:4-71 [safe_power].  [pow] is torch.pow on scalars; [frac e] is floor(e) != e.
    [x[mask] += epsilon] adds epsilon to the selected elements. *)
Definition safe_power (pow : F -> F -> F) (frac : F -> bool) (x exponent : operand) (epsilon : F) : res T :=
  let x := as_tensor x in
  let exponent := as_tensor exponent in
  let exp_fractional := tmap frac exponent in
  if negb (tany exp_fractional) then tmap2 pow x exponent else
  match bshape (shp x) (shp exponent) with
  | None => Err RuntimeError
  | Some s =>
    let x_lt_0 := texpand s (tmap (fun v => negb (fleb f0 v)) x) in
    let x_eq_0 := texpand s (tmap is_zero x) in
    let x := texpand s x in
    let exponent := texpand s exponent in
    let exp_fractional := texpand s exp_fractional in
    x <- (if negb (is_zero epsilon) then
            mask <- tmap2 andb x_eq_0 exp_fractional ;;
            if tany mask then tmap2 (fun (b : bool) v => if b then fadd v epsilon else v) mask x else Ok x
          else Ok x) ;;
    mask <- tmap2 andb x_lt_0 exp_fractional ;;
    if tany mask then
      x <- masked_scatter x mask (neg_all (tselect x mask)) ;;
      out <- tmap2 pow x exponent ;;
      masked_scatter out mask (neg_all (tselect out mask))
    else tmap2 pow x exponent
  end.

(** [torch.randint(n, size=()).item()], call number [i] of the generator [draw]: a RuntimeError unless n > 0. *)
Definition randint (draw : nat -> Z -> Z) (i : nat) (n : Z) : res Z :=
  if n <=? 0 then Err RuntimeError else Ok (draw i n).
(** random.py:11-17, the loop; [i] counts the axes, [c] the draws. *)
Fixpoint crop_loop (draw : nat -> Z -> Z) (x : T) (size : nds (option Z)) (axes : list Z) (i : Z) (c : nat) (idx : list slice)
  : res (list slice) :=
  match axes with
  | [] => Ok idx
  | a :: axes' =>
    length <- nds_get size i ;;
    match length with
    | None => crop_loop draw x size axes' (i + 1) c idx
    | Some length =>
      a <- axis_nat (ndim x) a ;;
      beg <- randint draw c (dimlen x a - length) ;;
      crop_loop draw x size axes' (i + 1) (S c) (upd a (srng beg (beg + length)) idx)
    end
  end.
(** random.py:7-18 [random_crop], after NdSpec parsing of size.  ([x[idx]] with a list of slices
    is read as a tuple.) *)
Definition random_crop (draw : nat -> Z -> Z) (x : T) (axes : axes_arg) (size : nds (option Z)) : res T :=
  axes <- check_axes (Z.of_nat (ndim x)) axes ;;
  idx <- crop_loop draw x size axes 0 0 (repeat sfull (ndim x)) ;;
  tget x idx.
End Misc.
Arguments operand F : clear implicits.
