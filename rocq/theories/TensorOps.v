(** More torch operations: unfold, matrix-vector product, view/reshape. *)
From Verif Require Export Tensor.

(** Number of elements of a shape. *)
Definition zprod (s : list Z) : Z := fold_right Z.mul 1 s.

(** [x.unfold(d, size, step)] for a nonnegative axis: windows of axis d are
    appended as a new last axis.  torch raises RuntimeError when the size exceeds
    the axis length or the step is not positive. *)
Definition tunfold {A} (d : nat) (size step : Z) (t : tensor A) : res (tensor A) :=
  if (0 <? step) && (0 <=? size) && (size <=? dimlen t d) then
    Ok (mkT (upd d ((dimlen t d - size) / step + 1) (shp t) ++ [size])
            (fun i => at_ t (upd d (nth d i 0 * step + nth (ndim t) i 0) (firstn (ndim t) i))))
  else Err RuntimeError.

(** [t @ w] for a vector w and a tensor t of at least two axes: contraction of the last axis. *)
Definition tmatvec {F : ofield} (t : tensor F) (w : list F) : res (tensor F) :=
  let n := Z.of_nat (length w) in
  if last (shp t) 0 =? n then
    Ok (mkT (removelast (shp t)) (fun i => fsum n (fun k => fmul (at_ t (i ++ [k])) (nth (Z.to_nat k) w f0))))
  else Err RuntimeError.

(** Row-major position of an index and its inverse. *)
Fixpoint ravel (s i : list Z) : Z :=
  match s, i with
  | _ :: s', k :: i' => k * zprod s' + ravel s' i'
  | _, _ => 0
  end.
Fixpoint unravel (s : list Z) (k : Z) : list Z :=
  match s with
  | [] => []
  | _ :: s' => (k / zprod s') :: unravel s' (k mod zprod s')
  end.

(** The target shape of view/reshape: at most one -1, which is inferred. *)
Definition infer_shape (numel : Z) (s : list Z) : res (list Z) :=
  let known := zprod (filter (fun n => negb (n =? -1)) s) in
  if negb (forallb (fun n => -1 <=? n) s) then Err RuntimeError
  else match filter (fun n => n =? -1) s with
  | [] => if known =? numel then Ok s else Err RuntimeError
  | [_] =>
    if known =? 0 then Err RuntimeError
    else if numel mod known =? 0
    then Ok (map (fun n => if n =? -1 then numel / known else n) s)
    else Err RuntimeError
  | _ => Err RuntimeError
  end.
(** [t.view(s)] / [t.reshape(s)] (contiguity requirements of view are not modelled). *)
Definition treshape {A} (t : tensor A) (s : list Z) : res (tensor A) :=
  s' <- infer_shape (zprod (shp t)) s ;;
  Ok (mkT s' (fun i => at_ t (unravel (shp t) (ravel s' i)))).
