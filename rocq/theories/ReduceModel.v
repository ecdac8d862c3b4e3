(** torch operations that look at a whole tensor: any, masked selection, sum and mean. *)
From Verif Require Export PadModel TensorOps.
Open Scope Z_scope.

(** All valid indices, in row-major order. *)
Fixpoint tindices (s : list Z) : list (list Z) :=
  match s with
  | [] => [[]]
  | n :: r => flat_map (fun k => map (cons k) (tindices r)) (zrange n)
  end.
Definition ieqb (i j : list Z) : bool := if list_eq_dec Z.eq_dec i j then true else false.

(** [m.any()] *)
Definition tany (m : tensor bool) : bool := existsb (at_ m) (tindices (shp m)).
(** [torch.broadcast_tensors(t, u)], first component: t expanded to the common shape s. *)
Definition texpand {A} (s : list Z) (t : tensor A) : tensor A := mkT s (fun i => at_ t (bidx (shp t) i)).
(** [t[m]] for a boolean mask of the same shape: the selected elements in row-major order. *)
Definition tselect {A} (t : tensor A) (m : tensor bool) : list A := map (at_ t) (filter (at_ m) (tindices (shp m))).
(** [t.masked_scatter(m, src)]: the k-th selected position receives the k-th element of src;
    a RuntimeError if src is too short. *)
Fixpoint assoc {A} (i : list Z) (l : list (list Z * A)) (d : A) : A :=
  match l with [] => d | (j, a) :: l' => if ieqb i j then a else assoc i l' d end.
Definition masked_scatter {A} (t : tensor A) (m : tensor bool) (src : list A) : res (tensor A) :=
  let ps := filter (at_ m) (tindices (shp m)) in
  if Nat.ltb (length src) (length ps) then Err RuntimeError
  else Ok (mkT (shp t) (fun i => if at_ m i then assoc i (combine ps src) (at_ t i) else at_ t i)).

(** The coordinates of i on the axes not in al. *)
Fixpoint kept_from (d : nat) (al : list nat) (i : list Z) : list Z :=
  match i with
  | [] => []
  | k :: i' => if existsb (Nat.eqb d) al then kept_from (S d) al i' else k :: kept_from (S d) al i'
  end.
Definition kept (al : list nat) (i : list Z) : list Z := kept_from 0 al i.
(** The indices of shape s whose kept coordinates are j. *)
Definition block (s : list Z) (al : list nat) (j : list Z) : list (list Z) :=
  filter (fun i => ieqb (kept al i) j) (tindices s).
(** The shape with the axes al replaced by 1. *)
Definition ones_at (al : list nat) (s : list Z) : list Z := fold_right (fun a s => upd a 1 s) s al.

Section Reduce.
Context {F : ofield}.
Notation T := (tensor F).

(** [x.sum(dim=axes, keepdim=keepdim)].  As in torch, no axes at all means every axis, an axis out of
    range is an IndexError and a repeated axis a RuntimeError. *)
Definition tsum (x : T) (axes : list Z) (keepdim : bool) : res T :=
  al <- mapM (axis_nat (ndim x)) (match axes with [] => zrange (Z.of_nat (ndim x)) | _ => axes end) ;;
  if negb (Nat.eqb (length (nodup Nat.eq_dec al)) (length al)) then Err RuntimeError else
  Ok (mkT (if keepdim then ones_at al (shp x) else kept al (shp x))
    (fun j => lsum (map (at_ x) (block (shp x) al (if keepdim then kept al j else j))))).
(** [x.mean(dim=axes, keepdim=keepdim)]: the sum over the number of summands; nan for an empty block,
    here a ZeroDivisionError. *)
Definition tmean (x : T) (axes : list Z) (keepdim : bool) : res T :=
  al <- mapM (axis_nat (ndim x)) (match axes with [] => zrange (Z.of_nat (ndim x)) | _ => axes end) ;;
  let n := zprod (map (fun a => nth a (shp x) 0) al) in
  y <- tsum x axes keepdim ;;
  if (n =? 0) && negb (zprod (shp y) =? 0) then Err ZeroDivisionError else
  Ok (tmap (fun v => fdiv v (fofZ n)) y).
End Reduce.
