(** Model of torchimage/misc/stats.py. *)
From Verif Require Export ReduceModel.
Open Scope Z_scope.

Section Stats.
Context {F : ofield}.
(** The square root used by [torch.std]. *)
Variable root : F -> F.

(** The elements of a tensor in row-major order. *)
Definition elems (x : tensor F) : list F := map (at_ x) (tindices (shp x)).
(** [torch.var] (unbiased): the sum of the squared deviations from the mean over n - 1; nan (here
    [None]) for a single element. *)
Definition lvar (l : list F) : option F :=
  let n := Z.of_nat (length l) in
  if n =? 1 then None
  else Some (fdiv (lsum (map (fun v => let d := fsub v (lmean l) in fmul d d) l)) (fofZ (n - 1))).
(** [torch.quantile(l, p/q)] with linear interpolation: the sorted elements are read at the position
    rank = p/q * (n-1), between the elements at its floor and its ceiling. *)
Definition quantile (p q : Z) (l : list F) : F :=
  let s := lsort l in
  let rank := p * (Z.of_nat (length l) - 1) in
  let below := nth (Z.to_nat (rank / q)) s f0 in
  let above := nth (Z.to_nat (- ((- rank) / q))) s f0 in
  fadd below (fmul (fdiv (fofZ (rank mod q)) (fofZ q)) (fsub above below)).

Record description := mkDesc {
  d_mean : F; d_std : option F; d_min : F; d_25 : F; d_50 : F; d_75 : F; d_max : F
}.
(** stats.py:4-31 [describe].  Of an empty tensor [x.min()] raises a RuntimeError (the mean and the
    standard deviation, computed before, are nan).  torch.quantile's limit of 2^24 elements and its
    restriction to floating-point dtypes are not modelled. *)
Definition describe (x : tensor F) : res description :=
  let l := elems x in
  match l with
  | [] => Err RuntimeError
  | _ => Ok (mkDesc (lmean l) (option_map root (lvar l)) (lmin l)
               (quantile 1 4 l) (quantile 1 2 l) (quantile 3 4 l) (lmax l))
  end.
End Stats.
Arguments description F : clear implicits.
