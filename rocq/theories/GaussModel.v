(** Model of torchimage/pooling/gaussian.py and of GaussianGrad and LaplacianOfGaussian
    (filtering/edges.py:166-182, 221-233).  Scalars are the real numbers. *)
From Coq Require Import Reals.
From Verif Require Export EdgeModel RField.
Open Scope Z_scope.

(** [np.arange(a, b)] for integers. *)
Definition np_arange (a b : Z) : list Z := zseq a (Z.to_nat (b - a)).
(** [np.diag(v, k)]: the matrix with v on its k-th diagonal. *)
Definition np_diag (v : list R) (k : Z) : tensor R :=
  let n := Z.of_nat (length v) + Z.abs k in
  mkT [n; n] (fun i => let r := nth 0 i 0 in let c := nth 1 i 0 in
    if c - r =? k then nth (Z.to_nat (Z.min r c)) v 0%R else 0%R).
(** [M.dot(q)] of a matrix and a vector. *)
Definition np_dot (M : tensor R) (q : list R) : res (list R) :=
  match shp M with
  | [r; c] =>
    if c =? Z.of_nat (length q)
    then Ok (map (fun i => rsum c (fun j => (at_ M [i; j] * nth (Z.to_nat j) q 0)%R)) (zrange r))
    else Err ValueError
  | _ => Err ValueError
  end.
(** [v.sum()] *)
Definition np_sum (v : list R) : R := fold_right Rplus 0%R v.
(** [for _ in range(n): q = f(q)] *)
Fixpoint repeatM {A} (n : nat) (f : A -> res A) (q : A) : res A :=
  match n with O => Ok q | S n' => q' <- f q ;; repeatM n' f q' end.

(** gaussian.py:9-40 [_gaussian_kernel1d].  [sigma] a Python float: dividing by sigma2 = 0 raises.
    Integer powers are exact (numpy's int64 may overflow). *)
Definition gaussian_kernel1d (sigma : R) (order radius : Z) : res (list R) :=
  if order <? 0 then Err ValueError else
  let exponent_range := np_arange 0 (order + 1) in
  let sigma2 := (sigma * sigma)%R in
  let x := np_arange (- radius) (radius + 1) in
  if Req_EM_T sigma2 0 then Err ZeroDivisionError else
  let phi_x := map (fun v => exp (- (1 / 2) / sigma2 * IZR (v ^ 2))%R) x in
  let s := np_sum phi_x in
  let phi_x := map (fun v => v / s)%R phi_x in
  if order =? 0 then Ok phi_x else
  let q := upd 0 1%R (repeat 0%R (Z.to_nat (order + 1))) in
  let D := np_diag (map IZR (skipn 1 exponent_range)) 1 in
  let P := np_diag (map (fun v => v / - sigma2)%R (repeat 1%R (Z.to_nat order))) (-1) in
  Q_deriv <- tmap2 Rplus D P ;;
  q <- repeatM (Z.to_nat order) (np_dot Q_deriv) q ;;
  let powers := mkT [Z.of_nat (length x); Z.of_nat (length exponent_range)]
    (fun i => IZR (nth (Z.to_nat (nth 0 i 0)) x 0 ^ nth (Z.to_nat (nth 1 i 0)) exponent_range 0)) in
  q <- np_dot powers q ;;
  Ok (map2 Rmult q phi_x).

(** gaussian.py:43-88 [gaussian_kernel_1d].  ([kernel /= kernel.sum()] on a nonempty prefix of positive
    numbers never divides by zero.) *)
Definition gaussian_kernel_1d (kernel_size : Z) (sigma : R) (order : Z) : res (list R) :=
  kernel <- gaussian_kernel1d sigma order (kernel_size / 2) ;;
  let kernel := rev kernel in
  if Z.of_nat (length kernel) =? kernel_size then Ok kernel
  else
    let kernel := firstn (Z.to_nat (clampi (Z.of_nat (length kernel)) kernel_size)) kernel in
    if order =? 0 then let s := np_sum kernel in Ok (map (fun v => v / s)%R kernel) else Ok kernel.

(** gaussian.py:107-128 [GaussianPoolNd.__init__], after NdSpec parsing of the arguments. *)
Definition gauss_init (kernel_size : nds Z) (sigma : nds R) (order : nds Z) (stride : nds (option Z))
    (same_padder : option (padder RF)) : res (pool RF) :=
  kernel <- nds_apply3 gaussian_kernel_1d kernel_size sigma order ;;
  sep_init (F := RF) kernel stride same_padder.

(** [int(k)] for the kernels of an EdgeFilter over the reals: [Rtrunc]. *)

(** edges.py:167-182 [GaussianGrad.__init__]. *)
Definition gg_init (kernel_size : nds Z) (sigma : nds R) (edge_kernel_size : option Z) (edge_sigma : option R)
    (normalize : bool) (edge_order : Z) (same_padder : option (padder RF)) (shared : bool) : res (edge_filter RF) :=
  smooth <- nds_apply2 (fun ks s => gaussian_kernel_1d ks s 0) kernel_size sigma ;;
  eks <- match edge_kernel_size with
         | Some k => Ok k
         | None => match kernel_size with NItem k => Ok k | NList _ => Err AssertionError end
         end ;;
  es <- match edge_sigma with
        | Some s => Ok s
        | None => match sigma with NItem s => Ok s | NList _ => Err AssertionError end
        end ;;
  edge <- gaussian_kernel_1d eks es edge_order ;;
  edge_init (F := RF) (NItem edge) smooth normalize same_padder shared.

(** edges.py:221-233 [LaplacianOfGaussian]. *)
Definition log_init (kernel_size : nds Z) (sigma : nds R) (same_padder : option (padder RF)) (shared : bool)
  : res (edge_filter RF) := gg_init kernel_size sigma None None true 2 same_padder shared.
Definition log_forward (fuel : nat) (junk : list Z -> R) (e : edge_filter RF) (x : tensor RF) (axes : axes_arg) :=
  magnitude (F := RF) Rtrunc fuel junk e x axes 0%R P1.
