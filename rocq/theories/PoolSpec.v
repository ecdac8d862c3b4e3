(** Specification of separable pooling: a plain correlation with the outer product of
    the per-axis kernels.  Independent of the loop of SeparablePoolNd.forward. *)
From Verif Require Export Tensor.

Section PoolSpec.
Context {F : ofield}.

(** Sum over all offsets o with 0 <= o_i < ns_i. *)
Fixpoint bsum (ns : list Z) (f : list Z -> F) : F :=
  match ns with
  | [] => f []
  | n :: ns' => fsum n (fun k => bsum ns' (fun o => f (k :: o)))
  end.

Definition klen (k : list F) : Z := Z.of_nat (length k).
(** Product of the kernel weights at offset o. *)
Fixpoint weight (kers : list (list F)) (o : list Z) : F :=
  match kers, o with
  | k :: kers', i :: o' => fmul (nth (Z.to_nat i) k f0) (weight kers' o')
  | _, _ => f1
  end.
(** Input position seen by output position j at offset o: coordinate j_a * s + o on every
    pooled axis a, j elsewhere. *)
Fixpoint place (al : list nat) (sts : list Z) (j o : list Z) : list Z :=
  match al, sts, o with
  | a :: al', s :: sts', k :: o' => upd a (nth a j 0 * s + k) (place al' sts' j o')
  | _, _, _ => j
  end.
(** Pooled axes of length n become (n - k) // s + 1. *)
Fixpoint pooled (al : list nat) (kers : list (list F)) (sts : list Z) (sh : list Z) : list Z :=
  match al, kers, sts with
  | a :: al', k :: kers', s :: sts' => pooled al' kers' sts' (upd a ((nth a sh 0 - klen k) / s + 1) sh)
  | _, _, _ => sh
  end.
Definition correlate (al : list nat) (kers : list (list F)) (sts : list Z) (x : tensor F) : tensor F :=
  mkT (pooled al kers sts (shp x))
      (fun j => bsum (map klen kers) (fun o => fmul (weight kers o) (at_ x (place al sts j o)))).

(** An empty kernel means that the axis is left alone: kernel [1], stride 1. *)
Definition eff_kernel (k : list F) : list F := match k with [] => [f1] | _ => k end.
Definition eff_stride (k : list F) (s : Z) : Z := match k with [] => 1 | _ => s end.
End PoolSpec.
