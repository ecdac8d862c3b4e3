(** Separable pooling in floating-point arithmetic. The model of PoolModel.v computes exactly; here every product and
    every addition of the contraction [x @ kernel] (pooling/base.py:228) may be rounded, in any order, and so may
    the kernel's entries. Overflow and underflow are left out: a rounding errs relatively, by at most e. *)
From Coq Require Import Sorting.Permutation.
From Verif Require Export FieldLemmas PoolModel EdgeModel.
Open Scope Z_scope.

Section RM.
Context {F : ofield}.
Notation T := (tensor F).

(** v' is v rounded. *)
Definition rounds (e v v' : F) : Prop := fle (fabs (fsub v' v)) (fmul e (fabs v)).

(** v is what adding up p(o) for the o in the list may give: any order, any bracketing, each addition rounded. *)
Inductive fl_sum {A} (e : F) (p : A -> F) : list A -> F -> Prop :=
| fl_one o : fl_sum e p [o] (p o)
| fl_add l m n u v w : fl_sum e p l u -> fl_sum e p m v -> Permutation n (l ++ m) -> rounds e (fadd u v) w -> fl_sum e p n w.

(** The dot product of k and f(0), f(1), …; an exact product stands for a fused multiply-add. *)
Definition fl_dot (e : F) (k : list F) (f : Z -> F) (v : F) : Prop :=
  exists k' p, (forall o, 0 <= o < Z.of_nat (length k) -> rounds e (nth (Z.to_nat o) k f0) (k' o) /\ rounds e (fmul (f o) (k' o)) (p o)) /\
  fl_sum e p (zrange (Z.of_nat (length k))) v.

(** pooling/base.py:228: the contraction of the windows u with the kernel. *)
Definition fl_matvec (e : F) (u : T) (k : list F) (y : T) : Prop :=
  last (shp u) 0 = Z.of_nat (length k) /\ shp y = removelast (shp u) /\
  forall j, valid (shp y) j -> fl_dot e k (fun o => at_ u (j ++ [o])) (at_ y j).

(** pooling/base.py:222-228: the loop over the axes, [pool_loop] with [fl_matvec] for [tmatvec]. *)
Fixpoint fl_loop (e : F) (m : pool F) (x : T) (i : Z) (axes : list Z) (y : T) : Prop :=
  match axes with
  | [] => y = x
  | a :: axes' => exists ks, nds_get (pl_size m) i = Ok ks /\
    if ks =? 0 then fl_loop e m x (i + 1) axes' y
    else exists s a' u k x', nds_get (pl_stride m) i = Ok s /\ axis_nat (ndim x) a = Ok a' /\ tunfold a' ks s x = Ok u /\
      nds_get (pl_kernel m) i = Ok k /\ fl_matvec e u k x' /\ fl_loop e m x' (i + 1) axes' y
  end.

(** pooling/base.py:191-228 [SeparablePoolNd.forward]: y is a result the call may give. The padding is that of the exact
    model, which is right for modes without arithmetic. *)
Definition fl_forward (e : F) (fuel : nat) (junk : list Z -> F) (m : pool F) (x : T) (axes : axes_arg) (y : T) : Prop :=
  exists al m' xp, check_axes (Z.of_nat (ndim x)) axes = Ok al /\
    (pl_ndim m = 0 \/ pl_ndim m = Z.of_nat (length al)) /\
    pool_pad fuel junk m x (AxSeq al) = (m', Ok xp) /\ fl_loop e m' xp 0 al y.
End RM.
