(** Model of the torch tensor operations used by torchimage.

    A tensor is a shape and a function from index lists to elements; only
    the values at valid indices are observable.  Memory layout, strides,
    aliasing, dtypes, devices and autograd are not modelled.  Elements are
    exact (no rounding). *)
From Verif Require Export Base.

Record tensor (A : Type) := mkT { shp : list Z; at_ : list Z -> A }.
Arguments mkT {A} shp at_.
Arguments shp {A} _.
Arguments at_ {A} _ _.

(** Valid indices of a shape. *)
Definition valid (s i : list Z) : Prop := Forall2 (fun n k => 0 <= k < n) s i.

(** Observable equality. *)
Definition teq {A} (t u : tensor A) : Prop :=
  shp t = shp u /\ forall i, valid (shp t) i -> at_ t i = at_ u i.

Definition ndim {A} (t : tensor A) : nat := length (shp t).
(** [x.shape[d]] for a nonnegative axis number. *)
Definition dimlen {A} (t : tensor A) (d : nat) : Z := nth d (shp t) 0.

(** ** Slices: Python [slice(lo, hi, st)], st >= 1 (torch rejects others). *)
Record slice := mkS { s_lo : option Z; s_hi : option Z; s_st : Z }.
Definition sfull : slice := mkS None None 1.
Definition srng (lo hi : Z) : slice := mkS (Some lo) (Some hi) 1.
Definition sto (hi : Z) : slice := mkS None (Some hi) 1.
Definition sfrom (lo : Z) : slice := mkS (Some lo) None 1.

(** Python/torch clipping of a slice bound to [0, n]. *)
Definition clampi (n i : Z) : Z :=
  Z.max 0 (Z.min n (if i <? 0 then i + n else i)).

(** A slice resolved against a length: first position, count, step. *)
Record rsl := mkR { r_lo : Z; r_len : Z; r_st : Z }.
Definition resolve (n : Z) (s : slice) : rsl :=
  let lo := match s_lo s with None => 0 | Some i => clampi n i end in
  let hi := match s_hi s with None => n | Some i => clampi n i end in
  mkR lo (Z.max 0 ((hi - lo + s_st s - 1) / s_st s)) (s_st s).

Definition rpos (r : rsl) (k : Z) : Z := r_lo r + k * r_st r.
Definition rrel (r : rsl) (k : Z) : Z := (k - r_lo r) / r_st r.
Definition rinb (r : rsl) (k : Z) : bool :=
  (r_lo r <=? k) && (k <? r_lo r + r_len r * r_st r) && ((k - r_lo r) mod r_st r =? 0).

(** [x[sl]] with exactly one slice per axis. *)
Definition tget {A} (x : tensor A) (sl : list slice) : res (tensor A) :=
  if Nat.eqb (length sl) (length (shp x)) then
    let R := map2 resolve (shp x) sl in
    Ok (mkT (map r_len R) (fun i => at_ x (map2 rpos R i)))
  else Err IndexError.

(** ** Broadcasting. *)
Definition bdim (a b : Z) : option Z :=
  if a =? b then Some a else if a =? 1 then Some b else if b =? 1 then Some a else None.
Fixpoint bshape_rev (s t : list Z) : option (list Z) :=
  match s, t with
  | [], _ => Some t
  | _, [] => Some s
  | a :: s', b :: t' =>
      match bdim a b, bshape_rev s' t' with
      | Some c, Some u => Some (c :: u)
      | _, _ => None
      end
  end.
Definition bshape (s t : list Z) : option (list Z) :=
  match bshape_rev (rev s) (rev t) with Some u => Some (rev u) | None => None end.
(** Element of a tensor of shape [vs] used at position [i] of a broadcast. *)
Definition bidx (vs i : list Z) : list Z :=
  map2 (fun n k => if n =? 1 then 0 else k) vs (skipn (length i - length vs) i).
(** Can a tensor of shape [vs] be expanded to shape [ts]? *)
Definition expandable (vs ts : list Z) : bool :=
  Nat.leb (length vs) (length ts) &&
  all2 (fun a b => (a =? b) || (a =? 1)) vs (skipn (length ts - length vs) ts).

(** Elementwise operations. *)
Definition tmap {A B} (f : A -> B) (t : tensor A) : tensor B :=
  mkT (shp t) (fun i => f (at_ t i)).
Definition tmap2 {A B C} (f : A -> B -> C) (t : tensor A) (u : tensor B) : res (tensor C) :=
  match bshape (shp t) (shp u) with
  | Some s => Ok (mkT s (fun i => f (at_ t (bidx (shp t) i)) (at_ u (bidx (shp u) i))))
  | None => Err RuntimeError
  end.

(** [x[sl] = v] with broadcasting of [v]; the new content of [x] is
    returned.  (The model reads [v] before writing; torch's behaviour on
    overlapping views is not modelled.) *)
Definition tset {A} (x : tensor A) (sl : list slice) (v : tensor A) : res (tensor A) :=
  if Nat.eqb (length sl) (length (shp x)) then
    let R := map2 resolve (shp x) sl in
    if expandable (shp v) (map r_len R) then
      Ok (mkT (shp x) (fun j =>
            if all2 rinb R j then at_ v (bidx (shp v) (map2 rrel R j)) else at_ x j))
    else Err RuntimeError
  else Err IndexError.

(** 0-d tensor holding a scalar, for [x[sl] = c]. *)
Definition tscalar {A} (c : A) : tensor A := mkT [] (fun _ => c).

(** [t.flip([d])]. *)
Definition tflip {A} (d : nat) (t : tensor A) : tensor A :=
  mkT (shp t) (fun i => at_ t (upd d (nth d (shp t) 0 - 1 - nth d i 0) i)).

(** [torch.empty(shape)]: the content is whatever [junk] says. *)
Definition tempty {A} (s : list Z) (junk : list Z -> A) : tensor A := mkT s junk.
