(** Shared basics of the model: results (exceptions as values), list
    updates, ordered fields of scalars.  Nothing here is specific to
    torchimage. *)
From Coq Require Export ZArith List Lia Bool Field.
Export ListNotations.
Open Scope Z_scope.

(** Python exceptions that the modelled code (or the torch/numpy call it
    makes) can raise.  [OutOfFuel] is not an exception: it marks a loop
    that did not finish within the fuel supplied. *)
Inductive err :=
| ValueError | IndexError | TypeError | AssertionError | RuntimeError
| ZeroDivisionError | AttributeError | OutOfFuel.

Inductive res (A : Type) :=
| Ok (a : A)
| Err (e : err).
Arguments Ok {A} a.
Arguments Err {A} e.

Definition bind {A B} (x : res A) (f : A -> res B) : res B :=
  match x with Ok a => f a | Err e => Err e end.
Notation "x <- e ;; k" := (bind e (fun x => k))
  (at level 61, e at next level, right associativity).

(** [assert b]: Python's assert statement. *)
Definition assertb (b : bool) : res unit := if b then Ok tt else Err AssertionError.

Fixpoint mapM {A B} (f : A -> res B) (l : list A) : res (list B) :=
  match l with
  | [] => Ok []
  | a :: l' => b <- f a ;; bs <- mapM f l' ;; Ok (b :: bs)
  end.

(** Replace position [n] of a list (identity when out of range). *)
Fixpoint upd {A} (n : nat) (v : A) (l : list A) : list A :=
  match n, l with
  | _, [] => []
  | O, _ :: l' => v :: l'
  | S n', x :: l' => x :: upd n' v l'
  end.

Fixpoint map2 {A B C} (f : A -> B -> C) (l : list A) (m : list B) : list C :=
  match l, m with
  | a :: l', b :: m' => f a b :: map2 f l' m'
  | _, _ => []
  end.

Fixpoint all2 {A B} (p : A -> B -> bool) (l : list A) (m : list B) : bool :=
  match l, m with
  | [], [] => true
  | a :: l', b :: m' => p a b && all2 p l' m'
  | _, _ => false
  end.

(** Integers lo, lo+1, ..., lo+n-1. *)
Fixpoint zseq (lo : Z) (n : nat) : list Z :=
  match n with O => [] | S n' => lo :: zseq (lo + 1) n' end.
(** Python's range(n). *)
Definition zrange (n : Z) : list Z := zseq 0 (Z.to_nat n).

(** Python's list indexing: negative indices count from the end. *)
Definition pyidx {A} (l : list A) (i : Z) : res A :=
  let n := Z.of_nat (length l) in
  let k := if i <? 0 then i + n else i in
  if (0 <=? k) && (k <? n)
  then match nth_error l (Z.to_nat k) with Some a => Ok a | None => Err IndexError end
  else Err IndexError.

(** Scalars: an ordered field with decidable order. *)
Record ofield := mkOF {
  car :> Type;
  f0 : car; f1 : car;
  fadd : car -> car -> car;
  fmul : car -> car -> car;
  fsub : car -> car -> car;
  fopp : car -> car;
  fdiv : car -> car -> car;
  finv : car -> car;
  fleb : car -> car -> bool;
  f_field : field_theory f0 f1 fadd fmul fsub fopp fdiv finv eq;
  f_leb_refl : forall a, fleb a a = true;
  f_leb_antisym : forall a b, fleb a b = true -> fleb b a = true -> a = b;
  f_leb_trans : forall a b c, fleb a b = true -> fleb b c = true -> fleb a c = true;
  f_leb_total : forall a b, fleb a b = true \/ fleb b a = true;
  f_leb_add : forall a b c, fleb a b = true -> fleb (fadd a c) (fadd b c) = true;
  f_leb_mul : forall a b, fleb f0 a = true -> fleb f0 b = true -> fleb f0 (fmul a b) = true
}.
Arguments f0 {_}. Arguments f1 {_}. Arguments fadd {_}. Arguments fmul {_}.
Arguments fsub {_}. Arguments fopp {_}. Arguments fdiv {_}. Arguments finv {_}.
Arguments fleb {_}.

Declare Scope F_scope.
Delimit Scope F_scope with F.
Notation "a + b" := (fadd a b) : F_scope.
Notation "a * b" := (fmul a b) : F_scope.
Notation "a - b" := (fsub a b) : F_scope.
Notation "a / b" := (fdiv a b) : F_scope.
Notation "- a" := (fopp a) : F_scope.
Notation "a <=? b" := (fleb a b) : F_scope.
Notation "0" := f0 : F_scope.
Notation "1" := f1 : F_scope.

(** Injection of integers into the field (Python int -> float). *)
Fixpoint fofpos {F : ofield} (p : positive) : F :=
  match p with
  | xH => f1
  | xO q => fadd (fofpos q) (fofpos q)
  | xI q => fadd f1 (fadd (fofpos q) (fofpos q))
  end.
Definition fofZ {F : ofield} (z : Z) : F :=
  match z with Z0 => f0 | Zpos p => fofpos p | Zneg p => fopp (fofpos p) end.

(** Finite sums: sum of [f k] for 0 <= k < n. *)
Fixpoint fsumn {F : ofield} (n : nat) (f : Z -> F) : F :=
  match n with O => f0 | S n' => fadd (fsumn n' f) (f (Z.of_nat n')) end.
Definition fsum {F : ofield} (n : Z) (f : Z -> F) : F := fsumn (Z.to_nat n) f.
