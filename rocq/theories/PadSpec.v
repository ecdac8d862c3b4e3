(** Mathematical specification of the padding modes: the extension of a line
    f(0), ..., f(n-1) to all integers t.  Independent of the model. *)
From Verif Require Export Base.
From Coq Require Import Permutation Sorted.

Section PadSpec.
Context {F : ofield}.
Open Scope F_scope.
Implicit Types (n t : Z) (f : Z -> F).

(** c b a b c ... periodic *)
Definition ext_circular n f t : F := f (t mod n)%Z.

(** half-sample symmetric: period 2n, second half mirrored *)
Definition ext_symmetric n f t : F :=
  let m := (t mod (2 * n))%Z in if (m <? n)%Z then f m else f (2 * n - 1 - m)%Z.
Definition ext_antisymmetric n f t : F :=
  let m := (t mod (2 * n))%Z in if (m <? n)%Z then f m else - f (2 * n - 1 - m)%Z.

(** whole-sample symmetric: period 2n-2 *)
Definition ext_reflect n f t : F :=
  if (n =? 1)%Z then f 0%Z
  else let m := (t mod (2 * n - 2))%Z in if (m <? n)%Z then f m else f (2 * n - 2 - m)%Z.

(** point reflections about the two end samples / half samples *)
Definition ext_odd_reflect n f t : F :=
  if (n =? 1)%Z then f 0%Z
  else let p := (2 * n - 2)%Z in let m := (t mod p)%Z in
       (if (m <? n)%Z then f m else fofZ 2 * f (n - 1)%Z - f (p - m)%Z)
       + fofZ (t / p)%Z * (fofZ 2 * (f (n - 1)%Z - f 0%Z)).
Definition ext_odd_symmetric n f t : F :=
  let p := (2 * n)%Z in let m := (t mod p)%Z in
  (if (m <? n)%Z then f m else fofZ 2 * f (n - 1)%Z - f (p - 1 - m)%Z)
  + fofZ (t / p)%Z * (fofZ 2 * (f (n - 1)%Z - f 0%Z)).

Definition ext_replicate n f t : F := f (Z.max 0 (Z.min (n - 1) t)).

(** straight-line extrapolation from the last two samples *)
Definition ext_smooth n f t : F :=
  if (n =? 1)%Z then f 0%Z
  else if (t <? 0)%Z then f 0%Z + fofZ t * (f 1%Z - f 0%Z)
  else if (t <? n)%Z then f t
  else f (n - 1)%Z + fofZ (t - (n - 1))%Z * (f (n - 1)%Z - f (n - 2)%Z).

(** affine from the edge sample to the end value, pb (pa) steps away *)
Definition ext_linear_ramp (pb pa : Z) (b a : F) n f t : F :=
  if (t <? 0)%Z then f 0%Z + (fofZ (- t)%Z / fofZ pb) * (b - f 0%Z)
  else if (t <? n)%Z then f t
  else f (n - 1)%Z + (fofZ (t - (n - 1))%Z / fofZ pa) * (a - f (n - 1)%Z).

Definition ext_constant (b a : F) n f t : F :=
  if (t <? 0)%Z then b else if (t <? n)%Z then f t else a.

(** even out the length by repeating the last sample, then periodic *)
Definition ext_periodize n f t : F :=
  ext_circular (n + n mod 2)%Z (fun u => if (u <? n)%Z then f u else f (n - 1)%Z) t.

(** window statistics: [stat] of the first/last clip(w) samples (all when w is None) *)
Definition clip_window n (w : option Z) : Z :=
  match w with None => n | Some w => Z.min n (Z.max 1 w) end.
Definition ext_stat (stat : list F -> F) (wb wa : option Z) n f t : F :=
  if (t <? 0)%Z then stat (map f (zrange (clip_window n wb)))
  else if (t <? n)%Z then f t
  else let w := clip_window n wa in stat (map (fun k => f (n - w + k)%Z) (zrange w)).

(** What the four statistics mean, relationally. *)
Definition is_max (l : list F) (v : F) : Prop := In v l /\ forall e, In e l -> fleb e v = true.
Definition is_min (l : list F) (v : F) : Prop := In v l /\ forall e, In e l -> fleb v e = true.
Definition is_mean (l : list F) (v : F) : Prop :=
  v * fofZ (Z.of_nat (length l)) = fold_right fadd 0 l.
Definition is_lower_median (l : list F) (v : F) : Prop :=
  exists s, Permutation l s /\ Sorted (fun a b => fleb a b = true) s /\
            nth_error s ((length l - 1) / 2) = Some v.
End PadSpec.
