(** C91: horizontal and vertical edges (filtering/edges.py).

    Vocabulary (EdgeHV.v; PropsEdge.v):
    - [copying m]: m is circular, symmetric, reflect or replicate; [spot m n t]: the coordinate such a mode
      copies from at offset t of an axis of length n (C01, C02, C04, C07);
    - [hv_call trunc fuel ker s s' normalize p m shared e x ax k]: e is an EdgeFilter with the (exactly
      applied) edge kernel ker, the smoothing kernel s (s' after normalisation) and a padder p of copying mode m;
      x is an image with at least two axes, the last two not empty, and enough fuel;
    - [constant_along a x]: x does not change along axis a;
    - [transposed x x']: x' is x with the last two axes exchanged. *)
From Coq Require Import QArith Qcanon.
From Verif Require Import EdgeExample PropsEdge EdgeHV.
Open Scope Z_scope.

(** ** C91 *)
(** horizontal: ker along the rows axis -2, smoothing along axis -1. *)
Theorem C91_horizontal : forall (F : ofield) (trunc : F -> Z) fuel junk ker s s' normalize p m shared (e : edge_filter F) (x : tensor F) ax k,
  hv_call F trunc fuel ker s s' normalize p m shared e x ax k ->
  exists y, snd (horizontal trunc fuel junk e x) = Ok y /\ shp y = shp x /\
    forall j, valid (shp x) j -> let a := (ndim x - 2)%nat in let b := (ndim x - 1)%nat in at_ y j =
      fsum (klen ker) (fun q => fsum (klen s) (fun r => fmul (fmul (nth (Z.to_nat q) ker f0) (nth (Z.to_nat r) s' f0))
        (at_ x (upd a (spot m (nth a (shp x) 0) (nth a j 0 + q - klen ker / 2))
               (upd b (spot m (nth b (shp x) 0) (nth b j 0 + r - klen s / 2)) j))))).
Proof. exact horizontal_ok. Qed.
Print Assumptions C91_horizontal.
Theorem C91_vertical : forall (F : ofield) (trunc : F -> Z) fuel junk ker s s' normalize p m shared (e : edge_filter F) (x : tensor F) ax k,
  hv_call F trunc fuel ker s s' normalize p m shared e x ax k ->
  exists y, snd (vertical trunc fuel junk e x) = Ok y /\ shp y = shp x /\
    forall j, valid (shp x) j -> let a := (ndim x - 2)%nat in let b := (ndim x - 1)%nat in at_ y j =
      fsum (klen ker) (fun q => fsum (klen s) (fun r => fmul (fmul (nth (Z.to_nat q) ker f0) (nth (Z.to_nat r) s' f0))
        (at_ x (upd b (spot m (nth b (shp x) 0) (nth b j 0 + q - klen ker / 2))
               (upd a (spot m (nth a (shp x) 0) (nth a j 0 + r - klen s / 2)) j))))).
Proof. exact vertical_ok. Qed.
Print Assumptions C91_vertical.
(** With a kernel of sum 0, horizontal does not see vertical stripes and vertical not horizontal ones. *)
Theorem C91_vertical_stripes : forall (F : ofield) (trunc : F -> Z) fuel junk ker s s' normalize p m shared (e : edge_filter F) (x : tensor F) ax k,
  hv_call F trunc fuel ker s s' normalize p m shared e x ax k -> wsum ker = f0 -> constant_along F (ndim x - 2) x ->
  exists y, snd (horizontal trunc fuel junk e x) = Ok y /\ shp y = shp x /\ forall j, valid (shp x) j -> at_ y j = f0.
Proof. exact horizontal_zero. Qed.
Print Assumptions C91_vertical_stripes.
Theorem C91_horizontal_stripes : forall (F : ofield) (trunc : F -> Z) fuel junk ker s s' normalize p m shared (e : edge_filter F) (x : tensor F) ax k,
  hv_call F trunc fuel ker s s' normalize p m shared e x ax k -> wsum ker = f0 -> constant_along F (ndim x - 1) x ->
  exists y, snd (vertical trunc fuel junk e x) = Ok y /\ shp y = shp x /\ forall j, valid (shp x) j -> at_ y j = f0.
Proof. exact vertical_zero. Qed.
Print Assumptions C91_horizontal_stripes.
(** The vertical edges of the transposed image are the transposed horizontal edges. *)
Theorem C91_transposed : forall (F : ofield) (trunc : F -> Z) fuel junk ker s s' normalize p m shared (e : edge_filter F) (x x' : tensor F) ax ax' k,
  hv_call F trunc fuel ker s s' normalize p m shared e x ax k -> hv_call F trunc fuel ker s s' normalize p m shared e x' ax' k -> transposed F x x' ->
  exists y y', snd (horizontal trunc fuel junk e x) = Ok y /\ snd (vertical trunc fuel junk e x') = Ok y' /\ transposed F y y'.
Proof. exact hv_transposed. Qed.
Print Assumptions C91_transposed.
Theorem C91_errors : forall (F : ofield) (trunc : F -> Z) fuel junk (e : edge_filter F) (x : tensor F) ea sx,
  (forall l, check_axes (Z.of_nat (ndim x)) ea = Ok l -> length l <> 1%nat -> component trunc fuel junk e x ea sx = (e, Err ValueError)) /\
  (forall er, check_axes (Z.of_nat (ndim x)) ea = Err er -> component trunc fuel junk e x ea sx = (e, Err er)) /\
  (forall a er, check_axes (Z.of_nat (ndim x)) ea = Ok [a] -> check_axes (Z.of_nat (ndim x)) sx = Err er -> component trunc fuel junk e x ea sx = (e, Err er)).
Proof. exact component_errors. Qed.
Print Assumptions C91_errors.

Definition hstripes := ofz [3; 4] [1; 1; 1; 1; 5; 5; 5; 5; 9; 9; 9; 9].
Definition x34' := ofz [4; 3] [1; 3; 20; 2; 5; 30; 4; 9; 50; 8; 10; 51].
Lemma hv_of x : shp x = [3; 4] \/ shp x = [4; 3] ->
  hv_call QcF qtrunc 16 (ints [-1; 0; 1]) (ints [1; 2; 1]) (ints [1; 2; 1]) false repl MReplicate false (edge_of (ints [-1; 0; 1]) (ints [1; 2; 1]) (Some repl)) x AxNone 3.
Proof.
  intros Sx. assert (N : ndim x = 2%nat) by (unfold ndim; destruct Sx as [->| ->]; reflexivity).
  assert (P : forall d, (d < ndim x)%nat -> 3 <= nth d (shp x) 0 <= 4) by (intros d Hd; rewrite N in Hd; destruct Sx as [->| ->]; destruct d as [|[|d]]; cbn; lia).
  assert (A : forall a, In a [(ndim x - 2)%nat; (ndim x - 1)%nat] -> (a < ndim x)%nat) by (intros a [<-|[<-|[]]]; lia).
  split; [apply qtrunc_ok|right; left; reflexivity|unfold copying; auto|reflexivity|discriminate|discriminate|reflexivity|lia| |unfold klen; cbn; lia|unfold klen; cbn; lia].
  split.
  - split; [rewrite N; reflexivity|exact A|rewrite N; repeat constructor; cbn; intuition lia].
  - intros d Hd. specialize (P d Hd). lia.
  - intros a Ha. specialize (P a (A a Ha)). lia.
  - split; [reflexivity|]. split; [eexists; reflexivity|]. split; eexists; reflexivity.
  - exact I.
  - intros d Hd. specialize (P d Hd). lia.
Qed.
Example C91_example :
  let e := edge_of (ints [-1; 0; 1]) (ints [1; 2; 1]) (Some repl) in
  hv_call QcF qtrunc 16 (ints [-1; 0; 1]) (ints [1; 2; 1]) (ints [1; 2; 1]) false repl MReplicate false e x34 AxNone 3 /\
  hv_call QcF qtrunc 16 (ints [-1; 0; 1]) (ints [1; 2; 1]) (ints [1; 2; 1]) false repl MReplicate false e x34' AxNone 3 /\
  transposed QcF x34 x34' /\
  hv_call QcF qtrunc 16 (ints [-1; 0; 1]) (ints [1; 2; 1]) (ints [1; 2; 1]) false repl MReplicate false e hstripes AxNone 3 /\
  constant_along QcF 1 hstripes /\ wsum (ints [-1; 0; 1] : list QcF) = f0 /\
  show (snd (horizontal qtrunc 16 garbage e hstripes)) = Some ([3; 4], zq [16; 16; 16; 16; 32; 32; 32; 32; 16; 16; 16; 16]) /\
  show (snd (vertical qtrunc 16 garbage e x34')) = Some ([4; 3], zq [9; 85; 76; 13; 121; 108; 15; 163; 148; 11; 175; 164]).
Proof.
  cbv zeta. split; [apply hv_of; auto|]. split; [apply hv_of; auto|]. split.
  { exists [], 3, 4. split; [reflexivity|]. split; [reflexivity|]. intros b i j V.
    pose proof (valid_length _ _ V) as L. rewrite app_length in L. cbn in L. destruct b; [|cbn in L; lia]. cbn [app] in *.
    inversion V as [|? ? ? ? Hi V2]; subst. inversion V2 as [|? ? ? ? Hj _]; subst.
    assert (Ci : i = 0 \/ i = 1 \/ i = 2) by lia. assert (Cj : j = 0 \/ j = 1 \/ j = 2 \/ j = 3) by lia.
    destruct Ci as [->|[->| ->]]; destruct Cj as [->|[->|[->| ->]]]; reflexivity. }
  split; [apply hv_of; auto|]. split.
  { intros j t V Ht. change (nth 1 (shp hstripes) 0) with 4 in Ht.
    inversion V as [|? i ? c Hi V2]; subst. inversion V2 as [|? k ? c' Hk V3]; subst. inversion V3; subst. cbn [upd].
    assert (Ci : i = 0 \/ i = 1 \/ i = 2) by lia. assert (Cj : k = 0 \/ k = 1 \/ k = 2 \/ k = 3) by lia. assert (Ct : t = 0 \/ t = 1 \/ t = 2 \/ t = 3) by lia.
    destruct Ci as [->|[->| ->]]; destruct Cj as [->|[->|[->| ->]]]; destruct Ct as [->|[->|[->| ->]]]; reflexivity. }
  split; [apply Qc_is_canon; reflexivity|]. split; vm_compute; reflexivity.
Qed.
