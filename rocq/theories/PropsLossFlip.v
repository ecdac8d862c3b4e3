(** C145: edge losses of mirrored, turned and transposed images.

    Vocabulary (EdgeLossGauss.v, PadFlip.v, EdgeFlip.v, AxisPerm.v):
    - [loss_args fuel ks sigma order n c h w]: kernel size, sigma and order as the constructor takes them, non-empty
      images of shape (n, c, h, w), enough fuel for the loops of the padder; [loss_value score ... x y v]: the loss
      of x and y is v; [edge_maps ... x d2 d3]: the edge components of x along height and width;
    - [flipped d x x']: x' is x read backwards along axis d; [flipped_times s d x x']: x' is s times that;
    - [permuted ren x x']: x' is x with its axis d renamed to ren d, a permutation ([renames]). *)
From Coq Require Import Reals Lra.
From Verif Require Import EdgeLossFlip PropsLoss.
Open Scope Z_scope.

(** Mirroring an image mirrors its edge maps; the one along the mirrored axis changes sign for odd orders. *)
Theorem C145_maps : forall fuel junk ks sigma order n c h w, loss_args fuel ks sigma order n c h w ->
  forall d (x x' d2 d3 e2 e3 : tensor RF), Z.odd ks = true -> shp x = [n; c; h; w] -> (d < 4)%nat -> flipped (F := RF) d x x' ->
  edge_maps fuel junk ks sigma order x d2 d3 -> edge_maps fuel junk ks sigma order x' e2 e3 ->
  flipped_times (F := RF) (if Nat.eqb d 2 then (-1) ^ Z.to_nat order else 1)%R d d2 e2 /\
  flipped_times (F := RF) (if Nat.eqb d 3 then (-1) ^ Z.to_nat order else 1)%R d d3 e3.
Proof. exact maps_flip. Qed.
Print Assumptions C145_maps.
(** GaussianEdgeLoss and WeightedSum of mirror images, along any axis. *)
Theorem C145_l1 : forall fuel junk ks sigma order n c h w, loss_args fuel ks sigma order n c h w -> Z.odd ks = true ->
  forall d (x y x' y' : tensor RF) v, shp x = [n; c; h; w] -> shp y = [n; c; h; w] -> (d < 4)%nat -> flipped (F := RF) d x x' -> flipped (F := RF) d y y' ->
  loss_value score_l1 fuel junk ks sigma order x y v -> loss_value score_l1 fuel junk ks sigma order x' y' v.
Proof. exact flip_l1. Qed.
Print Assumptions C145_l1.
Theorem C145_sum : forall fuel junk ks sigma order n c h w, loss_args fuel ks sigma order n c h w -> Z.odd ks = true ->
  forall d (x y x' y' : tensor RF) v, shp x = [n; c; h; w] -> shp y = [n; c; h; w] -> (d < 4)%nat -> flipped (F := RF) d x x' -> flipped (F := RF) d y y' ->
  loss_value score_sum fuel junk ks sigma order x y v -> loss_value score_sum fuel junk ks sigma order x' y' v.
Proof. exact flip_sum. Qed.
Print Assumptions C145_sum.
(** WeightedMul and WeightedDiv of mirror images, for even orders or along batch and channel axes. *)
Theorem C145_mul : forall fuel junk ks sigma order n c h w, loss_args fuel ks sigma order n c h w -> Z.odd ks = true ->
  forall d (x y x' y' : tensor RF) v, shp x = [n; c; h; w] -> shp y = [n; c; h; w] -> (d < 4)%nat -> flipped (F := RF) d x x' -> flipped (F := RF) d y y' ->
  (d < 2)%nat \/ Z.odd order = false ->
  loss_value score_mul fuel junk ks sigma order x y v -> loss_value score_mul fuel junk ks sigma order x' y' v.
Proof. exact flip_mul. Qed.
Print Assumptions C145_mul.
Theorem C145_div : forall fuel junk ks sigma order n c h w, loss_args fuel ks sigma order n c h w -> Z.odd ks = true ->
  forall d (x y x' y' : tensor RF) v, shp x = [n; c; h; w] -> shp y = [n; c; h; w] -> (d < 4)%nat -> flipped (F := RF) d x x' -> flipped (F := RF) d y y' ->
  (d < 2)%nat \/ Z.odd order = false ->
  loss_value score_div fuel junk ks sigma order x y v -> loss_value score_div fuel junk ks sigma order x' y' v.
Proof. exact flip_div. Qed.
Print Assumptions C145_div.
(** Turning both images by 180 degrees changes the sign of WeightedMul and WeightedDiv for odd orders. *)
Theorem C145_turned_mul : forall fuel junk ks sigma order n c h w, loss_args fuel ks sigma order n c h w -> Z.odd ks = true ->
  forall (x y x1 y1 x' y' : tensor RF) v, shp x = [n; c; h; w] -> shp y = [n; c; h; w] ->
  flipped (F := RF) 2 x x1 -> flipped (F := RF) 3 x1 x' -> flipped (F := RF) 2 y y1 -> flipped (F := RF) 3 y1 y' ->
  loss_value score_mul fuel junk ks sigma order x y v -> loss_value score_mul fuel junk ks sigma order x' y' ((-1) ^ Z.to_nat order * v)%R.
Proof. exact turn_mul. Qed.
Print Assumptions C145_turned_mul.
Theorem C145_turned_div : forall fuel junk ks sigma order n c h w, loss_args fuel ks sigma order n c h w -> Z.odd ks = true ->
  forall (x y x1 y1 x' y' : tensor RF) v, shp x = [n; c; h; w] -> shp y = [n; c; h; w] ->
  flipped (F := RF) 2 x x1 -> flipped (F := RF) 3 x1 x' -> flipped (F := RF) 2 y y1 -> flipped (F := RF) 3 y1 y' ->
  loss_value score_div fuel junk ks sigma order x y v -> loss_value score_div fuel junk ks sigma order x' y' ((-1) ^ Z.to_nat order * v)%R.
Proof. exact turn_div. Qed.
Print Assumptions C145_turned_div.
(** So WeightedMul is 0 for any two images that turning leaves unchanged. *)
Theorem C145_symmetric_mul : forall fuel junk ks sigma order n c h w (x y x1 y1 : tensor RF),
  loss_args fuel ks sigma order n c h w -> Z.odd ks = true -> Z.odd order = true -> shp x = [n; c; h; w] -> shp y = [n; c; h; w] ->
  flipped (F := RF) 2 x x1 -> flipped (F := RF) 3 x1 x -> flipped (F := RF) 2 y y1 -> flipped (F := RF) 3 y1 y ->
  loss_value score_mul fuel junk ks sigma order x y 0%R.
Proof. exact mul_symmetric. Qed.
Print Assumptions C145_symmetric_mul.
(** Exchanging height and width, or batch and channels, of both images changes no loss, for any kernel size. *)
Theorem C145_permuted_maps : forall fuel junk ks sigma order n c h w, loss_args fuel ks sigma order n c h w ->
  forall ren back, renames 4 ren back -> (ren 2 = 2 \/ ren 2 = 3)%nat /\ (ren 3 = 2 \/ ren 3 = 3)%nat ->
  forall x x' d2 d3 e2 e3 : tensor RF, shp x = [n; c; h; w] -> permuted (F := RF) ren x x' ->
  edge_maps fuel junk ks sigma order x d2 d3 -> edge_maps fuel junk ks sigma order x' e2 e3 ->
  permuted (F := RF) ren d2 (if Nat.eqb (ren 2%nat) 2 then e2 else e3) /\ permuted (F := RF) ren d3 (if Nat.eqb (ren 2%nat) 2 then e3 else e2).
Proof. exact maps_perm. Qed.
Print Assumptions C145_permuted_maps.
Theorem C145_permuted_l1 : forall fuel junk ks sigma order n c h w, loss_args fuel ks sigma order n c h w ->
  forall ren back, renames 4 ren back -> (ren 2 = 2 \/ ren 2 = 3)%nat /\ (ren 3 = 2 \/ ren 3 = 3)%nat ->
  forall (x y x' y' : tensor RF) v, shp x = [n; c; h; w] -> shp y = [n; c; h; w] -> permuted (F := RF) ren x x' -> permuted (F := RF) ren y y' ->
  loss_value score_l1 fuel junk ks sigma order x y v -> loss_value score_l1 fuel junk ks sigma order x' y' v.
Proof. exact perm_l1. Qed.
Print Assumptions C145_permuted_l1.
Theorem C145_permuted_sum : forall fuel junk ks sigma order n c h w, loss_args fuel ks sigma order n c h w ->
  forall ren back, renames 4 ren back -> (ren 2 = 2 \/ ren 2 = 3)%nat /\ (ren 3 = 2 \/ ren 3 = 3)%nat ->
  forall (x y x' y' : tensor RF) v, shp x = [n; c; h; w] -> shp y = [n; c; h; w] -> permuted (F := RF) ren x x' -> permuted (F := RF) ren y y' ->
  loss_value score_sum fuel junk ks sigma order x y v -> loss_value score_sum fuel junk ks sigma order x' y' v.
Proof. exact perm_sum. Qed.
Print Assumptions C145_permuted_sum.
Theorem C145_permuted_mul : forall fuel junk ks sigma order n c h w, loss_args fuel ks sigma order n c h w ->
  forall ren back, renames 4 ren back -> (ren 2 = 2 \/ ren 2 = 3)%nat /\ (ren 3 = 2 \/ ren 3 = 3)%nat ->
  forall (x y x' y' : tensor RF) v, shp x = [n; c; h; w] -> shp y = [n; c; h; w] -> permuted (F := RF) ren x x' -> permuted (F := RF) ren y y' ->
  loss_value score_mul fuel junk ks sigma order x y v -> loss_value score_mul fuel junk ks sigma order x' y' v.
Proof. exact perm_mul. Qed.
Print Assumptions C145_permuted_mul.
Theorem C145_permuted_div : forall fuel junk ks sigma order n c h w, loss_args fuel ks sigma order n c h w ->
  forall ren back, renames 4 ren back -> (ren 2 = 2 \/ ren 2 = 3)%nat /\ (ren 3 = 2 \/ ren 3 = 3)%nat ->
  forall (x y x' y' : tensor RF) v, shp x = [n; c; h; w] -> shp y = [n; c; h; w] -> permuted (F := RF) ren x x' -> permuted (F := RF) ren y y' ->
  loss_value score_div fuel junk ks sigma order x y v -> loss_value score_div fuel junk ks sigma order x' y' v.
Proof. exact perm_div. Qed.
Print Assumptions C145_permuted_div.

(** Rows 0 1 4 of a 3x3 image, its mirror image, its transpose; and a bright centre, which turning leaves unchanged. *)
Definition sq (f : Z -> Z -> R) : tensor RF := @mkT RF [1; 1; 3; 3] (fun i => f (nth 2 i 0) (nth 3 i 0)).
Definition swap23 (d : nat) : nat := match d with 2%nat => 3%nat | 3%nat => 2%nat | _ => d end.
Lemma sq_flip3 f g : (forall k l, g k l = f k (2 - l)) -> flipped (F := RF) 3 (sq f) (sq g).
Proof. intros H. split; [reflexivity|]. intros i V. apply valid4i in V as (a & b & k & l & -> & _). cbn. apply H. Qed.
Lemma sq_flip2 f g : (forall k l, g k l = f (2 - k) l) -> flipped (F := RF) 2 (sq f) (sq g).
Proof. intros H. split; [reflexivity|]. intros i V. apply valid4i in V as (a & b & k & l & -> & _). cbn. apply H. Qed.
Lemma sq_transpose f : permuted (F := RF) swap23 (sq f) (sq (fun k l => f l k)).
Proof. split; [reflexivity|]. split; [reflexivity|]. intros i V. apply valid4i in V as (a & b & k & l & -> & _). reflexivity. Qed.
Definition ramp (k l : Z) : R := IZR (l * l).
Definition centre (k l : Z) : R := IZR (4 - (k - 1) * (k - 1) - 2 * ((l - 1) * (l - 1))).
Example C145_example : loss_args 18 3 1 1 1 1 3 3 /\ Z.odd 3 = true /\ Z.odd 1 = true /\
  flipped (F := RF) 3 (sq ramp) (sq (fun k l => ramp k (2 - l))) /\
  renames 4 swap23 swap23 /\ permuted (F := RF) swap23 (sq ramp) (sq (fun k l => ramp l k)) /\
  flipped (F := RF) 2 (sq centre) (sq (fun k l => centre (2 - k) l)) /\ flipped (F := RF) 3 (sq (fun k l => centre (2 - k) l)) (sq centre) /\
  at_ (sq centre) [0; 0; 1; 1] <> at_ (sq centre) [0; 0; 0; 1] /\ at_ (sq centre) [0; 0; 0; 1] <> at_ (sq centre) [0; 0; 1; 0].
Proof.
  split; [apply small_args; try lia; lra|]. split; [reflexivity|]. split; [reflexivity|].
  split; [now apply sq_flip3|].
  split; [split; intros d Hd; destruct d as [|[|[|[|d]]]]; cbn; lia|].
  split; [apply sq_transpose|]. split; [now apply sq_flip2|].
  split; [apply sq_flip3; intros k l; unfold centre; f_equal; ring|].
  unfold sq, centre. cbn. split; lra.
Qed.
