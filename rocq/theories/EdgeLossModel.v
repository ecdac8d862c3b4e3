(** Model of torchimage/contrib/edge_loss.py. *)
From Coq Require Import Reals.
From Verif Require Export EdgeModel IndexOps ReduceModel MetricsModel GaussModel.
Open Scope Z_scope.

Section EdgeLoss.
Context {F : ofield}.
Notation T := (tensor F).
Variable trunc : F -> Z.

(** edge_loss.py:12-13 [_get_edge_tensor]; gg is the module's edge filter, whose padders keep their
    last pad_width. *)
Definition edge_tensor (fuel : nat) (junk : list Z -> F) (gg : edge_filter F) (y : T) : edge_filter F * res T :=
  let '(gg, r) := all_components trunc fuel junk gg y (AxSeq [2; 3]) in
  (gg, l <- r ;; tcat 1 l).
(** edge_loss.py:16-19, 24-26, 31-33, 38-40: both edge tensors, then a score. *)
Definition edge_loss (score : T -> T -> res T) (fuel : nat) (junk : list Z -> F) (gg : edge_filter F) (y_pred y_true : T)
  : edge_filter F * res T :=
  let '(gg, p) := edge_tensor fuel junk gg y_pred in
  match p with
  | Err er => (gg, Err er)
  | Ok edge_pred =>
    let '(gg, t) := edge_tensor fuel junk gg y_true in
    (gg, edge_true <- t ;; score edge_pred edge_true)
  end.
(** edge_loss.py:10, 19: nn.L1Loss with its default reduction, the mean of |input - target|. *)
Definition score_l1 (edge_pred edge_true : T) : res T :=
  d <- tmap2 fsub edge_pred edge_true ;; tmean (tmap fabs d) [] false.
(** edge_loss.py:26 *)
Definition score_mul (edge_pred edge_true : T) : res T :=
  d <- tmap2 fsub edge_true edge_pred ;;
  q <- tmap2 fmul (tmap fabs d) edge_true ;;
  tmean q [] false.
(** edge_loss.py:33; a zero divisor gives inf or nan, here a ZeroDivisionError ([tdiv]). *)
Definition score_div (edge_pred edge_true : T) : res T :=
  d <- tmap2 fsub edge_true edge_pred ;;
  q <- tdiv (tmap fabs d) edge_true ;;
  tmean q [] false.
(** edge_loss.py:40 *)
Definition score_sum (edge_pred edge_true : T) : res T :=
  t <- tmean (tmap fabs edge_true) [2; 3] false ;;
  p <- tmean (tmap fabs edge_pred) [2; 3] false ;;
  d <- tmap2 fsub t p ;;
  tmean (tmap fabs d) [] false.
End EdgeLoss.

(** Padder(mode="reflect") (generic_pad.py:37), as built from the string "reflect" (base.py:67-68). *)
Definition reflect_padder : res (padder RF) :=
  padder_init (F := RF) (NItem (0, 0)) (NItem MReflect) (NItem (0%R, 0%R)) (NItem (0%R, 0%R)) (NItem (None, None)).
(** edge_loss.py:7-10 [GaussianEdgeLoss.__init__]; the two filters of GaussianGrad build a Padder each
    (edges.py:54-55). *)
Definition edge_loss_init (kernel_size : nds Z) (sigma : nds R) (order : Z) : res (edge_filter RF) :=
  p <- reflect_padder ;; gg_init kernel_size sigma None None true order (Some p) false.
