(** Model of torchimage/metrics/psnr.py over the real numbers. *)
From Coq Require Import Reals.
From Verif Require Export MetricsModel RField.
Open Scope R_scope.

Definition log10 (v : R) : R := ln v / ln 10.
(** torch.log10; a zero or negative number gives -inf or nan, here a ValueError. *)
Definition tlog10 (t : tensor RF) : res (tensor RF) :=
  if tany (tmap (fun v : RF => R_leb v 0) t) then Err ValueError else Ok (tmap (A := RF) (B := RF) log10 t).
(** metrics/psnr.py:14-17 [PSNR.forward]. *)
Definition psnr_forward (max_value eps : R) (r : reduction) (y_pred y_true : tensor RF) (reduce_axes : axes_arg) : res (tensor RF) :=
  mse_score <- mse_forward r y_pred y_true reduce_axes ;;
  log_mse <- tlog10 (if R_leb eps 0 then mse_score else tmap (A := RF) (B := RF) (fun v => v + eps) mse_score) ;;
  if R_leb max_value 0 then Err ValueError
  else Ok (tmap (A := RF) (B := RF) (fun v => 20 * log10 max_value - 10 * v) log_mse).
