(** PSNR in floating-point arithmetic: the call of PsnrModel.v with every operation rounded as in RoundModel.v; the two
    logarithms, too, have relative error at most e. *)
From Coq Require Import Reals.
From Verif Require Export RoundMetricModel PsnrModel.
Open Scope R_scope.

(** metrics/psnr.py:15-17 at one index: the MSE m gives the value v.  0 < s: otherwise torch.log10 gives -inf or nan. *)
Definition fl_psnr_at (e mx eps m v : R) : Prop :=
  exists s l lm u w : RF,
    (if R_leb eps 0 then s = m else rounds (F := RF) e (m + eps) s) /\ 0 < s /\
    rounds (F := RF) e (log10 s) l /\ rounds (F := RF) e (log10 mx) lm /\
    rounds (F := RF) e (20 * lm) u /\ rounds (F := RF) e (10 * l) w /\ rounds (F := RF) e (u - w) v.
(** metrics/psnr.py:14-17 [PSNR.forward]: y is a result the call may give. *)
Definition fl_psnr_forward (e mx eps : R) (r : reduction) (a b : tensor RF) (ax : axes_arg) (y : tensor RF) : Prop :=
  0 < mx /\ exists m, fl_mse_forward (F := RF) e r a b ax m /\ shp y = shp m /\
  forall j, valid (shp m) j -> fl_psnr_at e mx eps (at_ m j) (at_ y j).
