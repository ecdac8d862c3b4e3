(** SSIM (metrics/ssim.py) in floating-point arithmetic, as RoundModel.v: a rounding errs relatively, by at most e. Doubling is
    exact. *)
From Verif Require Export RoundEdgeModel RoundMetricModel MetricsModel.
Open Scope Z_scope.

Section RSM.
Context {F : ofield}.
Notation T := (tensor F).

(** metrics/ssim.py:111-115: a (co)variance s, multiplied by the factor f unless that is 1; f' is the factor the program has. *)
Definition fl_scaled (e f f' s t : F) : Prop := f = f1 /\ t = s \/ f <> f1 /\ rounds e (fmul s f') t.
(** metrics/ssim.py:103-115, 122-124 at one pixel, from the blurred images m1, m2 and the blurred products b11, b22, b12.
    Where the rounded denominator is 0 nothing is said of the value; C153 is about calls where it is not. *)
Definition fl_ssim_at (e K1 K2 f m1 m2 b11 b22 b12 v : F) : Prop :=
  exists C1 C2 f' q1 q2 q12 s1 s2 s12 t1 t2 t12 n1 n2 a1 d1 a2 d2 n d,
    rounds e (fmul K1 K1) C1 /\ rounds e (fmul K2 K2) C2 /\ rounds e f f' /\
    (rounds e (fmul m1 m1) q1 /\ rounds e (fmul m2 m2) q2 /\ rounds e (fmul m1 m2) q12) /\
    (rounds e (fsub b11 q1) s1 /\ rounds e (fsub b22 q2) s2 /\ rounds e (fsub b12 q12) s12) /\
    (fl_scaled e f f' s1 t1 /\ fl_scaled e f f' s2 t2 /\ fl_scaled e f f' s12 t12) /\
    rounds e (fadd (fmul two q12) C1) n1 /\ rounds e (fadd (fmul two t12) C2) n2 /\
    (rounds e (fadd q1 q2) a1 /\ rounds e (fadd a1 C1) d1) /\ (rounds e (fadd t1 t2) a2 /\ rounds e (fadd a2 C2) d2) /\
    rounds e (fmul n1 n2) n /\ rounds e (fmul d1 d2) d /\ (d <> f0 -> rounds e (fdiv n d) v).
(** metrics/ssim.py:99-124 [_mu_sigma] and [_ssim_full]: w is a result the call may give. Each blur starts from the object as it was
    before the call; what the earlier blurs left behind, padding widths, is overwritten. *)
Definition fl_ssim_full (e : F) (fuel : nat) (junk : list Z -> F) (s : ssim F) (y1 y2 : T) (axes : list Z) (w : T) : Prop :=
  exists f mu1 mu2 y11 y22 y12 b11 b22 b12, scale_factor s axes = Ok f /\
    fl_forward e fuel junk (ss_blur s) y1 (AxSeq axes) mu1 /\ fl_forward e fuel junk (ss_blur s) y2 (AxSeq axes) mu2 /\
    fl_map2 e fmul y1 y1 y11 /\ fl_map2 e fmul y2 y2 y22 /\ fl_map2 e fmul y1 y2 y12 /\
    fl_forward e fuel junk (ss_blur s) y11 (AxSeq axes) b11 /\ fl_forward e fuel junk (ss_blur s) y22 (AxSeq axes) b22 /\
    fl_forward e fuel junk (ss_blur s) y12 (AxSeq axes) b12 /\
    shp w = shp mu1 /\ forall j, valid (shp w) j ->
      fl_ssim_at e (ss_K1 s) (ss_K2 s) f (at_ mu1 j) (at_ mu2 j) (at_ b11 j) (at_ b22 j) (at_ b12 j) (at_ w j).
(** metrics/ssim.py:126-138, 176-186 [forward]: the map, and the mean of the cropped map. The padding widths that are cropped are
    those a blur leaves behind. *)
Definition fl_ssim_forward (e : F) (fuel : nat) (junk : list Z -> F) (s : ssim F) (y1 y2 : T) (cax rax : axes_arg) (score full : T) : Prop :=
  shp y1 = shp y2 /\ exists ca ra c, check_axes (Z.of_nat (ndim y1)) cax = Ok ca /\ check_axes (Z.of_nat (ndim y1)) rax = Ok ra /\
    fl_ssim_full e fuel junk s y1 y2 ca full /\
    snd (crop_border full ca (set_blur s (fst (sep_forward fuel junk (ss_blur s) y1 (AxSeq ca))))) = Ok c /\ fl_tmean e c ra score.
End RSM.
