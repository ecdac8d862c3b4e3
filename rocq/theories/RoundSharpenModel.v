(** Unsharp masking in floating-point arithmetic: every operation of the blur (RoundModel.v) and of filtering/sharpen.py:43-49
    may be rounded, with a relative error of at most e; overflow and underflow are left out. *)
From Verif Require Export RoundEdgeModel.
Open Scope Z_scope.

Section RSM.
Context {F : ofield}.
Notation T := (tensor F).
(** sharpen.py:43-49 [forward] with a separable blur: y is a result the call may give. [x - blurred], [amount * y] and
    [x + …] are rounded; the comparison with the threshold is exact, but on the rounded difference. *)
Definition fl_unsharp (e : F) (fuel : nat) (junk : list Z -> F) (u : unsharp F) (x : T) (axes : axes_arg) (y : T) : Prop :=
  exists al b d m, check_axes (Z.of_nat (ndim x)) axes = Ok al /\ um_kind u = BSep /\
    fl_forward e fuel junk (um_blur u) x (AxSeq al) b /\ fl_map2 e fsub x b d /\
    let t := um_threshold u in
    let h := if fleb t f0 then d else tmap (fun v => if fleb t (fabs v) then v else f0) d in
    rounded e (tmap (fmul (um_amount u)) h) m /\ fl_map2 e fadd x m y.
End RSM.
