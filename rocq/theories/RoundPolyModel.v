(** Polynomials in floating-point arithmetic: every operation of misc/polynomial.py:26-40 may be rounded, with a relative error
    of at most e; overflow and underflow are left out. *)
From Verif Require Export MiscModel RoundEdgeModel.
Open Scope Z_scope.

Section RPM.
Context {F : ofield}.
Notation T := (tensor F).
(** polynomial.py:31-38, the loop over the ascending weights; z is a value that y may have at the end.  [w * xx], [xx * x] and the
    product and the sum of [y.add_(xx, alpha=w)] are rounded (a fused multiply-add is the case of an exact product). *)
Fixpoint fl_poly_loop (e : F) (x xx : T) (y : option T) (i n : Z) (ws : list F) (z : option T) : Prop :=
  match ws with
  | [] => z = y
  | w :: ws' => exists m y1 xx1, rounded e (tmap (fmul w) xx) m /\
    (if i =? 0 then y1 = m else exists y0, y = Some y0 /\ fl_map2 e fadd y0 m y1) /\
    (if i <? n - 1 then fl_map2 e fmul xx x xx1 else xx1 = xx) /\
    fl_poly_loop e x xx1 (Some y1) (i + 1) n ws' z
  end.
(** polynomial.py:26-40 [poly1d]: y is a result the call may give; [y += bias] is rounded. *)
Definition fl_poly1d (e : F) (x : T) (p : list F) (y : T) : Prop :=
  exists bias z, pyidx p (-1) = Ok bias /\
    let weight := rev (removelast p) in
    fl_poly_loop e x x None 0 (Z.of_nat (length weight)) weight (Some z) /\ rounded e (tmap (fun v => fadd v bias) z) y.
End RPM.
