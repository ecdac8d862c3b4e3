(** C149: how far rounding can take poly1d from the exact polynomial.

    Vocabulary (RoundPolyModel.v; PropsMisc.v):
    - [fl_poly1d e x p y]: y is a result that poly1d may give in floating-point arithmetic: every product and sum, and the running
      powers of x, may be rounded, with a relative error of at most e;
    - [polynomial p v]: the value at v of the polynomial with coefficients p, highest exponent first. *)
From Coq Require Import QArith Qcanon.
From Verif Require Import ExampleUtil RoundPoly.
Open Scope Z_scope.

(** Every result that rounding allows is that near to the exact one; the exact call succeeds whenever a rounded one does. *)
Theorem C149_bound : forall (F : ofield) e (x y' : tensor F) p, fle f0 e -> fl_poly1d e x p y' -> exists y, poly1d x p = Ok y /\ shp y' = shp y /\
  forall j, valid (shp y) j -> fle (fabs (fsub (at_ y' j) (at_ y j))) (fmul (fsub (fpow (fadd f1 e) (length p + 1)) f1) (polynomial F (map fabs p) (fabs (at_ x j)))).
Proof. exact poly_rounding. Qed.
Print Assumptions C149_bound.
(** Without negative coefficients and pixels the error is relative. *)
Theorem C149_relative : forall (F : ofield) e (x y' : tensor F) p, fle f0 e -> fl_poly1d e x p y' -> (forall c, In c p -> fle f0 c) -> (forall j, valid (shp x) j -> fle f0 (at_ x j)) ->
  exists y, poly1d x p = Ok y /\ shp y' = shp y /\ forall j, valid (shp y) j -> fle (fabs (fsub (at_ y' j) (at_ y j))) (fmul (fsub (fpow (fadd f1 e) (length p + 1)) f1) (at_ y j)).
Proof. exact poly_rounding_relative. Qed.
Print Assumptions C149_relative.
(** The bound cannot be lowered, for any number of coefficients above two: a x^n may come out as (1 + e)^(n + 2) a x^n. *)
Theorem C149_sharp : forall (F : ofield) e (x : tensor F) a n, fle f0 e -> (2 <= n)%nat -> exists y y', poly1d x (a :: repeat f0 n) = Ok y /\ fl_poly1d e x (a :: repeat f0 n) y' /\
  shp y = shp x /\ forall j, valid (shp x) j -> at_ y j = fmul a (fpow (at_ x j) n) /\ at_ y' j = fmul (fpow (fadd f1 e) (length (a :: repeat f0 n) + 1)) (at_ y j).
Proof. exact poly_sharp. Qed.
Print Assumptions C149_sharp.
(** The exact result is one of the possible ones. *)
Theorem C149_exact : forall (F : ofield) e (x y : tensor F) p, fle f0 e -> poly1d x p = Ok y -> fl_poly1d e x p y.
Proof. exact poly_exact. Qed.
Print Assumptions C149_exact.

(** 2 x^3 - x^2 + 3 x + 7 with a tenth of relative error: at -2 the bound is ((11/10)^5 - 1) 33; 3 x^2 at 2 may be (11/10)^4 12. *)
Example C149_example : fle f0 (qq 1 10) /\
  (exists y, fl_poly1d (qq 1 10) (ofz [2; 2] [0; 1; -2; 5]) (map qz [2; -1; 3; 7]) y /\ show (Ok y) = Some ([2; 2], zq [7; 11; -19; 247])) /\
  this (fmul (fsub (fpow (fadd f1 (qq 1 10)) 5) f1) (polynomial QcF (map fabs (map qz [2; -1; 3; 7])) (fabs (qz (-2))))) = (2014683 # 100000)%Q /\
  (exists y', fl_poly1d (qq 1 10) (ofz [2] [2; 1]) (qz 3 :: repeat f0 2) y' /\ this (at_ y' [0]) = (43923 # 2500)%Q).
Proof.
  split; [vm_compute; reflexivity|]. split; [|split; [vm_compute; reflexivity|]].
  - destruct (poly1d_ok QcF (ofz [2; 2] [0; 1; -2; 5]) (map qz [2; -1; 3; 7])) as [y [E _]]; [cbn; lia|].
    exists y. split; [apply poly_exact; [vm_compute; reflexivity|exact E]|]. rewrite <- E. vm_compute. reflexivity.
  - destruct (C149_sharp QcF (qq 1 10) (ofz [2] [2; 1]) (qz 3) 2) as [y [y' [_ [H [_ V]]]]]; [vm_compute; reflexivity|lia|].
    exists y'. split; [exact H|]. destruct (V [0]) as [V1 V2]; [vm_compute; repeat constructor; discriminate|]. rewrite V2, V1. vm_compute. reflexivity.
Qed.
