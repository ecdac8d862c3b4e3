(** MSE in floating-point arithmetic: the calls of MetricsModel.v with every operation rounded as in RoundModel.v. *)
From Verif Require Export RoundModel MetricsModel.
Open Scope Z_scope.

Section RMM.
Context {F : ofield}.
Notation T := (tensor F).

(** Like [fl_sum], and 0 for no summands. *)
Definition fl_total {A} (e : F) (p : A -> F) (l : list A) (v : F) : Prop := l = [] /\ v = f0 \/ fl_sum e p l v.
(** metrics/mse.py:7-8: difference and square. *)
Definition fl_mse_full (e : F) (a b d : T) : Prop :=
  shp d = shp a /\ forall i, valid (shp a) i -> exists u, rounds e (fsub (at_ a i) (at_ b i)) u /\ rounds e (fmul u u) (at_ d i).
(** [x.sum(dim=axes)], metrics/base.py:62-64; the axes as in [tsum]. *)
Definition fl_tsum (e : F) (x : T) (axes : list Z) (y : T) : Prop :=
  exists al, mapM (axis_nat (ndim x)) (match axes with [] => zrange (Z.of_nat (ndim x)) | _ => axes end) = Ok al /\ NoDup al /\
  shp y = kept al (shp x) /\ forall j, valid (shp y) j -> fl_total e (at_ x) (block (shp x) al j) (at_ y j).
(** [x.mean(dim=axes)], metrics/base.py:58-60: the sum over the number n of summands, by a division or a multiplication by
    1/n. *)
Definition fl_tmean (e : F) (x : T) (axes : list Z) (y : T) : Prop :=
  exists al s, mapM (axis_nat (ndim x)) (match axes with [] => zrange (Z.of_nat (ndim x)) | _ => axes end) = Ok al /\
  fl_tsum e x axes s /\ shp y = shp s /\
  let n := zprod (map (fun a => nth a (shp x) 0) al) in n <> 0 /\
  forall j, valid (shp y) j -> exists r, rounds e (fdiv f1 (fofZ n)) r /\ rounds e (fmul (at_ s j) r) (at_ y j).
(** metrics/base.py:38-46 *)
Definition fl_reduce (e : F) (r : reduction) (x : T) (axes : list Z) (y : T) : Prop :=
  match r with RMean => fl_tmean e x axes y | RSum => fl_tsum e x axes y | RNone => y = x | ROther => False end.
(** metrics/base.py:48-56 with metrics/mse.py: y is a result the call may give. *)
Definition fl_mse_forward (e : F) (r : reduction) (a b : T) (ax : axes_arg) (y : T) : Prop :=
  shp a = shp b /\ exists axes d, check_axes (Z.of_nat (ndim a)) ax = Ok axes /\ fl_mse_full e a b d /\ fl_reduce e r d axes y.
End RMM.
