(** Edge filters in floating-point arithmetic. The model of EdgeModel.v computes exactly; here every addition, subtraction
    and product of _conv_edge, and those of the smoothing (RoundModel.v), may be rounded. Overflow and underflow are left
    out: a rounding errs relatively, by at most e. *)
From Verif Require Export RoundModel.
Open Scope Z_scope.

Section REM.
Context {F : ofield}.
Notation T := (tensor F).
Variable trunc : F -> Z.

(** w is the tensor d, every element rounded. *)
Definition rounded (e : F) (d w : T) : Prop := shp w = shp d /\ forall j, valid (shp d) j -> rounds e (at_ d j) (at_ w j).
(** An elementwise operation of two tensors and one rounding. *)
Definition fl_map2 (e : F) (f : F -> F -> F) (u v w : T) : Prop := exists d, tmap2 f u v = Ok d /\ rounded e d w.

(** edges.py:57-69 [_conv_edge]: c is a result the call may give. [conv_edge] with a rounding after each operation: one for
    [x[2:] - x[:-2]] (62-63), one each for the sum, the double and the difference of
    [x[2:] + x[:-2] - 2 * x[1:-1]] (66-68); otherwise those of the pooling (69). *)
Definition fl_conv_edge (e : F) (fuel : nat) (junk : list Z -> F) (g : edge_filter F) (x : T) (edge_axis : Z) (c : T) : Prop :=
  let discrete_kernel := map trunc (ef_kernel g) in
  if zlist_eqb discrete_kernel [-1; 0; 1] then
    exists m xp hi lo, pool_pad fuel junk (ef_edge g) x (AxInt edge_axis) = (m, Ok xp) /\
      slice_axis xp (mkS (Some 2) None 1) edge_axis = Ok hi /\ slice_axis xp (mkS (Some 0) (Some (-2)) 1) edge_axis = Ok lo /\
      fl_map2 e fsub hi lo c
  else if zlist_eqb discrete_kernel [1; -2; 1] then
    exists m xp hi lo mid s t, pool_pad fuel junk (ef_edge g) x (AxInt edge_axis) = (m, Ok xp) /\
      slice_axis xp (mkS (Some 2) None 1) edge_axis = Ok hi /\ slice_axis xp (mkS (Some 0) (Some (-2)) 1) edge_axis = Ok lo /\
      fl_map2 e fadd hi lo s /\ slice_axis xp (mkS (Some 1) (Some (-1)) 1) edge_axis = Ok mid /\
      rounded e (tmap (fmul (fofZ 2)) mid) t /\ fl_map2 e fsub s t c
  else fl_forward e fuel junk (ef_edge g) x (AxInt edge_axis) c.

(** edges.py:74-87 [component]: y is a result the call may give. The smoothing filter is the one left by [_conv_edge]:
    its Padder may be shared. *)
Definition fl_component (e : F) (fuel : nat) (junk : list Z -> F) (g : edge_filter F) (x : T) (edge_axis smooth_axes : axes_arg) (y : T) : Prop :=
  exists a sa c, check_axes (Z.of_nat (ndim x)) edge_axis = Ok [a] /\ check_axes (Z.of_nat (ndim x)) smooth_axes = Ok sa /\
    fl_conv_edge e fuel junk g x a c /\
    fl_forward e fuel junk (ef_smooth (fst (conv_edge trunc fuel junk g x a))) c (AxSeq (filter (fun b => negb (b =? a)) sa)) y.

(** edges.py:125-128: [c ** p], rounded once. *)
Definition fl_powered (e : F) (p : exponent F) (c q : T) : Prop := match p with P1 => q = c | PGen pow _ => rounded e (tmap pow c) q end.
(** edges.py:118-128: the loop of [magnitude], [mag_loop] with a rounding after [c ** p] and after [+=]. The state that a
    component leaves depends on the shapes only, so it is the exact model's. *)
Fixpoint fl_mag_loop (e : F) (fuel : nat) (junk : list Z -> F) (g : edge_filter F) (x : T) (axes todo : list Z) (p : exponent F) (acc : option T) (y : T) : Prop :=
  match todo with
  | [] => acc = Some y
  | a :: todo' => exists c q m, fl_component e fuel junk g x (AxInt a) (AxSeq axes) c /\ fl_powered e p c q /\
      match acc with None => m = q | Some m0 => exists d, tiadd m0 q = Ok d /\ rounded e d m end /\
      let g' := fst (component trunc fuel junk g x (AxInt a) (AxSeq axes)) in
      fl_mag_loop e fuel junk g' (next_input g' axes p x m) axes todo' p (Some m) y
  end.
(** edges.py:108-136 [magnitude]: y is a result the call may give. *)
Definition fl_magnitude (e : F) (fuel : nat) (junk : list Z -> F) (g : edge_filter F) (x : T) (axes : axes_arg) (epsilon : F) (p : exponent F) (y : T) : Prop :=
  exists al m m1, check_axes (Z.of_nat (ndim x)) axes = Ok al /\ (2 <= length al)%nat /\
    fl_mag_loop e fuel junk g x al al p None m /\
    (if fleb epsilon f0 && fleb f0 epsilon then m1 = m else rounded e (tmap (fun v => fadd v epsilon) m) m1) /\
    match p with P1 => y = m1 | PGen _ root => rounded e (tmap root m1) y end.
(** edges.py:216-217 [Laplace.forward]. *)
Definition fl_laplace_forward (e : F) (fuel : nat) (junk : list Z -> F) (g : edge_filter F) (x : T) (axes : axes_arg) (y : T) : Prop :=
  fl_magnitude e fuel junk g x axes f0 P1 y.
End REM.
