(** C64, C66, C67: poly1d, safe_power, random_crop.

    Vocabulary (MiscProofs.v, PoolForward.v):
    - [fpow v n] = v^n; [polynomial p v] = sum over i of p[len(p)-1-i] * v^i;
    - [operand]: a number or a tensor, [as_tensor] makes a 0-dimensional tensor of a number;
    - [on_axes x ax al]: the axes argument denotes the distinct axes al of x;
    - [expand n spec]: the n items of an NdSpec (one item stands for all). *)
From Coq Require Import QArith Qcanon.
From Verif Require Import MiscProofs ExampleUtil.
Open Scope Z_scope.

Ltac ex_on := split; [vm_compute; reflexivity | apply all_lt; vm_compute; reflexivity | repeat constructor; cbn; intuition lia].

(** ** C64: at least two coefficients. *)
Theorem C64_poly1d_partial : forall (F : ofield) (x : tensor F) p, (2 <= length p)%nat ->
  exists y, poly1d x p = Ok y /\ shp y = shp x /\ forall j, valid (shp x) j -> at_ y j = polynomial F p (at_ x j).
Proof. exact poly1d_ok. Qed.
Print Assumptions C64_poly1d_partial.
(** A constant polynomial is a TypeError. *)
Theorem C64_constant : forall (F : ofield) (x : tensor F) c, poly1d x [c] = Err TypeError.
Proof. exact poly1d_constant. Qed.
Print Assumptions C64_constant.
Theorem C64_poly1d_refuted : exists (F : ofield) (x : tensor F) p, p <> [] /\
  ~ exists y, poly1d x p = Ok y /\ shp y = shp x /\ forall j, valid (shp x) j -> at_ y j = polynomial F p (at_ x j).
Proof. exact poly1d_fails. Qed.
Print Assumptions C64_poly1d_refuted.
Theorem C64_empty : forall (F : ofield) (x : tensor F), poly1d x [] = Err IndexError.
Proof. exact poly1d_empty. Qed.
Print Assumptions C64_empty.
Example C64_example : show (poly1d (ofz [2; 2] [0; 1; -2; 5]) (map qz [2; -1; 3; 7])) = Some ([2; 2], zq [7; 11; -19; 247]) /\
  this (polynomial QcF (map qz [2; -1; 3; 7]) (qz 5)) = (247 # 1)%Q.
Proof. split; vm_compute; reflexivity. Qed.

(** ** C66: elementwise, whatever the other elements are.  [pow] is torch.pow on two numbers, [frac e]
    says that e has a fractional part; v and w are the base and exponent at the position.  (For
    epsilon = 0 too.) *)
Theorem C66_safe_power : forall (F : ofield) (pow : F -> F -> F) (frac : F -> bool) (x e : operand F) eps s,
  bshape (shp (as_tensor x)) (shp (as_tensor e)) = Some s ->
  exists y, safe_power pow frac x e eps = Ok y /\ shp y = s /\
    forall i, valid s i -> forall v w,
      v = at_ (as_tensor x) (bidx (shp (as_tensor x)) i) -> w = at_ (as_tensor e) (bidx (shp (as_tensor e)) i) ->
      (frac w = false -> at_ y i = pow v w) /\ (flt f0 v -> at_ y i = pow v w) /\
      (flt v f0 -> frac w = true -> at_ y i = fopp (pow (fopp v) w)) /\
      (v = f0 -> frac w = true -> at_ y i = pow eps w).
Proof. exact safe_power_ok. Qed.
Print Assumptions C66_safe_power.
Theorem C66_shape_error : forall (F : ofield) (pow : F -> F -> F) (frac : F -> bool) (x e : operand F) eps,
  bshape (shp (as_tensor x)) (shp (as_tensor e)) = None -> safe_power pow frac x e eps = Err RuntimeError.
Proof. exact safe_power_error. Qed.
Print Assumptions C66_shape_error.
(** Here pow v e stands for 100 v + e, to show where it is applied; halves are fractional. *)
Definition pow_ex (v e : QcF) : QcF := fadd (fmul (qz 100) v) e.
Definition frac_ex (e : QcF) : bool := negb (Pos.eqb (Qden (this e)) 1).
Example C66_example :
  bshape [3] [2; 1] = Some [2; 3] /\
  show (safe_power pow_ex frac_ex (Tens (ofz [3] [-3; 0; 2])) (Tens (ofl [2; 1] [qz 2; qq 1 2])) (qz 7)) =
    Some ([2; 3], [-298 # 1; 2 # 1; 202 # 1; -601 # 2; 1401 # 2; 401 # 2]%Q) /\
  show (safe_power pow_ex frac_ex (Scalar (qz (-3))) (Scalar (qz 3)) (qz 7)) = Some ([], [-297 # 1]%Q) /\
  bshape [3] [2] = None.
Proof. repeat split; vm_compute; reflexivity. Qed.

(** ** C67: sizes below the axis lengths, any random draw. *)
Theorem C67_block_partial : forall (F : ofield) draw (x : tensor F) ax al size ls,
  on_axes x ax al -> (forall n, In n (shp x) -> 0 <= n) -> expand (length al) size = Some ls ->
  (forall r l, (r < length al)%nat -> nth r ls None = Some l -> 0 <= l < nth (nth r al 0%nat) (shp x) 0) ->
  (forall c n, 0 < n -> 0 <= draw c n < n) ->
  exists y offs, random_crop draw x ax size = Ok y /\ ndim y = ndim x /\ length offs = ndim x /\
    (forall r l, (r < length al)%nat -> nth r ls None = Some l ->
       nth (nth r al 0%nat) (shp y) 0 = l /\ 0 <= nth (nth r al 0%nat) offs 0 < nth (nth r al 0%nat) (shp x) 0 - l) /\
    (forall d, (d < ndim x)%nat -> (forall r, (r < length al)%nat -> nth r al 0%nat = d -> nth r ls None = None) ->
       nth d (shp y) 0 = nth d (shp x) 0 /\ nth d offs 0 = 0) /\
    forall j, valid (shp y) j -> at_ y j = at_ x (map2 Z.add offs j).
Proof. exact crop_block. Qed.
Print Assumptions C67_block_partial.
(** All offsets below n - l are reachable ... *)
Theorem C67_reachable_partial : forall (F : ofield) (x : tensor F) ax al size ls os,
  on_axes x ax al -> (forall n, In n (shp x) -> 0 <= n) -> expand (length al) size = Some ls -> length os = length al ->
  (forall r l, (r < length al)%nat -> nth r ls None = Some l -> 0 <= l /\ 0 <= nth r os 0 < nth (nth r al 0%nat) (shp x) 0 - l) ->
  exists draw, (forall c n, 0 < n -> 0 <= draw c n < n) /\
  exists y offs, random_crop draw x ax size = Ok y /\ length offs = ndim x /\
    (forall r l, (r < length al)%nat -> nth r ls None = Some l -> nth (nth r al 0%nat) (shp y) 0 = l /\ nth (nth r al 0%nat) offs 0 = nth r os 0) /\
    forall j, valid (shp y) j -> at_ y j = at_ x (map2 Z.add offs j).
Proof. exact crop_reach. Qed.
Print Assumptions C67_reachable_partial.
(** ... but the last one, n - l, never is, ... *)
Theorem C67_last_offset_refuted : exists (F : ofield) (x : tensor F) l o, shp x = [l + o] /\ 0 <= l /\ 0 <= o /\
  forall draw, (forall c n, 0 < n -> 0 <= draw c n < n) ->
  exists y, random_crop draw x AxNone (NItem (Some l)) = Ok y /\ at_ y [0] <> at_ x [o].
Proof. exact last_offset. Qed.
Print Assumptions C67_last_offset_refuted.
(** ... and the full size is an error. *)
Theorem C67_full_size_refuted : exists (F : ofield) (x : tensor F) n, 0 < n /\ shp x = [n] /\
  forall draw, ~ exists y, random_crop draw x AxNone (NItem (Some n)) = Ok y.
Proof. exact full_size. Qed.
Print Assumptions C67_full_size_refuted.
Theorem C67_too_large : forall (F : ofield) draw (x : tensor F) ax al size ls,
  on_axes x ax al -> expand (length al) size = Some ls ->
  (exists r l, (r < length al)%nat /\ nth r ls None = Some l /\ nth (nth r al 0%nat) (shp x) 0 <= l) ->
  random_crop draw x ax size = Err RuntimeError.
Proof. exact crop_too_large. Qed.
Print Assumptions C67_too_large.
Example C67_example :
  on_axes (ofz [2; 3; 4] []) (AxSeq [2; -3]) [2; 0]%nat /\ expand 2 (NList [Some 2; None]) = Some [Some 2; None] /\
  show (random_crop (fun _ n => n - 1) (ofz [2; 4] [1; 2; 3; 4; 5; 6; 7; 8]) (AxInt (-1)) (NItem (Some 2))) = Some ([2; 2], zq [2; 3; 6; 7]) /\
  show (random_crop (fun c _ => Z.of_nat c) (ofz [3; 4] [1; 2; 3; 4; 5; 6; 7; 8; 9; 10; 11; 12]) AxNone (NList [Some 1; Some 2])) = Some ([1; 2], zq [2; 3]) /\
  show (random_crop (fun c _ => Z.of_nat c) (ofz [3; 2] [1; 2; 3; 4; 5; 6]) AxNone (NList [None; Some 1])) = Some ([3; 1], zq [1; 3; 5]) /\
  random_crop (fun _ _ => 0) (ofz [3] [1; 2; 3]) AxNone (NItem (Some 3)) = Err RuntimeError.
Proof. split; [ex_on|]. repeat split; vm_compute; reflexivity. Qed.
