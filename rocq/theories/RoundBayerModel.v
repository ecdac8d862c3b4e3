(** BayerConv2d and demosaicing in floating-point arithmetic: every product and every addition of the convolution may
    be rounded (RoundModel.v), in any order; padding, slicing, copying and clamping are exact. *)
From Coq Require Import String.
From Verif Require Export RoundModel CfaModel.
Import List. Import ListNotations.
Local Notation length := List.length.
Open Scope list_scope.
Open Scope Z_scope.

Section RB.
Context {F : ofield}.
Notation T := (tensor F).

(** The terms of one value of a convolution: channel, row and column of the kernel; [None] is the bias. *)
Definition conv_terms (cin k : Z) (bias : option (Z -> F)) : list (option (Z * Z * Z)) :=
  map Some (list_prod (list_prod (zrange cin) (zrange k)) (zrange k)) ++ match bias with None => [] | Some _ => [None] end.
(** nn.Conv2d ([conv2d] of IndexOps.v): v is a value the convolution may give at index i. *)
Definition fl_conv_at (e : F) (cin k s : Z) (w : Z -> Z -> Z -> Z -> F) (bias : option (Z -> F)) (x : T) (i : list Z) (v : F) : Prop :=
  let nd := ndim x in
  let o := nth (nd - 3) i 0 in
  exists p : option (Z * Z * Z) -> F,
    (forall c a b, 0 <= c < cin -> 0 <= a < k -> 0 <= b < k ->
       rounds e (fmul (w o c a b) (at_ x (upd (nd - 3) c (upd (nd - 2) (nth (nd - 2) i 0 * s + a) (upd (nd - 1) (nth (nd - 1) i 0 * s + b) i)))))
              (p (Some (c, a, b)))) /\
    (forall bs, bias = Some bs -> p None = bs o) /\
    fl_sum e p (conv_terms cin k bias) v.
Definition fl_conv2d (e : F) (cin cout k s : Z) (w : Z -> Z -> Z -> Z -> F) (bias : option (Z -> F)) (x y : T) : Prop :=
  exists y0, conv2d cin cout k s w bias x = Ok y0 /\ shp y = shp y0 /\
    forall i, valid (shp y) i -> fl_conv_at e cin k s w bias x i (at_ y i).

(** bayer_conv_2d.py:94-99: the loop of forward, [bayer_forward] with [fl_conv2d] for [conv2d]. *)
Fixpoint fl_branches (e : F) (m : bayer_conv F) (beg : pos -> Z * Z) (x y : T) (l : list pos) (z : T) : Prop :=
  match l with
  | [] => z = y
  | p :: l' => exists xp v y1, bayer_pad (bc_k m) (fst (beg p)) (snd (beg p)) x = Ok xp /\
      fl_conv2d e (bc_in m) (bc_out m) (bc_k m) 2 (bc_w m p) (match bc_bias m with None => None | Some b => Some (b p) end) xp v /\
      tsetx y (ell (ndim y) [ISl (step2 (fst (beg p))); ISl (step2 (snd (beg p)))]) v = Ok y1 /\
      fl_branches e m beg x y1 l' z
  end.
(** bayer_conv_2d.py:85-100 [BayerConv2d.forward]: z is a result the call may give. *)
Definition fl_bayer_forward (e : F) (junk : list Z -> F) (m : bayer_conv F) (x : T) (sa : string) (z : T) : Prop :=
  exists sa' beg, check_sensor_alignment sa = Ok sa' /\ get_sensor_beg_index sa' = Ok beg /\
    fl_branches e m beg x (tempty (butlast 3 (shp x) ++ [bc_out m] ++ lastn 2 (shp x)) junk) relative_positions z.
(** bayer_conv_2d.py:167-174 [PreTrainedBilinearInterpolator.forward] *)
Definition fl_demosaic_with (e : F) (m : bayer_conv F) (junk1 junk2 : list Z -> F) (x : T) (sa : string) (clamp : F) (z : T) : Prop :=
  exists y r, fl_bayer_forward e junk1 m x sa y /\ last_step_demosaic junk2 x y sa = Ok r /\ z = tmap (fclamp f0 clamp) r.
End RB.
