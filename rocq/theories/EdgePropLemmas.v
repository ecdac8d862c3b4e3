(** Statements for PropsEdge.v. *)
From Verif Require Export SharpenProofs ConvProofs.
Open Scope Z_scope.

(** The kernel is not changed by _conv_edge: its integer parts are not one of the two special
    kernels, or it is one of these itself. *)
Definition exact_path {F : ofield} (trunc : F -> Z) (ker : list F) : Prop :=
  (map trunc ker <> [-1; 0; 1] /\ map trunc ker <> [1; -2; 1]) \/ ker = ints [-1; 0; 1] \/ ker = ints [1; -2; 1].

Section EP.
Variable F : ofield.
Add Field Fep : (f_field F).
Notation T := (tensor F).

Lemma exact_used (trunc : F -> Z) ker : truncates trunc -> exact_path trunc ker -> used_kernel trunc ker = ker.
Proof.
  intros TR [[H1 H2]|[->| ->]]; try (apply used_ints; auto). unfold used_kernel.
  destruct (zlist_eqb (map trunc ker) [-1; 0; 1]) eqn:E1; [apply zlist_eqb_spec in E1; contradiction|].
  destruct (zlist_eqb (map trunc ker) [1; -2; 1]) eqn:E2; [apply zlist_eqb_spec in E2; contradiction|]. reflexivity.
Qed.
Lemma exact_length (trunc : F -> Z) ker : length ker <> 3%nat -> exact_path trunc ker.
Proof. intros H. left. split; intros E; apply H; rewrite <- (map_length trunc ker), E; reflexivity. Qed.

Theorem component_exact (trunc : F -> Z) fuel junk ker smooth raw normalize p shared (e : edge_filter F) (x : T) ea sx a al ms ms' :
  truncates trunc -> exact_path trunc ker ->
  edge_init (NItem ker) smooth normalize (Some p) shared = Ok e -> ker <> [] ->
  check_axes (Z.of_nat (ndim x)) ea = Ok [Z.of_nat a] -> check_axes (Z.of_nat (ndim x)) sx = Ok (map Z.of_nat al) ->
  same_call F fuel p x (AxInt (Z.of_nat a)) [a] ms [ker] [1] -> ~ In MPeriodize ms ->
  expand (length (without a al)) smooth = Some raw ->
  same_call F fuel p x (AxSeq (map Z.of_nat (without a al))) (without a al) ms' (smoothers normalize raw) (repeat 1 (length (without a al))) ->
  exists w xp c ws cp y,
    is_same_width (klen ker) 1 (nth a (shp x) 0) w /\
    padder_forward fuel junk (with_width p [w]) x (AxInt (Z.of_nat a)) = Ok xp /\
    shp c = shp x /\
    (forall j, valid (shp x) j ->
       at_ c j = fsum (klen ker) (fun q => fmul (nth (Z.to_nat q) ker f0) (at_ xp (upd a (nth a j 0 + q) j)))) /\
    length ws = length (without a al) /\
    (forall r, (r < length (without a al))%nat ->
       is_same_width (klen (nth r (smoothers normalize raw) [])) 1 (nth (nth r (without a al) 0%nat) (shp x) 0) (nth r ws (0, 0))) /\
    padder_forward fuel junk (with_width p ws) c (AxSeq (map Z.of_nat (without a al))) = Ok cp /\
    snd (component trunc fuel junk e x ea sx) = Ok y /\ (~ In MPeriodize ms' -> shp y = shp x) /\
    forall j, valid (shp y) j ->
      at_ y j = correlation (without a al) (smoothers normalize raw) (repeat 1 (length (without a al))) cp j.
Proof.
  intros TR EP HI Hk Ha Hs SC Hp Hr SC2.
  destruct (component_same F trunc fuel junk ker smooth raw normalize p shared e x ea sx a al ms ms' HI Hk Ha Hs SC Hp Hr SC2) as
    [w [xp [c [ws [cp [y [H1 [H2 [H3 [H4 H5]]]]]]]]]].
  exists w, xp, c, ws, cp, y. do 3 (split; auto). split; [|exact H5]. intros j V. rewrite H4 by auto. rewrite (exact_used trunc ker TR EP). reflexivity.
Qed.
Theorem component_exact_valid (trunc : F -> Z) fuel junk ker smooth raw normalize shared (e : edge_filter F) (x : T) ea sx a al :
  truncates trunc -> exact_path trunc ker ->
  edge_init (NItem ker) smooth normalize None shared = Ok e -> ker <> [] ->
  check_axes (Z.of_nat (ndim x)) ea = Ok [Z.of_nat a] -> check_axes (Z.of_nat (ndim x)) sx = Ok (map Z.of_nat al) ->
  (a < ndim x)%nat -> (forall b, In b al -> (b < ndim x)%nat) -> NoDup al ->
  (forall d, (d < ndim x)%nat -> 0 <= nth d (shp x) 0) -> klen ker <= nth a (shp x) 0 ->
  expand (length (without a al)) smooth = Some raw ->
  (forall r, (r < length (without a al))%nat -> klen (nth r (smoothers normalize raw) []) <= nth (nth r (without a al) 0%nat) (shp x) 0) ->
  exists c y, shp c = upd a (nth a (shp x) 0 - klen ker + 1) (shp x) /\
    (forall j, valid (shp c) j ->
       at_ c j = fsum (klen ker) (fun q => fmul (nth (Z.to_nat q) ker f0) (at_ x (upd a (nth a j 0 + q) j)))) /\
    snd (component trunc fuel junk e x ea sx) = Ok y /\ ndim y = ndim x /\
    (forall r, (r < length (without a al))%nat -> nth r (smoothers normalize raw) [] <> [] ->
       nth (nth r (without a al) 0%nat) (shp y) 0 = nth (nth r (without a al) 0%nat) (shp x) 0 - klen (nth r (smoothers normalize raw) []) + 1) /\
    (forall d, ~ In d (without a al) -> nth d (shp y) 0 = nth d (shp c) 0) /\
    forall j, valid (shp y) j ->
      at_ y j = correlation (without a al) (smoothers normalize raw) (repeat 1 (length (without a al))) c j.
Proof.
  intros TR EP HI Hk Ha Hs Hlt Hin Hnd Hnn Hfit Hr Hfit2.
  destruct (component_valid F trunc fuel junk ker smooth raw normalize shared e x ea sx a al HI Hk Ha Hs Hlt Hin Hnd Hnn Hfit Hr Hfit2) as [c [y [H1 [H2 H3]]]].
  exists c, y. split; auto. split; [|exact H3]. intros j V. rewrite H2 by auto. rewrite (exact_used trunc ker TR EP). reflexivity.
Qed.
(** What the fast path computes otherwise. *)
Theorem conv_edge_fast (trunc : F -> Z) fuel junk ker smooth normalize p shared (e : edge_filter F) (x : T) a ms :
  edge_init (NItem ker) smooth normalize (Some p) shared = Ok e -> ker <> [] ->
  same_call F fuel p x (AxInt (Z.of_nat a)) [a] ms [ker] [1] -> ~ In MPeriodize ms ->
  map trunc ker = [-1; 0; 1] \/ map trunc ker = [1; -2; 1] ->
  exists xp c,
    padder_forward fuel junk (with_width p [(1, 1)]) x (AxInt (Z.of_nat a)) = Ok xp /\
    snd (conv_edge trunc fuel junk e x (Z.of_nat a)) = Ok c /\ shp c = shp x /\
    forall j, valid (shp x) j -> at_ c j =
      match map trunc ker with
      | -1 :: _ => fsub (at_ xp (upd a (nth a j 0 + 2) j)) (at_ xp j)
      | _ => fadd (fsub (at_ xp (upd a (nth a j 0 + 2) j)) (fmul (fofZ 2) (at_ xp (upd a (nth a j 0 + 1) j)))) (at_ xp j)
      end.
Proof.
  intros HI Hk SC Hp HT. destruct (conv_edge_same F trunc fuel junk ker smooth normalize p shared e x a ms HI Hk SC) as
    [w [xp [c [W1 [W2 [W3 [W4 [W5 [W6 [C1 [C2 [CX [CB [C3 C4]]]]]]]]]]]]]].
  specialize (C3 Hp). assert (L : klen ker = 3) by (unfold klen; rewrite <- (map_length trunc ker); destruct HT as [->| ->]; reflexivity).
  rewrite L in W1. pose proof SC as [_ _ _ P1' _ _ _ _]. specialize (P1' a (or_introl eq_refl)). apply same_width_3 in W1; auto. subst w.
  exists xp, c. do 3 (split; auto). intros j V. rewrite C4 by congruence. unfold used_kernel. destruct HT as [E|E]; rewrite E.
  - change (zlist_eqb [-1; 0; 1] [-1; 0; 1]) with true. cbv iota. unfold central_kernel, ints. cbn [map]. rewrite line_corr3, upd_nth.
    unfold fofZ; cbn [fofpos]. ring.
  - change (zlist_eqb [1; -2; 1] [-1; 0; 1]) with false. change (zlist_eqb [1; -2; 1] [1; -2; 1]) with true. cbv iota.
    unfold laplace_kernel, ints. cbn [map]. rewrite line_corr3, upd_nth. unfold fofZ; cbn [fofpos]. ring.
Qed.
End EP.
