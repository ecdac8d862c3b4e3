(** C107, C108: edge filters of mirror images, ramps and parabolas.

    Vocabulary (EdgeFlip.v; PropsEdge.v, PropsExtra.v, PropsMirror.v):
    - [flipped a x x']: x' is x read backwards along axis a; [flipped_times s a x x']: x' is s times that;
    - [even_handed p]: p has the same constant value, end value and stat length before and after. *)
From Coq Require Import QArith Qcanon.
From Verif Require Import EdgeFlip EdgeAffine EdgeExample PropsEdge IndexLemmas EdgeLinear.
Open Scope Z_scope.

(** ** C107: if the edge kernel has odd length and read backwards is s times itself, the component along the
    mirrored axis of the mirror image is s times the mirrored component; the components along the other axes
    are mirrored if the smoothing kernel of the mirrored axis is a palindrome of odd length. *)
Theorem C107_component : forall (F : ofield) (trunc : F -> Z) fuel junk junk' ker smooth raw normalize p m shared (e : edge_filter F) (x x' : tensor F) ea ax ax' c d al k s,
  edge_init (NItem ker) smooth normalize (Some p) shared = Ok e -> ker <> [] ->
  check_axes (Z.of_nat (ndim x)) ea = Ok [Z.of_nat c] -> In c al ->
  edge_image fuel p m x ax al (k + 1) -> check_axes (Z.of_nat (ndim x)) ax' = Ok (map Z.of_nat al) -> klen ker <= k -> even_handed p ->
  expand (length (without c al)) smooth = Some raw -> (forall s, In s raw -> klen s <= k) ->
  (d < ndim x)%nat -> (m = MPeriodize -> nth d (shp x) 0 mod 2 = 0) ->
  (d = c -> klen ker mod 2 = 1 /\ rev (used_kernel trunc ker) = map (fmul s) (used_kernel trunc ker) /\ (s = f1 \/ linear_padder p m)) ->
  (forall r, (r < length (without c al))%nat -> nth r (without c al) 0%nat = d -> rev (nth r raw []) = nth r raw [] /\ (nth r raw [] = [] \/ klen (nth r raw []) mod 2 = 1)) ->
  flipped d x x' ->
  exists y y', snd (component trunc fuel junk e x ea ax') = Ok y /\ snd (component trunc fuel junk' e x' ea ax') = Ok y' /\
    flipped_times (if Nat.eqb d c then s else f1) d y y'.
Proof. exact component_flip. Qed.
Print Assumptions C107_component.
(** Sobel, Prewitt, Scharr and Farid: the sign changes along the mirrored axis; Laplace (no smoothing): it does not. *)
Theorem C107_named : forall (F : ofield) (trunc : F -> Z) fuel junk junk' normalize p m shared (e : edge_filter F) (x x' : tensor F) ker smooth ea ax ax' a d al,
  truncates trunc -> named normalize (Some p) shared e ker smooth ->
  check_axes (Z.of_nat (ndim x)) ea = Ok [Z.of_nat a] -> In a al ->
  edge_image fuel p m x ax al 6 -> check_axes (Z.of_nat (ndim x)) ax' = Ok (map Z.of_nat al) -> even_handed p ->
  (d < ndim x)%nat -> (m = MPeriodize -> nth d (shp x) 0 mod 2 = 0) -> (smooth <> [] -> d = a -> linear_padder p m) ->
  flipped d x x' ->
  exists y y', snd (component trunc fuel junk e x ea ax') = Ok y /\ snd (component trunc fuel junk' e x' ea ax') = Ok y' /\
    flipped_times (if Nat.eqb d a then match smooth with [] => f1 | _ => fopp f1 end else f1) d y y'.
Proof. exact named_flip. Qed.
Print Assumptions C107_named.
(** The magnitude of the mirror image is the mirrored magnitude, for even exponents (for Laplace: every exponent). *)
Theorem C107_magnitude : forall (F : ofield) (trunc : F -> Z) fuel junk junk' normalize p m shared (e : edge_filter F) (x x' : tensor F) ker smooth ax d al eps pw,
  truncates trunc -> named normalize (Some p) shared e ker smooth -> edge_image fuel p m x ax al 6 -> m <> MPeriodize -> (2 <= length al)%nat -> even_handed p ->
  (d < ndim x)%nat -> (smooth <> [] -> In d al -> linear_padder p m /\ forall v, raise_to F pw (fopp v) = raise_to F pw v) ->
  flipped d x x' ->
  exists y y', snd (magnitude trunc fuel junk e x ax eps pw) = Ok y /\ snd (magnitude trunc fuel junk' e x' ax eps pw) = Ok y' /\
    shp y = shp x /\ flipped d y y'.
Proof. exact magnitude_flip. Qed.
Print Assumptions C107_magnitude.

Definition m34 := ofz [3; 4] [8; 4; 2; 1; 10; 9; 5; 3; 51; 50; 30; 20].
Lemma m34_flipped : flipped 1 x34 m34.
Proof.
  split; [reflexivity|]. intros i V. apply valid2 in V as [k [l [-> [Hk Hl]]]].
  assert (k = 0 \/ k = 1 \/ k = 2) as [->|[->| ->]] by lia; (assert (l = 0 \/ l = 1 \/ l = 2 \/ l = 3) as [->|[->|[->| ->]]] by lia); vm_compute; reflexivity.
Qed.
(** A padder with the value v on both sides. *)
Definition evenp (v : Z) (m : mode QcF) : padder QcF := mkPadder (NItem (0, 0)) (NItem m) (NItem (qz v, qz v)) (NItem (qz 0, qz 0)) (NItem (None, None)) 0.
Lemma evenp_even v m : even_handed (evenp v m).
Proof. exists (qz v), (qz 0), None. split; [reflexivity|]. split; reflexivity. Qed.
Lemma even34 v m k : fills m -> k <= 12 -> edge_image 16 (evenp v m) m x34 AxNone [0%nat; 1%nat] k.
Proof.
  intros Hm Hk. split; [ex_on | | | | exact Hm |].
  - intros d H. pose proof (x34_pos d H). lia.
  - intros d H. assert (D : (d < ndim x34)%nat) by (destruct H as [<-|[<-|[]]]; cbn; lia). pose proof (x34_pos d D). lia.
  - split; [reflexivity|]. split; [eexists; reflexivity|]. split; eexists; reflexivity.
  - intros d H. pose proof (x34_pos d H). lia.
Qed.
Lemma show_nth y sh l k : show (Ok y) = Some (sh, l) -> (k < length (indices sh))%nat -> shp y = sh /\ Qcanon.this (at_ y (nth k (indices sh) [])) = nth k l 0%Q.
Proof.
  cbn [show]. intros H Hk. assert (E1 : shp y = sh) by congruence. split; auto. rewrite E1 in H.
  assert (E2 : map (fun i => Qcanon.this (at_ y i)) (indices sh) = l) by congruence. subst l.
  symmetry. rewrite (nth_indep _ 0%Q (Qcanon.this (at_ y []))) by (now rewrite map_length). apply (map_nth (fun i => Qcanon.this (at_ y i))).
Qed.
Definition square : exponent QcF := PGen (fun v => fmul v v) (fun v => v).
Example C107_example : exists e l : edge_filter QcF,
  named false (Some (evenp 0 MReflect)) true e central_kernel (ints [1; 2; 1]) /\ named false (Some (evenp 0 MReflect)) true l laplace_kernel [] /\
  edge_image 16 (evenp 0 MReflect) MReflect x34 AxNone [0; 1]%nat 6 /\ even_handed (evenp 0 MReflect) /\ linear_padder (evenp 0 MReflect) MReflect /\
  flipped 1 x34 m34 /\ (forall v, raise_to QcF square (fopp v) = raise_to QcF square v) /\
  show (snd (component qtrunc 16 garbage e x34 (AxInt 1) AxNone)) = Some ([3; 4], zq [0; 18; 22; 0; 0; 45; 37; 0; 0; 72; 52; 0]) /\
  show (snd (component qtrunc 16 garbage e m34 (AxInt 1) AxNone)) = Some ([3; 4], zq [0; -22; -18; 0; 0; -37; -45; 0; 0; -52; -72; 0]) /\
  show (snd (magnitude qtrunc 16 garbage e x34 AxNone f0 square)) =
    Some ([3; 4], zq [0; 324; 484; 0; 8836; 16666; 27938; 31684; 0; 5184; 2704; 0]) /\
  show (snd (magnitude qtrunc 16 garbage e m34 AxNone f0 square)) =
    Some ([3; 4], zq [0; 484; 324; 0; 31684; 27938; 16666; 8836; 0; 2704; 5184; 0]).
Proof.
  destruct (named_ok QcF false (Some (evenp 0 MReflect)) true) as [[e He] [_ [_ [_ [l Hl]]]]]. exists e, l.
  split; [now apply n_sobel|]. split; [now apply n_laplace|]. split; [apply even34; [exact I|lia]|]. split; [apply evenp_even|].
  split; [exists (qz 0, qz 0), (qz 0, qz 0); split; [reflexivity|]; split; [reflexivity|]; exact I|]. split; [apply m34_flipped|].
  split; [intros v; cbn [raise_to square]; change (- v * - v = v * v)%Qc; ring|].
  rewrite (get_ok filter0 _ _ He). clear He. idtac.
  repeat (match goal with |- _ /\ _ => split; [vm_compute; reflexivity|] end). vm_compute. reflexivity.
Qed.
(** With a nonzero padding constant the sign law fails: the smoothing filter pads by the same constant, not by
    its negative. *)
Theorem C107_constant_padding_differs : exists (e : edge_filter QcF) x x' y y',
  named false (Some (evenp 1 MConstant)) true e central_kernel (ints [1; 2; 1]) /\ edge_image 16 (evenp 1 MConstant) MConstant x AxNone [0; 1]%nat 6 /\
  flipped 1 x x' /\ snd (component qtrunc 16 garbage e x (AxInt 1) AxNone) = Ok y /\ snd (component qtrunc 16 garbage e x' (AxInt 1) AxNone) = Ok y' /\
  ~ flipped_times (fopp f1) 1 y y'.
Proof.
  destruct (named_ok QcF false (Some (evenp 1 MConstant)) true) as [[e He] _]. exists e, x34, m34.
  assert (S : show (snd (component qtrunc 16 garbage e x34 (AxInt 1) AxNone)) = Some ([3; 4], zq [7; 13; 18; -13; 38; 45; 37; -68; 63; 67; 48; -105])).
  { rewrite (get_ok filter0 _ _ He). clear He. vm_compute. reflexivity. }
  assert (S' : show (snd (component qtrunc 16 garbage e m34 (AxInt 1) AxNone)) = Some ([3; 4], zq [15; -16; -11; -5; 68; -37; -45; -38; 107; -46; -65; -61])).
  { rewrite (get_ok filter0 _ _ He). clear He. vm_compute. reflexivity. }
  destruct (snd (component qtrunc 16 garbage e x34 (AxInt 1) AxNone)) as [y|]; [|discriminate].
  destruct (snd (component qtrunc 16 garbage e m34 (AxInt 1) AxNone)) as [y'|]; [|discriminate]. exists y, y'.
  split; [now apply n_sobel|]. split; [apply even34; [exact I|lia]|]. split; [apply m34_flipped|]. split; auto. split; auto.
  destruct (show_nth y _ _ 3 S) as [Y1 Y2]; [vm_compute; lia|]. destruct (show_nth y' _ _ 0 S') as [Z1 Z2]; [vm_compute; lia|].
  intros [_ H]. specialize (H [0; 0]). rewrite Y1 in H. specialize (H ltac:(repeat constructor; lia)).
  change (nth 0 (indices [3; 4]) []) with [0; 0] in Z2. change (nth 3 (indices [3; 4]) []) with [0; 3] in Y2.
  change (upd 1 (nth 1 [3; 4] 0 - 1 - nth 1 [0; 0] 0) [0; 0]) with [0; 3] in H.
  assert (E : at_ y [0; 3] = qz (-13)) by (apply Qc_is_canon; rewrite Y2; reflexivity). rewrite E in H.
  rewrite H in Z2. vm_compute in Z2. discriminate.
Qed.
Print Assumptions C107_constant_padding_differs.
(** With exponent 1 the "magnitude" is a sum of signed components, which is not mirrored. *)
Theorem C107_exponent_one_differs : exists (e : edge_filter QcF) x x' y y',
  named false (Some (evenp 0 MReflect)) true e central_kernel (ints [1; 2; 1]) /\ edge_image 16 (evenp 0 MReflect) MReflect x AxNone [0; 1]%nat 6 /\
  linear_padder (evenp 0 MReflect) MReflect /\ flipped 1 x x' /\
  snd (magnitude qtrunc 16 garbage e x AxNone f0 P1) = Ok y /\ snd (magnitude qtrunc 16 garbage e x' AxNone f0 P1) = Ok y' /\ ~ flipped 1 y y'.
Proof.
  destruct (named_ok QcF false (Some (evenp 0 MReflect)) true) as [[e He] _]. exists e, x34, m34.
  assert (S : show (snd (magnitude qtrunc 16 garbage e x34 AxNone f0 P1)) = Some ([3; 4], zq [0; 18; 22; 0; 94; 166; 200; 178; 0; 72; 52; 0])).
  { rewrite (get_ok filter0 _ _ He). clear He. vm_compute. reflexivity. }
  assert (S' : show (snd (magnitude qtrunc 16 garbage e m34 AxNone f0 P1)) = Some ([3; 4], zq [0; -22; -18; 0; 178; 126; 76; 94; 0; -52; -72; 0])).
  { rewrite (get_ok filter0 _ _ He). clear He. vm_compute. reflexivity. }
  destruct (snd (magnitude qtrunc 16 garbage e x34 AxNone f0 P1)) as [y|]; [|discriminate].
  destruct (snd (magnitude qtrunc 16 garbage e m34 AxNone f0 P1)) as [y'|]; [|discriminate]. exists y, y'.
  split; [now apply n_sobel|]. split; [apply even34; [exact I|lia]|].
  split; [exists (qz 0, qz 0), (qz 0, qz 0); split; [reflexivity|]; split; [reflexivity|]; exact I|].
  split; [apply m34_flipped|]. split; auto. split; auto.
  destruct (show_nth y _ _ 2 S) as [Y1 Y2]; [vm_compute; lia|]. destruct (show_nth y' _ _ 1 S') as [Z1 Z2]; [vm_compute; lia|].
  intros [_ H]. specialize (H [0; 1]). rewrite Y1 in H. specialize (H ltac:(repeat constructor; lia)).
  change (nth 1 (indices [3; 4]) []) with [0; 1] in Z2. change (nth 2 (indices [3; 4]) []) with [0; 2] in Y2.
  change (upd 1 (nth 1 [3; 4] 0 - 1 - nth 1 [0; 1] 0) [0; 1]) with [0; 2] in H. rewrite H, Y2 in Z2. vm_compute in Z2. discriminate.
Qed.
Print Assumptions C107_exponent_one_differs.

(** ** C108: edge filters of ramps and parabolas.
    Vocabulary (EdgeAffine.v): [ramp s a x]: along axis a every line of x grows by s per pixel; [bends h a x]:
    along axis a every line is a parabola with second coefficient h; [moment ker]: sum of q times the q-th
    entry; [copying m]: reflect, symmetric, replicate or circular (PropsPool.v); [gain], [fprod]: PropsExtra.v. *)
Theorem C108_ramp : forall (F : ofield) (trunc : F -> Z) fuel junk ker smooth raw normalize p m shared (e : edge_filter F) (x : tensor F) ea ax ax' a al k s,
  edge_init (NItem ker) smooth normalize (Some p) shared = Ok e -> ker <> [] -> copying m -> wsum (used_kernel trunc ker) = f0 ->
  check_axes (Z.of_nat (ndim x)) ea = Ok [Z.of_nat a] -> In a al ->
  edge_image fuel p m x ax al k -> check_axes (Z.of_nat (ndim x)) ax' = Ok (map Z.of_nat al) -> klen ker <= k ->
  expand (length (without a al)) smooth = Some raw -> (forall s, In s raw -> klen s <= k) ->
  ramp s a x ->
  exists y, snd (component trunc fuel junk e x ea ax') = Ok y /\ shp y = shp x /\
    forall j, valid (shp x) j -> klen ker / 2 <= nth a j 0 -> nth a j 0 + (klen ker - 1) / 2 < nth a (shp x) 0 ->
      at_ y j = fmul (fmul s (moment (used_kernel trunc ker))) (fprod (map gain (smoothers normalize raw))).
Proof. exact component_ramp. Qed.
Print Assumptions C108_ramp.
Theorem C108_named : forall (F : ofield) (trunc : F -> Z) fuel junk normalize p m shared (e : edge_filter F) (x : tensor F) ker smooth ea ax ax' a al s,
  truncates trunc -> named normalize (Some p) shared e ker smooth -> copying m ->
  check_axes (Z.of_nat (ndim x)) ea = Ok [Z.of_nat a] -> In a al ->
  edge_image fuel p m x ax al 5 -> check_axes (Z.of_nat (ndim x)) ax' = Ok (map Z.of_nat al) -> ramp s a x ->
  exists y, snd (component trunc fuel junk e x ea ax') = Ok y /\ shp y = shp x /\
    forall j, valid (shp x) j -> klen ker / 2 <= nth a j 0 -> nth a j 0 + klen ker / 2 < nth a (shp x) 0 ->
      at_ y j = fmul (fmul s (moment ker)) (if normalize then f1 else fprod (repeat (gain smooth) (length (without a al)))).
Proof. exact named_ramp. Qed.
Print Assumptions C108_named.
(** Sobel, Prewitt and Scharr have moment 2: normalized, they give twice the slope. *)
Theorem C108_central_moment : forall F : ofield, moment (@central_kernel F) = fofZ 2.
Proof. exact central_moment. Qed.
Theorem C108_laplace_moment : forall F : ofield, moment (@laplace_kernel F) = f0.
Proof. exact laplace_moment. Qed.
Print Assumptions C108_central_moment.
Print Assumptions C108_laplace_moment.
Theorem C108_laplace : forall (F : ofield) (trunc : F -> Z) fuel junk p m shared (e : edge_filter F) (x : tensor F) ax al (h : nat -> F), truncates trunc ->
  laplace_init (Some p) shared = Ok e -> edge_image fuel p m x ax al 3 -> m <> MPeriodize -> (2 <= length al)%nat ->
  (forall a, In a al -> bends (h a) a x) ->
  exists y, snd (laplace_forward trunc fuel junk e x ax) = Ok y /\ shp y = shp x /\
    forall j, valid (shp x) j -> (forall a, In a al -> 1 <= nth a j 0 <= nth a (shp x) 0 - 2) ->
      at_ y j = fmul (fofZ 2) (axis_sum h al).
Proof. exact laplace_bends. Qed.
Print Assumptions C108_laplace.
(** Rows of slope 3; and 2 k^2 - l^2 + k l + 7. *)
Definition r45 := ofz [4; 5] [1; 4; 7; 10; 13; 10; 13; 16; 19; 22; 2; 5; 8; 11; 14; 50; 53; 56; 59; 62].
Definition b45 := ofz [4; 5] [7; 6; 3; -2; -9; 9; 9; 7; 3; -3; 15; 16; 15; 12; 7; 25; 27; 27; 25; 21].
Lemma pos45 (x : tensor QcF) d : shp x = [4; 5] -> (d < ndim x)%nat -> 4 <= nth d (shp x) 0 <= 5.
Proof. intros E H. unfold ndim in H. rewrite E in *. cbn in H. destruct d as [|[|d]]; [cbn; lia|cbn; lia|lia]. Qed.
Lemma even45 (x : tensor QcF) v m k : shp x = [4; 5] -> fills m -> k <= 11 -> edge_image 16 (evenp v m) m x AxNone [0%nat; 1%nat] k.
Proof.
  intros E Hm Hk. split; [| | | | exact Hm |].
  - split; [unfold ndim; rewrite E; reflexivity| |]; [intros a H; unfold ndim; rewrite E; destruct H as [<-|[<-|[]]]; cbn; lia|repeat constructor; cbn; intuition lia].
  - intros d H. pose proof (pos45 x d E H). lia.
  - intros d H. assert (D : (d < ndim x)%nat) by (unfold ndim; rewrite E; destruct H as [<-|[<-|[]]]; cbn; lia). pose proof (pos45 x d E D). lia.
  - split; [reflexivity|]. split; [eexists; reflexivity|]. split; eexists; reflexivity.
  - intros d H. pose proof (pos45 x d E H). lia.
Qed.
Lemma r45_ramp : ramp (qz 3) 1 r45.
Proof.
  intros i u V Hu. apply valid2 in V as [k [l [-> [Hk Hl]]]]. change (nth 1 (shp r45) 0) with 5 in Hu.
  assert (k = 0 \/ k = 1 \/ k = 2 \/ k = 3) as [->|[->|[->| ->]]] by lia; (assert (l = 0 \/ l = 1 \/ l = 2 \/ l = 3 \/ l = 4) as [->|[->|[->|[->| ->]]]] by lia);
  (assert (u = 0 \/ u = 1 \/ u = 2 \/ u = 3 \/ u = 4) as [->|[->|[->|[->| ->]]]] by lia); apply Qc_is_canon; vm_compute; reflexivity.
Qed.
Definition second45 (a : nat) : Qc := match a with 0%nat => qz 2 | _ => qz (-1) end.
Lemma b45_bends a : In a [0; 1]%nat -> bends (F := QcF) (second45 a) a b45.
Proof.
  intros Ha. exists (fun i => match a with 0%nat => qz (4 * nth 0 i 0 + nth 1 i 0) | _ => qz (nth 0 i 0 - 2 * nth 1 i 0) end).
  intros i u V Hu. apply valid2 in V as [k [l [-> [Hk Hl]]]].
  destruct Ha as [<-|[<-|[]]].
  - change (nth 0 (shp b45) 0) with 4 in Hu.
    assert (k = 0 \/ k = 1 \/ k = 2 \/ k = 3) as [->|[->|[->| ->]]] by lia; (assert (l = 0 \/ l = 1 \/ l = 2 \/ l = 3 \/ l = 4) as [->|[->|[->|[->| ->]]]] by lia);
    (assert (u = 0 \/ u = 1 \/ u = 2 \/ u = 3) as [->|[->|[->| ->]]] by lia); apply Qc_is_canon; vm_compute; reflexivity.
  - change (nth 1 (shp b45) 0) with 5 in Hu.
    assert (k = 0 \/ k = 1 \/ k = 2 \/ k = 3) as [->|[->|[->| ->]]] by lia; (assert (l = 0 \/ l = 1 \/ l = 2 \/ l = 3 \/ l = 4) as [->|[->|[->|[->| ->]]]] by lia);
    (assert (u = 0 \/ u = 1 \/ u = 2 \/ u = 3 \/ u = 4) as [->|[->|[->|[->| ->]]]] by lia); apply Qc_is_canon; vm_compute; reflexivity.
Qed.
Example C108_example : exists e n l : edge_filter QcF,
  named false (Some (evenp 0 MReplicate)) true e central_kernel (ints [1; 2; 1]) /\ named true (Some (evenp 0 MReplicate)) true n central_kernel (ints [1; 2; 1]) /\
  laplace_init (Some (evenp 0 MReplicate)) true = Ok l /\ copying (@MReplicate QcF) /\
  edge_image 16 (evenp 0 MReplicate) MReplicate r45 AxNone [0; 1]%nat 5 /\ edge_image 16 (evenp 0 MReplicate) MReplicate b45 AxNone [0; 1]%nat 3 /\
  ramp (qz 3) 1 r45 /\ (forall a, In a [0; 1]%nat -> bends (F := QcF) (second45 a) a b45) /\
  show (snd (component qtrunc 16 garbage e r45 (AxInt 1) AxNone)) =
    Some ([4; 5], zq [12; 24; 24; 24; 12; 12; 24; 24; 24; 12; 12; 24; 24; 24; 12; 12; 24; 24; 24; 12]) /\
  show (snd (component qtrunc 16 garbage n r45 (AxInt 1) AxNone)) =
    Some ([4; 5], zq [3; 6; 6; 6; 3; 3; 6; 6; 6; 3; 3; 6; 6; 6; 3; 3; 6; 6; 6; 3]) /\
  show (snd (laplace_forward qtrunc 16 garbage l b45 AxNone)) =
    Some ([4; 5], zq [1; 1; 2; 3; 13; 4; 2; 2; 2; 10; 5; 2; 2; 2; 9; -8; -13; -14; -15; -10]).
Proof.
  destruct (named_ok QcF false (Some (evenp 0 MReplicate)) true) as [[e He] [_ [_ [_ [l Hl]]]]].
  destruct (named_ok QcF true (Some (evenp 0 MReplicate)) true) as [[n Hn] _]. exists e, n, l.
  split; [now apply n_sobel|]. split; [now apply n_sobel|]. split; [exact Hl|]. split; [unfold copying; tauto|]. split; [apply even45; [reflexivity|exact I|lia]|].
  split; [apply even45; [reflexivity|exact I|lia]|]. split; [apply r45_ramp|]. split; [apply b45_bends|].
  rewrite (get_ok filter0 _ _ He), (get_ok filter0 _ _ Hn), (get_ok filter0 _ _ Hl). clear He Hn Hl.
  repeat (match goal with |- _ /\ _ => split; [vm_compute; reflexivity|] end). vm_compute. reflexivity.
Qed.
