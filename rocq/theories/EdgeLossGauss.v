(** GaussianEdgeLoss, WeightedMul, WeightedDiv and WeightedSum for Gaussian kernels. *)
From Coq Require Import Reals Lra.
From Verif Require Export EdgeLossLaws GaussPool RField.
Open Scope Z_scope.

(** A loss module built with (kernel_size, sigma, order) and called once (edge_loss.py:7-40). *)
Definition gauss_loss (score : tensor RF -> tensor RF -> res (tensor RF)) (fuel : nat) (junk : list Z -> R) (ks : Z) (sigma : R) (order : Z)
    (x y : tensor RF) : res (tensor RF) :=
  e <- edge_loss_init (NItem ks) (NItem sigma) order ;; snd (edge_loss (F := RF) Rtrunc score fuel junk e x y).
(** The loss is a scalar, v. *)
Definition loss_value (score : tensor RF -> tensor RF -> res (tensor RF)) (fuel : nat) (junk : list Z -> R) (ks : Z) (sigma : R) (order : Z)
    (x y : tensor RF) (v : R) : Prop :=
  exists s, gauss_loss score fuel junk ks sigma order x y = Ok s /\ shp s = [] /\ at_ s [] = v.
(** d2 and d3 are the components of x along the axes 2 and 3, of the shape of x. *)
Definition edge_maps (fuel : nat) (junk : list Z -> R) (ks : Z) (sigma : R) (order : Z) (x d2 d3 : tensor RF) : Prop :=
  exists e, edge_loss_init (NItem ks) (NItem sigma) order = Ok e /\ edge_pair RF Rtrunc fuel junk e x d2 d3.
(** Proper arguments: ks >= 1, sigma <> 0, order >= 0; non-empty images of shape (n, c, h, w); enough fuel. *)
Record loss_args (fuel : nat) (ks : Z) (sigma : R) (order n c h w : Z) : Prop := {
  la_ks : 1 <= ks;
  la_sigma : sigma <> 0%R;
  la_order : 0 <= order;
  la_pos : 0 < n /\ 0 < c /\ 0 < h /\ 0 < w;
  la_fuel : n + c + h + w + ks + 1 <= Z.of_nat fuel }.

Definition reflR : padder RF := mkPadder (NItem (0, 0)) (NItem MReflect) (NItem (0, 0)%R) (NItem (0, 0)%R) (NItem (None, None)) 0.
Lemma reflect_ok : reflect_padder = Ok reflR.
Proof. reflexivity. Qed.

(** Sum over a list. *)
Definition lsumR {A} (f : A -> R) (L : list A) : R := fold_right Rplus 0%R (map f L).
Lemma fabs_R (a : R) : @fabs RF a = Rabs a.
Proof.
  unfold fabs. destruct (@fleb RF f0 a) eqn:E.
  - apply R_leb_iff in E. cbn in E. now rewrite Rabs_pos_eq.
  - symmetry. apply Rabs_left1. cbn. destruct (Rle_dec 0 a) as [H|H]; [|lra]. apply R_leb_iff in H. cbn in E. congruence.
Qed.
Lemma lsum_R {A} (f g : A -> R) L : (forall a, f a = g a) -> @lsum RF (map f L) = lsumR g L.
Proof. intros H. unfold lsumR. rewrite (map_ext _ _ H). reflexivity. Qed.
Ltac reals := rewrite RF_ofZ; cbn [fdiv RF]; f_equal; apply lsum_R; intros; cbn [fadd fsub fmul fdiv RF]; rewrite ?fabs_R; try reflexivity.

Lemma sum0_balanced (F : ofield) (trunc : F -> Z) (ker : list F) : ker <> [] -> wsum ker = f0 -> balanced trunc ker.
Proof.
  intros N S. split; auto. unfold used_kernel.
  destruct (zlist_eqb _ _); [unfold central_kernel; rewrite ints_sum; reflexivity|].
  destruct (zlist_eqb _ _); [unfold laplace_kernel; rewrite ints_sum; reflexivity|exact S].
Qed.

Lemma lsumR_const {A} (f : A -> R) L v : (forall a, In a L -> f a = v) -> lsumR f L = (IZR (Z.of_nat (length L)) * v)%R.
Proof.
  unfold lsumR. induction L as [|a L IH]; intros H; [cbn; lra|]. cbn [map fold_right length]. rewrite IH by (intros; apply H; now right).
  rewrite (H a) by now left. rewrite Nat2Z.inj_succ, succ_IZR. lra.
Qed.
Lemma pixels_count n c h w L : 0 < n /\ 0 < c /\ 0 < h /\ 0 < w -> all_pixels [n; c; h; w] L -> Z.of_nat (length L) = n * c * h * w.
Proof.
  intros (Q1 & Q2 & Q3 & Q4) AP. pose proof (pixels_block _ _ AP) as B. cbn [length] in B.
  rewrite (block_length [n; c; h; w] (seq 0 4) [] _); auto.
  - unfold zprod. cbn [seq map nth fold_right]. ring.
  - apply seq_NoDup.
  - intros a I. apply in_seq in I. cbn [length]. lia.
  - cbn [In]. intros a I. intuition lia.
  - cbn. constructor.
Qed.

Section G.
Variables (fuel : nat) (junk : list Z -> R) (ks : Z) (sigma : R) (order n c h w : Z).
Hypothesis A : loss_args fuel ks sigma order n c h w.
Notation T := (tensor RF).
Notation img x := (shp x = [n; c; h; w]).

Lemma setup : exists k0 kn e, gaussian_kernel_1d ks sigma 0 = Ok k0 /\ gaussian_kernel_1d ks sigma order = Ok kn /\ klen (F := RF) k0 = ks /\ klen (F := RF) kn = ks /\ np_sum k0 = 1%R /\
  edge_loss_init (NItem ks) (NItem sigma) order = Ok e /\ edge_init (F := RF) (NItem kn) (NItem k0) true (Some reflR) false = Ok e /\ kn <> [] /\
  loss_ready (F := RF) fuel reflR MReflect ks n c h w.
Proof.
  destruct A as [A1 A2 A3 A4 A5]. destruct (gg_ok ks sigma order A1 A2 A3) as [k0 [kn [B1 [B2 [B3 [B4 [B5 B6]]]]]]].
  destruct (B6 (Some reflR) false) as [e E]. exists k0, kn, e. do 5 (split; auto).
  split. { unfold edge_loss_init. rewrite reflect_ok. exact E. }
  split. { rewrite <- (gg_init_edge _ _ _ _ _ _ _ B1 B2). exact E. }
  split. { intros ->. cbn in B4. lia. }
  split; auto.
  - split; [reflexivity|]. split; [eexists; reflexivity|]. split; eexists; reflexivity.
  - exact I.
  - discriminate.
Qed.
Lemma refl_linear : linear_padder (F := RF) reflR MReflect.
Proof. do 2 eexists. split; [reflexivity|]. split; [reflexivity|]. exact I. Qed.
Lemma refl_const : keeps_constants RF MReflect.
Proof. exact I. Qed.
Lemma value_is score (e : edge_filter RF) x y v : edge_loss_init (NItem ks) (NItem sigma) order = Ok e ->
  (loss_value score fuel junk ks sigma order x y v <-> loss_is (F := RF) Rtrunc score fuel junk e x y v).
Proof. intros E. unfold loss_value, gauss_loss. rewrite E. reflexivity. Qed.
Lemma maps_is (e : edge_filter RF) x d2 d3 : edge_loss_init (NItem ks) (NItem sigma) order = Ok e ->
  (edge_maps fuel junk ks sigma order x d2 d3 <-> edge_pair RF Rtrunc fuel junk e x d2 d3).
Proof. intros E. split; [intros [e' [E' H]]; rewrite E in E'; now injection E' as <-|]. intros H. exists e. auto. Qed.

Ltac setup := destruct setup as (k0 & kn & e & K0 & KN & L0 & LN & SU & EI & HI & NE & RD).
Ltac args := eauto using refl_linear, refl_const; try lia.

Theorem maps_exist (x : T) : img x -> exists d2 d3, edge_maps fuel junk ks sigma order x d2 d3.
Proof. intros Sx. setup. destruct (pair_exists RF Rtrunc fuel junk kn k0 true reflR MReflect false e ks n c h w HI NE) with (x := x) as [d2 [d3 H]]; args. exists d2, d3. exists e. auto. Qed.
Lemma maps_shape (x d2 d3 : T) : edge_maps fuel junk ks sigma order x d2 d3 -> shp d2 = shp x /\ shp d3 = shp x.
Proof. intros [e [_ [_ [_ H]]]]. exact H. Qed.
Lemma input_of e (x y p2 p3 t2 t3 : T) : edge_loss_init (NItem ks) (NItem sigma) order = Ok e -> img x -> img y ->
  edge_maps fuel junk ks sigma order x p2 p3 -> edge_maps fuel junk ks sigma order y t2 t3 ->
  loss_input (F := RF) Rtrunc fuel junk e x y p2 p3 t2 t3 n c h w.
Proof. intros EI Sx Sy M1 M2. apply (maps_is _ _ _ _ EI) in M1. apply (maps_is _ _ _ _ EI) in M2. destruct A as [_ _ _ P _]. split; auto. Qed.
Theorem gl_l1_value (x y p2 p3 t2 t3 : T) L : img x -> img y ->
  edge_maps fuel junk ks sigma order x p2 p3 -> edge_maps fuel junk ks sigma order y t2 t3 -> all_pixels [n; c; h; w] L ->
  loss_value score_l1 fuel junk ks sigma order x y (lsumR (fun i => Rabs (at_ p2 i - at_ t2 i) + Rabs (at_ p3 i - at_ t3 i)) L / IZR (2 * (n * c * h * w)))%R.
Proof.
  intros Sx Sy M1 M2 AP. setup. destruct (l1_value RF Rtrunc fuel junk kn (NItem k0) true (Some reflR) false e HI x y p2 p3 t2 t3 n c h w) as [s [S1 [S2 S3]]]; [now apply input_of|].
  apply (value_is _ _ _ _ _ EI). exists s. split; auto. split; auto. rewrite (S3 L AP). reals.
Qed.
Theorem gl_mul_value (x y p2 p3 t2 t3 : T) L : img x -> img y ->
  edge_maps fuel junk ks sigma order x p2 p3 -> edge_maps fuel junk ks sigma order y t2 t3 -> all_pixels [n; c; h; w] L ->
  loss_value score_mul fuel junk ks sigma order x y
    (lsumR (fun i => Rabs (at_ t2 i - at_ p2 i) * at_ t2 i + Rabs (at_ t3 i - at_ p3 i) * at_ t3 i) L / IZR (2 * (n * c * h * w)))%R.
Proof.
  intros Sx Sy M1 M2 AP. setup. destruct (mul_value RF Rtrunc fuel junk kn (NItem k0) true (Some reflR) false e HI x y p2 p3 t2 t3 n c h w) as [s [S1 [S2 S3]]]; [now apply input_of|].
  apply (value_is _ _ _ _ _ EI). exists s. split; auto. split; auto. rewrite (S3 L AP). reals.
Qed.
Theorem gl_div_value (x y p2 p3 t2 t3 : T) L : img x -> img y ->
  edge_maps fuel junk ks sigma order x p2 p3 -> edge_maps fuel junk ks sigma order y t2 t3 -> all_pixels [n; c; h; w] L ->
  (forall i, valid [n; c; h; w] i -> at_ t2 i <> 0%R /\ at_ t3 i <> 0%R) ->
  loss_value score_div fuel junk ks sigma order x y
    (lsumR (fun i => Rabs (at_ t2 i - at_ p2 i) / at_ t2 i + Rabs (at_ t3 i - at_ p3 i) / at_ t3 i) L / IZR (2 * (n * c * h * w)))%R.
Proof.
  intros Sx Sy M1 M2 AP NZ. setup. destruct (div_value RF Rtrunc fuel junk kn (NItem k0) true (Some reflR) false e HI x y p2 p3 t2 t3 n c h w) as [s [S1 [S2 S3]]]; [now apply input_of|rewrite Sy; exact NZ|].
  apply (value_is _ _ _ _ _ EI). exists s. split; auto. split; auto. rewrite (S3 L AP). reals.
Qed.
Theorem gl_div_zero (x y p2 p3 t2 t3 : T) i : img x -> img y ->
  edge_maps fuel junk ks sigma order x p2 p3 -> edge_maps fuel junk ks sigma order y t2 t3 ->
  valid [n; c; h; w] i -> at_ t2 i = 0%R \/ at_ t3 i = 0%R ->
  gauss_loss score_div fuel junk ks sigma order x y = Err ZeroDivisionError.
Proof.
  intros Sx Sy M1 M2 V Z0. setup. unfold gauss_loss. rewrite EI. cbn [bind].
  apply (div_zero RF Rtrunc fuel junk kn (NItem k0) true (Some reflR) false e HI x y p2 p3 t2 t3 n c h w i); [now apply input_of|congruence|exact Z0].
Qed.
Theorem gl_sum_value (x y p2 p3 t2 t3 : T) L P : img x -> img y ->
  edge_maps fuel junk ks sigma order x p2 p3 -> edge_maps fuel junk ks sigma order y t2 t3 -> all_pixels [n; c] L -> all_pixels [h; w] P ->
  let m (d : T) j := (lsumR (fun q => Rabs (at_ d (j ++ q))) P / IZR (h * w))%R in
  loss_value score_sum fuel junk ks sigma order x y (lsumR (fun j => Rabs (m t2 j - m p2 j) + Rabs (m t3 j - m p3 j)) L / IZR (2 * (n * c)))%R.
Proof.
  intros Sx Sy M1 M2 AL AP m. setup. destruct (sum_value RF Rtrunc fuel junk kn (NItem k0) true (Some reflR) false e HI x y p2 p3 t2 t3 n c h w) as [s [S1 [S2 S3]]]; [now apply input_of|].
  apply (value_is _ _ _ _ _ EI). exists s. split; auto. split; auto. rewrite (S3 L P AL AP).
  assert (G : forall d j, @plane_mean RF P h w d j = m d j). { intros d j. unfold plane_mean, m. reals. }
  rewrite (RF_ofZ (2 * (n * c))). cbn [fdiv RF]. f_equal. apply lsum_R. intros j. rewrite !fabs_R, !G. reflexivity.
Qed.
(** ** GaussianEdgeLoss *)
Theorem gl_l1_metric (x y : T) : img x -> img y ->
  (exists v, loss_value score_l1 fuel junk ks sigma order x y v /\ loss_value score_l1 fuel junk ks sigma order y x v /\ (0 <= v)%R) /\
  loss_value score_l1 fuel junk ks sigma order x x 0%R.
Proof.
  intros Sx Sy. setup. destruct (l1_defined RF Rtrunc fuel junk kn k0 true reflR MReflect false e ks n c h w HI NE) with (x := x) (y := y) as [v [V1 [V2 V3]]]; args.
  split.
  - exists v. split; [now apply (value_is _ e)|]. split; [now apply (value_is _ e)|]. now apply RF_le in V3.
  - apply (value_is _ e); auto. apply (l1_self RF Rtrunc fuel junk kn k0 true reflR MReflect false e ks n c h w HI NE); args.
Qed.
Theorem gl_l1_triangle (x y z : T) u v t : img x -> img y -> img z ->
  loss_value score_l1 fuel junk ks sigma order x z u -> loss_value score_l1 fuel junk ks sigma order x y v -> loss_value score_l1 fuel junk ks sigma order y z t ->
  (u <= v + t)%R.
Proof.
  intros Sx Sy Sz U V W. setup. apply (value_is _ e) in U, V, W; auto.
  apply RF_le. apply (l1_triangle RF Rtrunc fuel junk kn k0 true reflR MReflect false e ks n c h w HI NE) with (x := x) (y := y) (z := z) (u := u) (v := v) (t := t); args.
Qed.
Theorem gl_l1_zero (x y p2 p3 t2 t3 : T) : img x -> img y ->
  edge_maps fuel junk ks sigma order x p2 p3 -> edge_maps fuel junk ks sigma order y t2 t3 ->
  (loss_value score_l1 fuel junk ks sigma order x y 0%R <-> teq p2 t2 /\ teq p3 t3).
Proof.
  intros Sx Sy M1 M2. setup. rewrite (value_is _ e) by auto. apply (maps_is e) in M1; auto. apply (maps_is e) in M2; auto.
  apply (l1_zero RF Rtrunc fuel junk kn k0 true reflR MReflect false e ks n c h w HI) with (x := x) (y := y); args.
Qed.
Theorem gl_l1_translate (x y z x' y' : T) v : img x -> img y ->
  combination (F := RF) 1%R 1%R x z x' -> combination (F := RF) 1%R 1%R y z y' ->
  loss_value score_l1 fuel junk ks sigma order x y v -> loss_value score_l1 fuel junk ks sigma order x' y' v.
Proof.
  intros Sx Sy C1 C2 V. setup. apply (value_is _ e) in V; auto. apply (value_is _ e); auto.
  apply (l1_translate RF Rtrunc fuel junk kn k0 true reflR MReflect false e ks n c h w HI NE) with (x := x) (y := y) (z := z); args.
Qed.
Theorem gl_l1_scale a (x y x' y' : T) v : img x -> img y ->
  combination (F := RF) a 0%R x x x' -> combination (F := RF) a 0%R y y y' ->
  loss_value score_l1 fuel junk ks sigma order x y v -> loss_value score_l1 fuel junk ks sigma order x' y' (Rabs a * v)%R.
Proof.
  intros Sx Sy C1 C2 V. setup. apply (value_is _ e) in V; auto. apply (value_is _ e); auto. rewrite <- fabs_R.
  apply (l1_scale RF Rtrunc fuel junk kn k0 true reflR MReflect false e ks n c h w HI NE) with (x := x) (y := y); args.
Qed.
Lemma odd_balanced kn : Z.odd ks = true -> Z.odd order = true -> gaussian_kernel_1d ks sigma order = Ok kn -> balanced (F := RF) Rtrunc kn.
Proof.
  intros O1 O2 KN. destruct A as [A1 A2 A3 _ _]. destruct (gauss_parity ks sigma order A1 A2 A3 O1) as [k [K1 [_ K2]]].
  rewrite K1 in KN. injection KN as <-. specialize (K2 O2).
  apply (sum0_balanced RF); [|exact K2]. intros ->. destruct (gg_ok ks sigma order A1 A2 A3) as [k0 [kn [_ [B2 [_ [B4 _]]]]]]. rewrite K1 in B2. injection B2 as <-. cbn in B4. lia.
Qed.
Theorem gl_l1_bright (x y z x' : T) u v : Z.odd ks = true -> Z.odd order = true -> img x -> img y ->
  combination (F := RF) 1%R 1%R x z x' -> constant_image (F := RF) u z ->
  loss_value score_l1 fuel junk ks sigma order x y v -> loss_value score_l1 fuel junk ks sigma order x' y v.
Proof.
  intros O1 O2 Sx Sy C1 C2 V. setup. apply (value_is _ e) in V; auto. apply (value_is _ e); auto.
  apply (l1_bright RF Rtrunc fuel junk kn k0 true reflR MReflect false e ks n c h w HI NE) with (x := x) (y := y) (z := z) (v := u); args. now apply odd_balanced.
Qed.

(** ** WeightedSum *)
Theorem gl_sum_metric (x y : T) : img x -> img y ->
  (exists v, loss_value score_sum fuel junk ks sigma order x y v /\ loss_value score_sum fuel junk ks sigma order y x v /\ (0 <= v)%R) /\
  loss_value score_sum fuel junk ks sigma order x x 0%R.
Proof.
  intros Sx Sy. setup. destruct (sum_defined RF Rtrunc fuel junk kn k0 true reflR MReflect false e ks n c h w HI NE) with (x := x) (y := y) as [v [V1 [V2 V3]]]; args.
  split.
  - exists v. split; [now apply (value_is _ e)|]. split; [now apply (value_is _ e)|]. now apply RF_le in V3.
  - apply (value_is _ e); auto. apply (sum_self RF Rtrunc fuel junk kn k0 true reflR MReflect false e ks n c h w HI NE); args.
Qed.
Theorem gl_sum_triangle (x y z : T) u v t : img x -> img y -> img z ->
  loss_value score_sum fuel junk ks sigma order x z u -> loss_value score_sum fuel junk ks sigma order x y v -> loss_value score_sum fuel junk ks sigma order y z t ->
  (u <= v + t)%R.
Proof.
  intros Sx Sy Sz U V W. setup. apply (value_is _ e) in U, V, W; auto.
  apply RF_le. apply (sum_triangle RF Rtrunc fuel junk kn k0 true reflR MReflect false e ks n c h w HI NE) with (x := x) (y := y) (z := z) (u := u) (v := v) (t := t); args.
Qed.
Theorem gl_sum_scale a (x y x' y' : T) v : img x -> img y ->
  combination (F := RF) a 0%R x x x' -> combination (F := RF) a 0%R y y y' ->
  loss_value score_sum fuel junk ks sigma order x y v -> loss_value score_sum fuel junk ks sigma order x' y' (Rabs a * v)%R.
Proof.
  intros Sx Sy C1 C2 V. setup. apply (value_is _ e) in V; auto. apply (value_is _ e); auto. rewrite <- fabs_R.
  apply (sum_scale RF Rtrunc fuel junk kn k0 true reflR MReflect false e ks n c h w HI NE) with (x := x) (y := y); args.
Qed.
Theorem gl_sum_negated (x y x' : T) v : img x -> img y -> combination (F := RF) (-1)%R 0%R x x x' ->
  loss_value score_sum fuel junk ks sigma order x y v -> loss_value score_sum fuel junk ks sigma order x' y v.
Proof.
  intros Sx Sy C1 V. setup. apply (value_is _ e) in V; auto. apply (value_is _ e); auto.
  apply (sum_negated RF Rtrunc fuel junk kn k0 true reflR MReflect false e ks n c h w HI NE) with (x := x) (y := y); args.
Qed.

(** ** WeightedMul, WeightedDiv *)
Theorem gl_mul_self (x : T) : img x -> loss_value score_mul fuel junk ks sigma order x x 0%R.
Proof.
  intros Sx. setup. apply (value_is _ e); auto. apply (mul_self RF Rtrunc fuel junk kn k0 true reflR MReflect false e ks n c h w HI NE); args.
Qed.
Theorem gl_div_constant (x y : T) v : Z.odd ks = true -> Z.odd order = true -> img x -> img y -> constant_image (F := RF) v y ->
  gauss_loss score_div fuel junk ks sigma order x y = Err ZeroDivisionError.
Proof.
  intros O1 O2 Sx Sy C. setup. unfold gauss_loss. rewrite EI. cbn [bind].
  apply (div_constant RF Rtrunc fuel junk kn k0 true reflR MReflect false e ks n c h w HI NE) with (v := v); args. now apply odd_balanced.
Qed.
Theorem gl_mul_constant (x y : T) kn u v : gaussian_kernel_1d ks sigma order = Ok kn -> img x -> img y -> constant_image (F := RF) u x -> constant_image (F := RF) v y ->
  let g := @wsum RF (used_kernel Rtrunc kn) in
  loss_value score_mul fuel junk ks sigma order x y (Rabs ((v - u) * g) * (v * g))%R.
Proof.
  intros K Sx Sy Cx Cy g. destruct setup as (k0 & kn' & e & K0 & KN & L0 & LN & SU & EI & HI & NE & RD). rewrite K in KN. injection KN as <-.
  apply (value_is _ e); auto.
  assert (H := mul_constant RF Rtrunc fuel junk kn k0 true reflR MReflect false e ks n c h w HI NE ltac:(lia) ltac:(lia) RD x y u v Sx Sy I Cx Cy). cbv zeta in H.
  change [k0] with (repeat k0 1) in H. rewrite (smoothers_id k0 1 SU) in H. cbn [repeat map] in H. unfold EdgeLinear.fprod in H. cbn [fold_right] in H.
  assert (G1 : @gain RF k0 = 1%R). { unfold gain. destruct k0; [cbn in L0; destruct A; lia|]. exact SU. }
  rewrite G1 in H. cbn [fmul f1 RF fsub] in H. rewrite fabs_R in H. fold g in H. rewrite !Rmult_1_r in H. exact H.
Qed.
(** The maps of a constant image. *)
Theorem gl_maps_constant (x d2 d3 : T) kn u : gaussian_kernel_1d ks sigma order = Ok kn -> img x -> constant_image (F := RF) u x ->
  edge_maps fuel junk ks sigma order x d2 d3 ->
  let g := @wsum RF (used_kernel Rtrunc kn) in
  constant_image (F := RF) (u * g)%R d2 /\ constant_image (F := RF) (u * g)%R d3.
Proof.
  intros K Sx Cx M g. destruct setup as (k0 & kn' & e & K0 & KN & L0 & LN & SU & EI & HI & NE & RD). rewrite K in KN. injection KN as <-.
  apply (maps_is e) in M; auto.
  destruct (pair_const RF Rtrunc fuel junk kn k0 true reflR MReflect false e ks n c h w HI NE ltac:(lia) ltac:(lia) RD u x Sx I Cx) as [p2 [p3 [[E1 [E2 _]] [C2 C3]]]].
  destruct M as [F1 [F2 _]]. rewrite F1 in E1. injection E1 as <-. rewrite F2 in E2. injection E2 as <-.
  assert (G1 : @EdgeLinear.fprod RF (map gain (smoothers true [k0])) = 1%R).
  { change [k0] with (repeat k0 1). rewrite (smoothers_id k0 1 SU). cbn [repeat map]. unfold EdgeLinear.fprod. cbn [fold_right]. unfold gain. destruct k0; [cbn in L0; destruct A; lia|].
    change (@wsum RF (r :: k0)) with (np_sum (r :: k0)). rewrite SU. cbn [fmul f1 RF]. lra. }
  match type of C2 with constant_image ?q _ => assert (Q : q = (u * g)%R) end.
  { cbn [fmul RF]. etransitivity; [apply f_equal; exact G1|]. fold g. apply Rmult_1_r. }
  rewrite Q in C2, C3. auto.
Qed.
End G.

(** ** Constant images *)
Theorem gl_l1_constant fuel junk ks sigma order n c h w (x y : tensor RF) kn u v : loss_args fuel ks sigma order n c h w ->
  gaussian_kernel_1d ks sigma order = Ok kn -> shp x = [n; c; h; w] -> shp y = [n; c; h; w] -> constant_image (F := RF) u x -> constant_image (F := RF) v y ->
  loss_value score_l1 fuel junk ks sigma order x y (Rabs ((u - v) * @wsum RF (used_kernel Rtrunc kn)))%R.
Proof.
  intros A K Sx Sy Cx Cy. destruct (maps_exist fuel junk ks sigma order n c h w A x Sx) as [p2 [p3 M1]]. destruct (maps_exist fuel junk ks sigma order n c h w A y Sy) as [t2 [t3 M2]].
  destruct (gl_maps_constant fuel junk ks sigma order n c h w A x p2 p3 kn u K Sx Cx M1) as [P2 P3].
  destruct (gl_maps_constant fuel junk ks sigma order n c h w A y t2 t3 kn v K Sy Cy M2) as [T2 T3].
  destruct (maps_shape _ _ _ _ _ _ _ _ M1) as [S1 S2]. destruct (maps_shape _ _ _ _ _ _ _ _ M2) as [S3 S4].
  assert (H := gl_l1_value fuel junk ks sigma order n c h w A x y p2 p3 t2 t3 _ Sx Sy M1 M2 (pixels_list [n; c; h; w])).
  set (g := @wsum RF (used_kernel Rtrunc kn)) in *.
  rewrite (lsumR_const _ _ (2 * Rabs ((u - v) * g))%R) in H.
  - rewrite (pixels_count n c h w) in H; [|now destruct A|apply pixels_list].
    replace (Rabs ((u - v) * g)) with (IZR (n * c * h * w) * (2 * Rabs ((u - v) * g)) / IZR (2 * (n * c * h * w)))%R; auto.
    rewrite (mult_IZR 2). assert (IZR (n * c * h * w) <> 0%R). { apply not_0_IZR. destruct A as [_ _ _ P _]. nia. } generalize dependent (IZR (n * c * h * w)). intros q _ Hq. field. auto.
  - intros i I. apply In_tindices in I. rewrite P2, P3, T2, T3 by congruence. rewrite <- Rmult_minus_distr_r. lra.
Qed.

(** A constant image of value v. *)
Definition flat (n c h w : Z) (v : R) : tensor RF := mkT [n; c; h; w] (fun _ => v).
Lemma flat_const n c h w v : constant_image (F := RF) v (flat n c h w v).
Proof. intros i _. reflexivity. Qed.
Lemma flat_add n c h w u v : combination (F := RF) 1%R 1%R (flat n c h w u) (flat n c h w v) (flat n c h w (u + v)%R).
Proof. split; [reflexivity|]. split; [reflexivity|]. intros i _. cbn. ring. Qed.
Lemma flat_opp n c h w u : combination (F := RF) (-1)%R 0%R (flat n c h w u) (flat n c h w u) (flat n c h w (- u)%R).
Proof. split; [reflexivity|]. split; [reflexivity|]. intros i _. cbn. ring. Qed.

(** The second-derivative kernel of size 3 and sigma 1 sums to -1 / (1 + 2 exp(-1/2)). *)
Definition dip : R := (- 1 / (1 + 2 * exp (- (1 / 2))))%R.
Lemma dip_neg : (-1 < dip < 0)%R.
Proof.
  unfold dip. assert (E : (0 < exp (- (1 / 2)))%R) by apply exp_pos. split.
  - apply Rmult_lt_reg_r with (1 + 2 * exp (- (1 / 2)))%R; [lra|]. unfold Rdiv. rewrite Rmult_assoc, Rinv_l by lra. lra.
  - apply Rmult_lt_reg_r with (1 + 2 * exp (- (1 / 2)))%R; [lra|]. unfold Rdiv. rewrite Rmult_assoc, Rinv_l by lra. lra.
Qed.
Lemma order2_gain : exists kn, gaussian_kernel_1d 3 1 2 = Ok kn /\ @wsum RF (used_kernel Rtrunc kn) = dip.
Proof.
  destruct kernel3_ex as [_ [_ [_ K]]]. fold dip in K. eexists. split; [exact K|]. pose proof dip_neg as D.
  assert (T0 : Rtrunc 0%R = 0). { apply Rtrunc_pos; [lia|]. cbn. lra. }
  assert (TN : used_kernel (F := RF) Rtrunc [0%R; dip; 0%R] = [0%R; dip; 0%R]).
  { unfold used_kernel. cbn [map]. rewrite T0. reflexivity. }
  etransitivity; [apply f_equal; exact TN|]. unfold wsum. cbn [fold_right fadd f0 RF]. lra.
Qed.
(** The first-derivative kernel of size 2 does not sum to 0 either. *)
Lemma even_gain : exists kn, gaussian_kernel_1d 2 1 1 = Ok kn /\ (@wsum RF (used_kernel Rtrunc kn) < 0)%R.
Proof.
  destruct (gauss_deriv 2 1 1) as [k [K1 [K2 K3]]]; [lia|lra|lia|]. exists k. split; auto.
  rewrite (exact_used RF Rtrunc k Rtrunc_ok); [|apply (other_sizes_exact 2 1 1); auto; try lia; lra].
  set (s := bell_sum (taps 2) 1) in *. assert (S0 : (0 < s)%R) by (apply bell_sum_pos; cbn; lia).
  specialize (K3 (fun k x => match k with O => bell 1 x / s | S O => - (x / (1 * 1)) * bell 1 x / s | _ => 0 end)%R).
  assert (D : derives_gaussian 1 s (Z.to_nat 1) (fun k x => match k with O => bell 1 x / s | S O => - (x / (1 * 1)) * bell 1 x / s | _ => 0 end)%R).
  { split; [intros x; reflexivity|]. intros q x Hq. replace q with 0%nat by lia.
    apply (deriv_ext (fun y => / s * bell 1 y)%R); [intros; unfold Rdiv; ring|].
    replace (- (x / (1 * 1)) * bell 1 x / s)%R with (/ s * (- (x / (1 * 1)) * bell 1 x))%R by (unfold Rdiv; ring).
    apply (derivable_pt_lim_scal (bell 1)). apply bell_deriv. lra. }
  assert (E0 := K3 D 0 ltac:(lia)). assert (E1 := K3 D 1 ltac:(lia)).
  destruct k as [|a [|b [|]]]; cbn [length] in K2; try lia.
  change (Z.to_nat 1) with 1%nat in E0, E1. change (Z.to_nat 0) with 0%nat in E0. change (2 / 2 - 0) with 1 in E0. change (2 / 2 - 1) with 0 in E1.
  cbn [nth] in E0, E1. clearbody s. rewrite E0, E1. unfold wsum. cbn [fold_right fadd f0 RF].
  replace (- (0 / (1 * 1)) * bell 1 0 / s)%R with 0%R by (unfold Rdiv; ring).
  assert (0 < bell 1 1 / s)%R by (apply Rdiv_lt_0_compat; [apply exp_pos|auto]).
  replace (- (1 / (1 * 1)) * bell 1 1 / s)%R with (- (bell 1 1 / s))%R by (field; lra). lra.
Qed.
Lemma small_args fuel ks sigma order : (18 <= fuel)%nat -> 1 <= ks <= 9 -> sigma <> 0%R -> 0 <= order -> loss_args fuel ks sigma order 1 1 3 3.
Proof. intros H1 H2 H3 H4. split; auto; lia. Qed.

(** Orders or kernel sizes that are even: adding a constant to the prediction changes the loss. *)
Theorem gl_bright_refuted fuel junk : (18 <= fuel)%nat ->
  exists ks sigma order n c h w (x y z x' : tensor RF) u v v', (Z.odd ks = false \/ Z.odd order = false) /\ loss_args fuel ks sigma order n c h w /\ shp x = [n; c; h; w] /\ shp y = [n; c; h; w] /\
    combination (F := RF) 1%R 1%R x z x' /\ constant_image (F := RF) u z /\
    loss_value score_l1 fuel junk ks sigma order x y v /\ loss_value score_l1 fuel junk ks sigma order x' y v' /\ v <> v'.
Proof.
  intros Hf. destruct order2_gain as [kn [K G]]. assert (A := small_args fuel 3 1%R 2 Hf ltac:(lia) ltac:(lra) ltac:(lia)).
  exists 3, 1%R, 2, 1, 1, 3, 3, (flat 1 1 3 3 0), (flat 1 1 3 3 0), (flat 1 1 3 3 1), (flat 1 1 3 3 (0 + 1)), 1%R, (Rabs ((0 - 0) * dip)), (Rabs (((0 + 1) - 0) * dip)).
  split; [now right|]. split; auto. split; [reflexivity|]. split; [reflexivity|]. split; [apply flat_add|]. split; [apply flat_const|].
  split. { rewrite <- G. apply (gl_l1_constant fuel junk 3 1 2 1 1 3 3 (flat 1 1 3 3 0) (flat 1 1 3 3 0) kn 0%R 0%R); auto; apply flat_const. }
  split. { rewrite <- G. apply (gl_l1_constant fuel junk 3 1 2 1 1 3 3 (flat 1 1 3 3 (0 + 1)) (flat 1 1 3 3 0) kn (0 + 1)%R 0%R); auto; apply flat_const. }
  pose proof dip_neg. rewrite Rminus_0_r, Rmult_0_l, Rabs_R0. intros E. symmetry in E. revert E. apply Rabs_no_R0. lra.
Qed.
Theorem gl_bright_even_refuted fuel junk : (18 <= fuel)%nat ->
  exists (x y z x' : tensor RF) u v v', loss_args fuel 2 1 1 1 1 3 3 /\ shp x = [1; 1; 3; 3] /\ shp y = [1; 1; 3; 3] /\
    combination (F := RF) 1%R 1%R x z x' /\ constant_image (F := RF) u z /\
    loss_value score_l1 fuel junk 2 1 1 x y v /\ loss_value score_l1 fuel junk 2 1 1 x' y v' /\ v <> v'.
Proof.
  intros Hf. destruct even_gain as [kn [K G]]. assert (A := small_args fuel 2 1%R 1 Hf ltac:(lia) ltac:(lra) ltac:(lia)). set (g := @wsum RF (used_kernel Rtrunc kn)) in *.
  exists (flat 1 1 3 3 0), (flat 1 1 3 3 0), (flat 1 1 3 3 1), (flat 1 1 3 3 (0 + 1)), 1%R, (Rabs ((0 - 0) * g)), (Rabs (((0 + 1) - 0) * g)).
  split; auto. split; [reflexivity|]. split; [reflexivity|]. split; [apply flat_add|]. split; [apply flat_const|].
  split. { apply (gl_l1_constant fuel junk 2 1 1 1 1 3 3 (flat 1 1 3 3 0) (flat 1 1 3 3 0) kn 0%R 0%R); auto; apply flat_const. }
  split. { apply (gl_l1_constant fuel junk 2 1 1 1 1 3 3 (flat 1 1 3 3 (0 + 1)) (flat 1 1 3 3 0) kn (0 + 1)%R 0%R); auto; apply flat_const. }
  rewrite Rminus_0_r, Rmult_0_l, Rabs_R0. intros E. symmetry in E. revert E. apply Rabs_no_R0. lra.
Qed.
(** WeightedMul can be negative. *)
Theorem gl_mul_refuted fuel junk : (18 <= fuel)%nat ->
  exists ks sigma order n c h w (x y : tensor RF) v, loss_args fuel ks sigma order n c h w /\ shp x = [n; c; h; w] /\ shp y = [n; c; h; w] /\
    loss_value score_mul fuel junk ks sigma order x y v /\ (v < 0)%R.
Proof.
  intros Hf. destruct order2_gain as [kn [K G]]. assert (A := small_args fuel 3 1%R 2 Hf ltac:(lia) ltac:(lra) ltac:(lia)).
  exists 3, 1%R, 2, 1, 1, 3, 3, (flat 1 1 3 3 0), (flat 1 1 3 3 1), (Rabs ((1 - 0) * dip) * (1 * dip))%R.
  split; auto. split; [reflexivity|]. split; [reflexivity|]. split.
  - assert (H := gl_mul_constant fuel junk 3 1 2 1 1 3 3 A (flat 1 1 3 3 0) (flat 1 1 3 3 1) kn 0%R 1%R K eq_refl eq_refl (flat_const _ _ _ _ _) (flat_const _ _ _ _ _)).
    cbv zeta in H. rewrite G in H. exact H.
  - pose proof dip_neg. rewrite Rminus_0_r, !Rmult_1_l. rewrite Rabs_left by lra. nra.
Qed.
(** WeightedSum can be 0 for different edges. *)
Theorem gl_sum_refuted fuel junk : (18 <= fuel)%nat ->
  exists ks sigma order n c h w (x y p2 p3 t2 t3 : tensor RF), loss_args fuel ks sigma order n c h w /\ shp x = [n; c; h; w] /\ shp y = [n; c; h; w] /\
    edge_maps fuel junk ks sigma order x p2 p3 /\ edge_maps fuel junk ks sigma order y t2 t3 /\
    loss_value score_sum fuel junk ks sigma order x y 0%R /\ ~ teq p2 t2 /\ ~ teq p3 t3.
Proof.
  intros Hf. destruct order2_gain as [kn [K G]]. assert (A := small_args fuel 3 1%R 2 Hf ltac:(lia) ltac:(lra) ltac:(lia)).
  destruct (maps_exist fuel junk 3 1 2 1 1 3 3 A (flat 1 1 3 3 (- (1))) eq_refl) as [p2 [p3 M1]].
  destruct (maps_exist fuel junk 3 1 2 1 1 3 3 A (flat 1 1 3 3 1) eq_refl) as [t2 [t3 M2]].
  exists 3, 1%R, 2, 1, 1, 3, 3, (flat 1 1 3 3 (- (1))), (flat 1 1 3 3 1), p2, p3, t2, t3.
  split; auto. split; [reflexivity|]. split; [reflexivity|]. split; auto. split; auto.
  split. { apply (gl_sum_negated fuel junk 3 1 2 1 1 3 3 A (flat 1 1 3 3 1)); try reflexivity; [apply flat_opp|].
    apply (gl_sum_metric fuel junk 3 1 2 1 1 3 3 A (flat 1 1 3 3 1) (flat 1 1 3 3 1)); reflexivity. }
  destruct (gl_maps_constant fuel junk 3 1 2 1 1 3 3 A (flat 1 1 3 3 (- (1))) p2 p3 kn _ K eq_refl (flat_const _ _ _ _ _) M1) as [P2 P3].
  destruct (gl_maps_constant fuel junk 3 1 2 1 1 3 3 A (flat 1 1 3 3 1) t2 t3 kn _ K eq_refl (flat_const _ _ _ _ _) M2) as [T2 T3].
  destruct (maps_shape _ _ _ _ _ _ _ _ M1) as [S1 S2]. destruct (maps_shape _ _ _ _ _ _ _ _ M2) as [S3 S4]. rewrite G in *. cbn [shp flat] in *.
  pose proof dip_neg. assert (V : valid [1; 1; 3; 3] [0; 0; 0; 0]) by (repeat constructor; lia).
  split; intros [_ E]; specialize (E [0; 0; 0; 0]).
  - rewrite P2, T2 in E by congruence. specialize (E ltac:(congruence)). lra.
  - rewrite P3, T3 in E by congruence. specialize (E ltac:(congruence)). lra.
Qed.

(** ** Repeated use of one module *)
(** The state after earlier forward calls, with any of the four scores, on any images. *)
Definition loss_after (e : edge_filter RF) (cs : list ((tensor RF -> tensor RF -> res (tensor RF)) * nat * (list Z -> R) * tensor RF * tensor RF)) : edge_filter RF :=
  fold_left (fun e '(score, fuel, junk, x, y) => fst (edge_loss (F := RF) Rtrunc score fuel junk e x y)) cs e.
Lemma edge_loss_state (e : edge_filter RF) score fuel junk x y : exists cs, fst (edge_loss (F := RF) Rtrunc score fuel junk e x y) = edge_after (F := RF) Rtrunc e cs.
Proof.
  unfold edge_loss, edge_tensor. destruct (all_components (F := RF) Rtrunc fuel junk e x (AxSeq [2; 3])) as [e1 r] eqn:E1.
  destruct (l <- r ;; tcat 1 l) as [ep|er].
  - destruct (all_components (F := RF) Rtrunc fuel junk e1 y (AxSeq [2; 3])) as [e2 r2] eqn:E2. exists [EAll fuel junk x (AxSeq [2; 3]); EAll fuel junk y (AxSeq [2; 3])].
    unfold edge_after. cbn [fold_left do_edge]. rewrite E1. cbn [fst]. rewrite E2. reflexivity.
  - exists [EAll fuel junk x (AxSeq [2; 3])]. unfold edge_after. cbn [fold_left do_edge]. rewrite E1. reflexivity.
Qed.
Lemma loss_after_edge cs : forall e : edge_filter RF, exists ds, loss_after e cs = edge_after (F := RF) Rtrunc e ds.
Proof.
  induction cs as [|[[[[score fuel] junk] x] y] cs IH]; intros e; [exists []; reflexivity|].
  unfold loss_after. cbn [fold_left]. destruct (edge_loss_state e score fuel junk x y) as [d1 ->].
  destruct (IH (edge_after (F := RF) Rtrunc e d1)) as [d2 E2]. unfold loss_after in E2. rewrite E2. exists (d1 ++ d2). unfold edge_after. now rewrite fold_left_app.
Qed.
Theorem gl_history ks sigma order (e : edge_filter RF) cs score fuel junk x y : edge_loss_init (NItem ks) (NItem sigma) order = Ok e ->
  snd (edge_loss (F := RF) Rtrunc score fuel junk (loss_after e cs) x y) = snd (edge_loss (F := RF) Rtrunc score fuel junk e x y).
Proof.
  intros E. destruct (loss_after_edge cs e) as [ds ->]. unfold edge_loss_init in E. rewrite reflect_ok in E. cbn [bind] in E.
  unfold gg_init, nds_apply2 in E. cbn [agg_index_shape agg_shapes nds_ishape bind nds_get] in E.
  destruct (gaussian_kernel_1d ks sigma 0) as [k0|] eqn:K0; [|discriminate]. cbn [bind] in E.
  destruct (gaussian_kernel_1d ks sigma order) as [kn|] eqn:KN; [|discriminate]. cbn [bind] in E.
  apply (loss_history RF Rtrunc score fuel junk kn (NItem k0) true (Some reflR) false e ds x y). exact E.
Qed.
