(** Laws of the edge losses. *)
From Verif Require Export EdgeLoss.
Open Scope Z_scope.

(** The loss of (x, y) is v. *)
Definition loss_is {F : ofield} (trunc : F -> Z) (score : tensor F -> tensor F -> res (tensor F)) (fuel : nat) (junk : list Z -> F) (e : edge_filter F)
    (x y : tensor F) (v : F) : Prop :=
  exists s, snd (edge_loss trunc score fuel junk e x y) = Ok s /\ shp s = [] /\ at_ s [] = v.
(** Non-empty images of shape (n, c, h, w), a padder of mode m, kernels up to length k and enough fuel. *)
Record loss_ready {F : ofield} (fuel : nat) (p : padder F) (m : mode F) (k n c h w : Z) : Prop := {
  lr_pos : 0 < n /\ 0 < c /\ 0 < h /\ 0 < w;
  lr_padder : uniform p m;
  lr_fills : fills m;
  lr_mode : m <> MPeriodize;
  lr_fuel : n + c + h + w + k + 1 <= Z.of_nat fuel }.

Section L.
Variable F : ofield.
Add Field Fell : (f_field F).
Notation T := (tensor F).
Variable trunc : F -> Z.
Variables (fuel : nat) (junk : list Z -> F).
Variables (ker sm : list F) (normalize : bool) (p : padder F) (m : mode F) (shared : bool) (e : edge_filter F) (k n c h w : Z).
Hypothesis HI : edge_init (NItem ker) (NItem sm) normalize (Some p) shared = Ok e.
Hypothesis Hker : ker <> [].
Hypothesis Hlk : klen ker <= k.
Hypothesis Hls : klen sm <= k.
Hypothesis RD : loss_ready fuel p m k n c h w.

Lemma ready_image (x : T) : shp x = [n; c; h; w] -> edge_image fuel p m x (AxSeq [2; 3]) [2; 3]%nat (k + 1).
Proof.
  destruct RD as [[P1 [P2 [P3 P4]]] U M NP FU]. intros S. split; auto; unfold ndim; rewrite ?S; cbn [length].
  - split; unfold ndim; rewrite ?S; cbn [length].
    + reflexivity.
    + intros a [<-|[<-|[]]]; lia.
    + repeat constructor; cbn; intuition lia.
  - intros d Hd. destruct d as [|[|[|[|]]]]; cbn; lia.
  - intros a [<-|[<-|[]]]; cbn; lia.
  - intros d Hd. destruct d as [|[|[|[|]]]]; cbn; lia.
Qed.
Lemma two_three a : In a [2; 3]%nat -> length (without a [2; 3]%nat) = 1%nat.
Proof. intros [<-|[<-|[]]]; reflexivity. Qed.
Lemma axes_ok (x : T) : shp x = [n; c; h; w] -> check_axes (Z.of_nat (ndim x)) (AxSeq [2; 3]) = Ok (map Z.of_nat [2; 3]%nat).
Proof. intros S. unfold ndim. rewrite S. reflexivity. Qed.
Lemma int_ok (x : T) a : In a [2; 3]%nat -> check_axes (Z.of_nat (ndim x)) (AxInt (Z.of_nat a)) = Ok [Z.of_nat a].
Proof. intros _. apply check_one. Qed.

Lemma pair_linear a b (x y z : T) : shp x = [n; c; h; w] -> combination a b x y z -> linear_padder p m ->
  exists x2 x3 y2 y3 z2 z3, edge_pair F trunc fuel junk e x x2 x3 /\ edge_pair F trunc fuel junk e y y2 y3 /\ edge_pair F trunc fuel junk e z z2 z3 /\
    combination a b x2 y2 z2 /\ combination a b x3 y3 z3.
Proof.
  intros S C LP. pose proof C as [C1 [C2 _]]. pose proof RD as [_ _ _ NP _].
  assert (G : forall d, In d [2; 3]%nat -> exists x' y' z', snd (component trunc fuel junk e x (AxInt (Z.of_nat d)) (AxSeq [2; 3])) = Ok x' /\
     snd (component trunc fuel junk e y (AxInt (Z.of_nat d)) (AxSeq [2; 3])) = Ok y' /\
     snd (component trunc fuel junk e z (AxInt (Z.of_nat d)) (AxSeq [2; 3])) = Ok z' /\ combination a b x' y' z' /\ shp x' = shp x).
  { intros d Hd. assert (E : expand (length (without d [2; 3]%nat)) (NItem sm) = Some [sm]) by (rewrite (two_three d Hd); reflexivity).
    destruct (component_linear F trunc fuel junk ker (NItem sm) [sm] normalize p m shared e a b x y z (AxInt (Z.of_nat d)) (AxSeq [2; 3]) (AxSeq [2; 3]) d [2; 3]%nat k)
      as [x' [y' [z' [X1 [X2 [X3 X4]]]]]]; auto.
    - now apply int_ok.
    - now apply ready_image.
    - now apply axes_ok.
    - intros s [<-|[]]. auto.
    - exists x', y', z'. do 4 (split; auto).
      apply (component_shape F trunc fuel junk ker (NItem sm) [sm] normalize p m shared e x x' (AxInt (Z.of_nat d)) (AxSeq [2; 3]) (AxSeq [2; 3]) d [2; 3]%nat (k + 1)); auto; try lia.
      + now apply int_ok.
      + now apply ready_image.
      + now apply axes_ok.
      + intros s [<-|[]]. lia. }
  destruct (G 2%nat) as [x2 [y2 [z2 [A1 [A2 [A3 [A4 A5]]]]]]]; [now left|]. destruct (G 3%nat) as [x3 [y3 [z3 [B1 [B2 [B3 [B4 B5]]]]]]]; [now right; left|].
  pose proof A4 as [? [? _]]. pose proof B4 as [? [? _]].
  exists x2, x3, y2, y3, z2, z3. split; [|split; [|split; [|split; auto]]]; (split; [auto|split; [auto|]]); split; congruence.
Qed.
Lemma pair_exists (x : T) : shp x = [n; c; h; w] -> exists d2 d3, edge_pair F trunc fuel junk e x d2 d3.
Proof.
  intros S. pose proof RD as [_ _ _ NP _]. assert (K0 : 0 <= k) by (unfold klen in Hlk; lia).
  assert (N : forall j, ~ In (@MPeriodize F) (repeat m j)) by (intros j I; apply repeat_spec in I; auto).
  assert (G : forall d, In d [2; 3]%nat -> exists y, snd (component trunc fuel junk e x (AxInt (Z.of_nat d)) (AxSeq [2; 3])) = Ok y /\ shp y = shp x).
  { intros d Hd. assert (E : expand (length (without d [2; 3]%nat)) (NItem sm) = Some [sm]) by (rewrite (two_three d Hd); reflexivity).
    destruct (component_same F trunc fuel junk ker (NItem sm) [sm] normalize p shared e x (AxInt (Z.of_nat d)) (AxSeq [2; 3]) d [2; 3]%nat [m] (repeat m (length (without d [2; 3]%nat))))
      as [v [xp [q [ws [cp [y [_ [_ [_ [_ [_ [_ [_ [Y1 [Y2 _]]]]]]]]]]]]]]]; auto.
    - now apply int_ok.
    - now apply axes_ok.
    - apply (edge_image_one F fuel p m x _ _ (k + 1) d ker (ready_image x S) Hd). lia.
    - apply (N 1%nat).
    - apply (edge_image_rest F fuel p m x _ _ (k + 1) d _ (ready_image x S) Hd); [lia|]. apply smoothers_len. intros s [<-|[]]. lia.
    - exists y. split; auto. }
  destruct (G 2%nat) as [y2 [A1 A2]]; [now left|]. destruct (G 3%nat) as [y3 [B1 B2]]; [now right; left|].
  exists y2, y3. split; auto.
Qed.
Lemma pair_const v (x : T) : shp x = [n; c; h; w] -> keeps_constants F m -> constant_image v x ->
  exists d2 d3, edge_pair F trunc fuel junk e x d2 d3 /\
    constant_image (fmul (fmul v (wsum (used_kernel trunc ker))) (fprod (map gain (smoothers normalize [sm])))) d2 /\
    constant_image (fmul (fmul v (wsum (used_kernel trunc ker))) (fprod (map gain (smoothers normalize [sm])))) d3.
Proof.
  intros S KC CI. destruct (pair_exists x S) as [d2 [d3 EP]]. exists d2, d3. split; auto. destruct EP as [E2 [E3 _]].
  assert (G : forall d, In d [2; 3]%nat -> exists y, snd (component trunc fuel junk e x (AxInt (Z.of_nat d)) (AxSeq [2; 3])) = Ok y /\
     constant_image (fmul (fmul v (wsum (used_kernel trunc ker))) (fprod (map gain (smoothers normalize [sm])))) y).
  { intros d Hd. apply (component_const F trunc fuel junk ker (NItem sm) [sm] normalize p m shared e x (AxInt (Z.of_nat d)) (AxSeq [2; 3]) (AxSeq [2; 3]) d [2; 3]%nat k); auto.
    - now apply int_ok.
    - now apply ready_image.
    - now apply axes_ok.
    - rewrite (two_three d Hd). reflexivity.
    - intros s [<-|[]]. auto. }
  destruct (G 2%nat) as [y2 [A1 A2]]; [now left|]. destruct (G 3%nat) as [y3 [B1 B2]]; [now right; left|].
  change (Z.of_nat 2) with 2 in A1. change (Z.of_nat 3) with 3 in B1. rewrite E2 in A1. rewrite E3 in B1. inv A1. inv B1. auto.
Qed.

Definition size : F := fofZ (2 * (n * c * h * w)).
Lemma size_pos : flt f0 size.
Proof. destruct RD as [[P1 [P2 [P3 P4]]] _ _ _ _]. unfold size. apply fofZ_pos. nia. Qed.
Lemma size_ne : size <> f0.
Proof. intros E. pose proof size_pos as SP. rewrite E in SP. now apply (flt_ne F f0 f0). Qed.
Definition gap (p2 p3 t2 t3 : T) (i : list Z) : F := fadd (fabs (fsub (at_ p2 i) (at_ t2 i))) (fabs (fsub (at_ p3 i) (at_ t3 i))).
Definition distance (p2 p3 t2 t3 : T) : F := fdiv (lsum (map (gap p2 p3 t2 t3) (tindices [n; c; h; w]))) size.
Lemma input (x y p2 p3 t2 t3 : T) : shp x = [n; c; h; w] -> shp y = [n; c; h; w] ->
  edge_pair F trunc fuel junk e x p2 p3 -> edge_pair F trunc fuel junk e y t2 t3 -> loss_input trunc fuel junk e x y p2 p3 t2 t3 n c h w.
Proof. intros. split; auto. apply (lr_pos _ _ _ _ _ _ _ _ RD). Qed.
Lemma l1_is (x y p2 p3 t2 t3 : T) : shp x = [n; c; h; w] -> shp y = [n; c; h; w] ->
  edge_pair F trunc fuel junk e x p2 p3 -> edge_pair F trunc fuel junk e y t2 t3 ->
  loss_is trunc score_l1 fuel junk e x y (distance p2 p3 t2 t3).
Proof.
  intros Sx Sy Ex Ey. destruct (l1_value F trunc fuel junk ker (NItem sm) normalize (Some p) shared e HI x y p2 p3 t2 t3 n c h w) as [s [S1 [S2 S3]]]; [now apply input|].
  exists s. split; auto. split; auto. apply S3, pixels_list.
Qed.
Lemma loss_unique score (x y : T) u v : loss_is trunc score fuel junk e x y u -> loss_is trunc score fuel junk e x y v -> u = v.
Proof. intros [s [S1 [_ <-]]] [s' [S1' [_ <-]]]. rewrite S1 in S1'. now inv S1'. Qed.

(** *** GaussianEdgeLoss *)
Lemma dist_refl (p2 p3 : T) : distance p2 p3 p2 p3 = f0.
Proof.
  pose proof size_pos as SP. unfold distance. rewrite (lsum_const F _ f0); [field; apply size_ne|].
  intros i _. unfold gap. replace (fsub (at_ p2 i) (at_ p2 i)) with (@f0 F) by ring. replace (fsub (at_ p3 i) (at_ p3 i)) with (@f0 F) by ring.
  rewrite fabs_zero. ring.
Qed.
Lemma dist_sym (p2 p3 t2 t3 : T) : distance p2 p3 t2 t3 = distance t2 t3 p2 p3.
Proof. unfold distance. f_equal. apply lsum_ext. intros i _. unfold gap. f_equal; apply fabs_sub_comm. Qed.
Lemma gap_nonneg (p2 p3 t2 t3 : T) i : fle f0 (gap p2 p3 t2 t3 i).
Proof. unfold gap. replace (@f0 F) with (fadd (@f0 F) f0) by ring. apply fle_add; apply fabs_nonneg. Qed.
Lemma dist_nonneg (p2 p3 t2 t3 : T) : fle f0 (distance p2 p3 t2 t3).
Proof.
  unfold distance. apply fdiv_nonneg; [|apply size_pos]. apply lsum_nonneg. intros v I. apply in_map_iff in I. destruct I as [i [<- _]]. apply gap_nonneg.
Qed.
Lemma dist_tri (p2 p3 q2 q3 t2 t3 : T) : fle (distance p2 p3 t2 t3) (fadd (distance p2 p3 q2 q3) (distance q2 q3 t2 t3)).
Proof.
  pose proof size_pos as SP. unfold distance.
  replace (fadd _ _) with (fdiv (lsum (map (fun i => fadd (gap p2 p3 q2 q3 i) (gap q2 q3 t2 t3 i)) (tindices [n; c; h; w]))) size).
  - apply fdiv_le; auto. apply lsum_map_le. intros i _. unfold gap.
    eapply fle_trans; [apply fle_add; [apply (fabs_triangle F _ (at_ q2 i))|apply (fabs_triangle F _ (at_ q3 i))]|].
    match goal with |- fle ?a ?b => replace b with a by ring end. apply fle_refl.
  - rewrite lsum_map_add. field. apply size_ne.
Qed.
Lemma dist_zero (p2 p3 t2 t3 : T) : distance p2 p3 t2 t3 = f0 <-> forall i, valid [n; c; h; w] i -> at_ p2 i = at_ t2 i /\ at_ p3 i = at_ t3 i.
Proof.
  pose proof size_pos as SP. assert (NZ : size <> f0) by apply size_ne. split.
  - intros E. assert (E2 : lsum (map (gap p2 p3 t2 t3) (tindices [n; c; h; w])) = f0).
    { unfold distance in E. replace (lsum _) with (fmul (fdiv (lsum (map (gap p2 p3 t2 t3) (tindices [n; c; h; w]))) size) size) by (field; auto). rewrite E. ring. }
    rewrite (lsum_zero_iff F) in E2.
    2:{ intros v I. apply in_map_iff in I. destruct I as [i [<- _]]. apply gap_nonneg. }
    intros i V. assert (G : gap p2 p3 t2 t3 i = f0) by (apply E2, in_map, In_tindices; auto). unfold gap in G.
    pose proof (fabs_nonneg F (fsub (at_ p2 i) (at_ t2 i))) as A. pose proof (fabs_nonneg F (fsub (at_ p3 i) (at_ t3 i))) as B.
    assert (Z2 : fabs (fsub (at_ p2 i) (at_ t2 i)) = f0).
    { apply fle_antisym; auto. rewrite <- G. match goal with |- fle ?a _ => replace a with (fadd a f0) at 1 by ring end. apply fle_add; [apply fle_refl|auto]. }
    rewrite Z2 in G. replace (fadd f0 _) with (fabs (fsub (at_ p3 i) (at_ t3 i))) in G by ring.
    apply (proj1 (fabs_eq0 F _)) in Z2. apply (proj1 (fabs_eq0 F _)) in G. split; [replace (at_ p2 i) with (fadd (fsub (at_ p2 i) (at_ t2 i)) (at_ t2 i)) by ring; rewrite Z2; ring|].
    replace (at_ p3 i) with (fadd (fsub (at_ p3 i) (at_ t3 i)) (at_ t3 i)) by ring. rewrite G. ring.
  - intros H. unfold distance. rewrite (lsum_const F _ f0); [field; auto|]. intros i I. apply In_tindices in I. destruct (H i I) as [-> ->] || destruct (H i I) as [A B].
    unfold gap. try rewrite A, B. replace (fsub (at_ t2 i) (at_ t2 i)) with (@f0 F) by ring. replace (fsub (at_ t3 i) (at_ t3 i)) with (@f0 F) by ring. rewrite fabs_zero. ring.
Qed.
(** Scaling and translating the components. *)
Lemma dist_affine a (p2 p3 t2 t3 p2' p3' t2' t3' o2 o3 : T) :
  (forall i, valid [n; c; h; w] i -> at_ p2' i = fadd (fmul a (at_ p2 i)) (at_ o2 i) /\ at_ p3' i = fadd (fmul a (at_ p3 i)) (at_ o3 i) /\
     at_ t2' i = fadd (fmul a (at_ t2 i)) (at_ o2 i) /\ at_ t3' i = fadd (fmul a (at_ t3 i)) (at_ o3 i)) ->
  distance p2' p3' t2' t3' = fmul (fabs a) (distance p2 p3 t2 t3).
Proof.
  intros H. pose proof size_pos as SP. unfold distance.
  transitivity (fdiv (fmul (fabs a) (lsum (map (gap p2 p3 t2 t3) (tindices [n; c; h; w])))) size); [|field; apply size_ne].
  f_equal. rewrite <- lsum_map_mul. apply lsum_ext. intros i I. apply In_tindices in I. destruct (H i I) as [A [B [C D]]]. unfold gap. rewrite A, B, C, D.
  replace (fsub (fadd (fmul a (at_ p2 i)) (at_ o2 i)) (fadd (fmul a (at_ t2 i)) (at_ o2 i))) with (fmul a (fsub (at_ p2 i) (at_ t2 i))) by ring.
  replace (fsub (fadd (fmul a (at_ p3 i)) (at_ o3 i)) (fadd (fmul a (at_ t3 i)) (at_ o3 i))) with (fmul a (fsub (at_ p3 i) (at_ t3 i))) by ring.
  rewrite !fabs_mul. ring.
Qed.

Theorem l1_defined (x y : T) : shp x = [n; c; h; w] -> shp y = [n; c; h; w] ->
  exists v, loss_is trunc score_l1 fuel junk e x y v /\ loss_is trunc score_l1 fuel junk e y x v /\ fle f0 v.
Proof.
  intros Sx Sy. destruct (pair_exists x Sx) as [p2 [p3 EP]]. destruct (pair_exists y Sy) as [t2 [t3 ET]].
  exists (distance p2 p3 t2 t3). split; [now apply l1_is|]. split; [rewrite dist_sym; now apply l1_is|]. apply dist_nonneg.
Qed.
Theorem l1_self (x : T) : shp x = [n; c; h; w] -> loss_is trunc score_l1 fuel junk e x x f0.
Proof. intros Sx. destruct (pair_exists x Sx) as [p2 [p3 EP]]. rewrite <- (dist_refl p2 p3). now apply l1_is. Qed.
Theorem l1_triangle (x y z : T) u v t : shp x = [n; c; h; w] -> shp y = [n; c; h; w] -> shp z = [n; c; h; w] ->
  loss_is trunc score_l1 fuel junk e x z u -> loss_is trunc score_l1 fuel junk e x y v -> loss_is trunc score_l1 fuel junk e y z t -> fle u (fadd v t).
Proof.
  intros Sx Sy Sz U V W. destruct (pair_exists x Sx) as [p2 [p3 EP]]. destruct (pair_exists y Sy) as [q2 [q3 EQ]]. destruct (pair_exists z Sz) as [t2 [t3 ET]].
  rewrite (loss_unique _ _ _ _ _ U (l1_is x z p2 p3 t2 t3 Sx Sz EP ET)), (loss_unique _ _ _ _ _ V (l1_is x y p2 p3 q2 q3 Sx Sy EP EQ)),
    (loss_unique _ _ _ _ _ W (l1_is y z q2 q3 t2 t3 Sy Sz EQ ET)). apply dist_tri.
Qed.
Theorem l1_zero (x y p2 p3 t2 t3 : T) : shp x = [n; c; h; w] -> shp y = [n; c; h; w] ->
  edge_pair F trunc fuel junk e x p2 p3 -> edge_pair F trunc fuel junk e y t2 t3 ->
  (loss_is trunc score_l1 fuel junk e x y f0 <-> teq p2 t2 /\ teq p3 t3).
Proof.
  intros Sx Sy EP ET. pose proof (l1_is x y p2 p3 t2 t3 Sx Sy EP ET) as L. destruct EP as [_ [_ [P2 P3]]]. destruct ET as [_ [_ [T2 T3]]]. split.
  - intros Z0. pose proof (loss_unique _ _ _ _ _ L Z0) as D. rewrite dist_zero in D. split; (split; [congruence|]); intros i V; apply D; congruence.
  - intros [[_ A] [_ B]]. replace f0 with (distance p2 p3 t2 t3); auto. apply dist_zero. intros i V. split; [apply A|apply B]; congruence.
Qed.
(** z added to both images. *)
Theorem l1_translate (x y z x' y' : T) v : shp x = [n; c; h; w] -> shp y = [n; c; h; w] -> linear_padder p m ->
  combination f1 f1 x z x' -> combination f1 f1 y z y' -> loss_is trunc score_l1 fuel junk e x y v -> loss_is trunc score_l1 fuel junk e x' y' v.
Proof.
  intros Sx Sy LP C1 C2 L. destruct (pair_linear f1 f1 x z x' Sx C1 LP) as [x2 [x3 [z2 [z3 [x2' [x3' [A1 [A2 [A3 [A4 A5]]]]]]]]]].
  destruct (pair_linear f1 f1 y z y' Sy C2 LP) as [y2 [y3 [z2' [z3' [y2' [y3' [B1 [B2 [B3 [B4 B5]]]]]]]]]].
  destruct A2 as [E2 [E3 _]]. destruct B2 as [E2' [E3' _]]. rewrite E2 in E2'. rewrite E3 in E3'. inv E2'. inv E3'.
  rewrite (loss_unique _ _ _ _ _ L (l1_is x y x2 x3 y2 y3 Sx Sy A1 B1)).
  pose proof C1 as [_ [Sx' _]]. pose proof C2 as [_ [Sy' _]].
  replace (distance x2 x3 y2 y3) with (distance x2' x3' y2' y3'). { apply l1_is; auto; congruence. }
  rewrite (dist_affine f1 x2 x3 y2 y3 x2' x3' y2' y3' z2' z3').
  - rewrite fabs_pos by apply fle_01. ring.
  - intros i V. destruct A1 as [_ [_ [S2 S3]]]. destruct B1 as [_ [_ [Q2 Q3]]]. destruct A4 as [_ [_ A4]]. destruct A5 as [_ [_ A5]]. destruct B4 as [_ [_ B4]]. destruct B5 as [_ [_ B5]].
    rewrite A4, A5, B4, B5 by congruence. repeat split; ring.
Qed.
(** Both images multiplied by a. *)
Theorem l1_scale a (x y x' y' : T) v : shp x = [n; c; h; w] -> shp y = [n; c; h; w] -> linear_padder p m ->
  combination a f0 x x x' -> combination a f0 y y y' -> loss_is trunc score_l1 fuel junk e x y v -> loss_is trunc score_l1 fuel junk e x' y' (fmul (fabs a) v).
Proof.
  intros Sx Sy LP C1 C2 L. destruct (pair_linear a f0 x x x' Sx C1 LP) as [x2 [x3 [z2 [z3 [x2' [x3' [A1 [A2 [A3 [A4 A5]]]]]]]]]].
  destruct (pair_linear a f0 y y y' Sy C2 LP) as [y2 [y3 [w2 [w3 [y2' [y3' [B1 [B2 [B3 [B4 B5]]]]]]]]]].
  rewrite (loss_unique _ _ _ _ _ L (l1_is x y x2 x3 y2 y3 Sx Sy A1 B1)).
  pose proof C1 as [_ [Sx' _]]. pose proof C2 as [_ [Sy' _]].
  rewrite <- (dist_affine a x2 x3 y2 y3 x2' x3' y2' y3' (mkT [] (fun _ => f0)) (mkT [] (fun _ => f0))). { apply l1_is; auto; congruence. }
  intros i V. destruct A1 as [_ [_ [S2 S3]]]. destruct B1 as [_ [_ [Q2 Q3]]]. destruct A4 as [_ [_ A4]]. destruct A5 as [_ [_ A5]]. destruct B4 as [_ [_ B4]]. destruct B5 as [_ [_ B5]].
  rewrite A4, A5, B4, B5 by congruence. cbn [at_]. repeat split; ring.
Qed.
(** A constant image z added to one image, for a filter whose kernel sums to zero. *)
Theorem edges_bright (x z x' : T) v p2 p3 p2' p3' : shp x = [n; c; h; w] -> linear_padder p m -> keeps_constants F m -> balanced trunc ker ->
  combination f1 f1 x z x' -> constant_image v z -> edge_pair F trunc fuel junk e x p2 p3 -> edge_pair F trunc fuel junk e x' p2' p3' -> teq p2' p2 /\ teq p3' p3.
Proof.
  intros Sx LP KC [_ BL] C1 CI EP EP'. destruct (pair_linear f1 f1 x z x' Sx C1 LP) as [x2 [x3 [z2 [z3 [x2' [x3' [A1 [A2 [A3 [A4 A5]]]]]]]]]].
  pose proof C1 as [Sz [Sx' _]]. destruct (pair_const v z) as [d2 [d3 [D1 [D2 D3]]]]; auto; [congruence|].
  destruct A1 as [E2 [E3 [S2 S3]]]. destruct EP as [G2 [G3 _]]. rewrite E2 in G2. rewrite E3 in G3. inv G2. inv G3.
  destruct A3 as [E2' [E3' [S2' S3']]]. destruct EP' as [G2 [G3 _]]. rewrite E2' in G2. rewrite E3' in G3. inv G2. inv G3.
  destruct A2 as [Z2 [Z3 [U2 U3]]]. destruct D1 as [G2 [G3 _]]. rewrite Z2 in G2. rewrite Z3 in G3. inv G2. inv G3.
  destruct A4 as [_ [_ A4]]. destruct A5 as [_ [_ A5]]. rewrite BL in D2, D3.
  split; (split; [congruence|]); intros i V; [rewrite A4, D2 by congruence|rewrite A5, D3 by congruence]; ring.
Qed.
Theorem l1_bright (x y z x' : T) v u : shp x = [n; c; h; w] -> shp y = [n; c; h; w] -> linear_padder p m -> keeps_constants F m -> balanced trunc ker ->
  combination f1 f1 x z x' -> constant_image v z -> loss_is trunc score_l1 fuel junk e x y u -> loss_is trunc score_l1 fuel junk e x' y u.
Proof.
  intros Sx Sy LP KC BL C1 CI L. destruct (pair_exists x Sx) as [p2 [p3 EP]]. destruct (pair_exists y Sy) as [t2 [t3 ET]].
  pose proof C1 as [_ [Sx' _]]. destruct (pair_exists x') as [p2' [p3' EP']]; [congruence|].
  destruct (edges_bright x z x' v p2 p3 p2' p3') as [[_ E2] [_ E3]]; auto.
  rewrite (loss_unique _ _ _ _ _ L (l1_is x y p2 p3 t2 t3 Sx Sy EP ET)).
  replace (distance p2 p3 t2 t3) with (distance p2' p3' t2 t3). { apply l1_is; auto; congruence. }
  destruct EP' as [_ [_ [Q2 Q3]]]. unfold distance. f_equal. apply lsum_ext. intros i I. apply In_tindices in I. unfold gap. rewrite E2, E3 by congruence. reflexivity.
Qed.

(** *** WeightedSum *)
Definition half : F := fofZ (2 * (n * c)).
Lemma half_pos : flt f0 half.
Proof. destruct RD as [[P1 [P2 [P3 P4]]] _ _ _ _]. unfold half. apply fofZ_pos. nia. Qed.
Lemma half_ne : half <> f0.
Proof. intros E. pose proof half_pos as SP. rewrite E in SP. now apply (flt_ne F f0 f0). Qed.
Definition mean_at (d : T) (j : list Z) : F := plane_mean (tindices [h; w]) h w d j.
Definition sgap (p2 p3 t2 t3 : T) (j : list Z) : F := fadd (fabs (fsub (mean_at t2 j) (mean_at p2 j))) (fabs (fsub (mean_at t3 j) (mean_at p3 j))).
Definition sdistance (p2 p3 t2 t3 : T) : F := fdiv (lsum (map (sgap p2 p3 t2 t3) (tindices [n; c]))) half.
Lemma sum_is (x y p2 p3 t2 t3 : T) : shp x = [n; c; h; w] -> shp y = [n; c; h; w] ->
  edge_pair F trunc fuel junk e x p2 p3 -> edge_pair F trunc fuel junk e y t2 t3 ->
  loss_is trunc score_sum fuel junk e x y (sdistance p2 p3 t2 t3).
Proof.
  intros Sx Sy Ex Ey. destruct (sum_value F trunc fuel junk ker (NItem sm) normalize (Some p) shared e HI x y p2 p3 t2 t3 n c h w) as [s [S1 [S2 S3]]]; [now apply input|].
  exists s. split; auto. split; auto. apply S3; apply pixels_list.
Qed.
Lemma sdist_refl (p2 p3 : T) : sdistance p2 p3 p2 p3 = f0.
Proof.
  unfold sdistance. rewrite (lsum_const F _ f0); [field; apply half_ne|].
  intros i _. unfold sgap. replace (fsub (mean_at p2 i) (mean_at p2 i)) with (@f0 F) by ring. replace (fsub (mean_at p3 i) (mean_at p3 i)) with (@f0 F) by ring.
  rewrite fabs_zero. ring.
Qed.
Lemma sdist_sym (p2 p3 t2 t3 : T) : sdistance p2 p3 t2 t3 = sdistance t2 t3 p2 p3.
Proof. unfold sdistance. f_equal. apply lsum_ext. intros i _. unfold sgap. f_equal; apply fabs_sub_comm. Qed.
Lemma sdist_nonneg (p2 p3 t2 t3 : T) : fle f0 (sdistance p2 p3 t2 t3).
Proof.
  unfold sdistance. apply fdiv_nonneg; [|apply half_pos]. apply lsum_nonneg. intros v I. apply in_map_iff in I. destruct I as [i [<- _]].
  unfold sgap. replace (@f0 F) with (fadd (@f0 F) f0) by ring. apply fle_add; apply fabs_nonneg.
Qed.
Lemma sdist_tri (p2 p3 q2 q3 t2 t3 : T) : fle (sdistance p2 p3 t2 t3) (fadd (sdistance p2 p3 q2 q3) (sdistance q2 q3 t2 t3)).
Proof.
  unfold sdistance.
  replace (fadd _ _) with (fdiv (lsum (map (fun i => fadd (sgap p2 p3 q2 q3 i) (sgap q2 q3 t2 t3 i)) (tindices [n; c]))) half).
  - apply fdiv_le; [apply half_pos|]. apply lsum_map_le. intros i _. unfold sgap.
    eapply fle_trans; [apply fle_add; [apply (fabs_triangle F _ (mean_at q2 i))|apply (fabs_triangle F _ (mean_at q3 i))]|].
    match goal with |- fle ?a ?b => replace b with a by ring end. apply fle_refl.
  - rewrite lsum_map_add. field. apply half_ne.
Qed.
Lemma mean_scale a (d d' : T) j : valid [n; c] j -> (forall i, valid [n; c; h; w] i -> fabs (at_ d' i) = fmul a (fabs (at_ d i))) -> mean_at d' j = fmul a (mean_at d j).
Proof.
  intros V H. unfold mean_at, plane_mean.
  assert (NZ : @fofZ F (h * w) <> f0) by (destruct RD as [[_ [_ [P3 P4]]] _ _ _ _]; apply fofZ_neq0; nia).
  transitivity (fdiv (fmul a (lsum (map (fun q => fabs (at_ d (j ++ q))) (tindices [h; w])))) (fofZ (h * w))); [|field; auto].
  f_equal. rewrite <- lsum_map_mul. apply lsum_ext. intros q I. apply In_tindices in I. apply H.
  apply valid2 in V. apply valid2 in I. destruct V as (u & v & -> & ? & ?). destruct I as (u' & v' & -> & ? & ?). cbn [app]. apply valid4. repeat eexists; lia.
Qed.
Theorem sum_defined (x y : T) : shp x = [n; c; h; w] -> shp y = [n; c; h; w] ->
  exists v, loss_is trunc score_sum fuel junk e x y v /\ loss_is trunc score_sum fuel junk e y x v /\ fle f0 v.
Proof.
  intros Sx Sy. destruct (pair_exists x Sx) as [p2 [p3 EP]]. destruct (pair_exists y Sy) as [t2 [t3 ET]].
  exists (sdistance p2 p3 t2 t3). split; [now apply sum_is|]. split; [rewrite sdist_sym; now apply sum_is|]. apply sdist_nonneg.
Qed.
Theorem sum_self (x : T) : shp x = [n; c; h; w] -> loss_is trunc score_sum fuel junk e x x f0.
Proof. intros Sx. destruct (pair_exists x Sx) as [p2 [p3 EP]]. rewrite <- (sdist_refl p2 p3). now apply sum_is. Qed.
Theorem sum_triangle (x y z : T) u v t : shp x = [n; c; h; w] -> shp y = [n; c; h; w] -> shp z = [n; c; h; w] ->
  loss_is trunc score_sum fuel junk e x z u -> loss_is trunc score_sum fuel junk e x y v -> loss_is trunc score_sum fuel junk e y z t -> fle u (fadd v t).
Proof.
  intros Sx Sy Sz U V W. destruct (pair_exists x Sx) as [p2 [p3 EP]]. destruct (pair_exists y Sy) as [q2 [q3 EQ]]. destruct (pair_exists z Sz) as [t2 [t3 ET]].
  rewrite (loss_unique _ _ _ _ _ U (sum_is x z p2 p3 t2 t3 Sx Sz EP ET)), (loss_unique _ _ _ _ _ V (sum_is x y p2 p3 q2 q3 Sx Sy EP EQ)),
    (loss_unique _ _ _ _ _ W (sum_is y z q2 q3 t2 t3 Sy Sz EQ ET)). apply sdist_tri.
Qed.
(** Negating the prediction does not change the loss. *)
Theorem sum_negated (x y x' : T) v : shp x = [n; c; h; w] -> shp y = [n; c; h; w] -> linear_padder p m ->
  combination (fopp f1) f0 x x x' -> loss_is trunc score_sum fuel junk e x y v -> loss_is trunc score_sum fuel junk e x' y v.
Proof.
  intros Sx Sy LP C1 L. destruct (pair_linear (fopp f1) f0 x x x' Sx C1 LP) as [x2 [x3 [z2 [z3 [x2' [x3' [A1 [A2 [A3 [A4 A5]]]]]]]]]].
  destruct (pair_exists y Sy) as [t2 [t3 ET]].
  rewrite (loss_unique _ _ _ _ _ L (sum_is x y x2 x3 t2 t3 Sx Sy A1 ET)). pose proof C1 as [_ [Sx' _]].
  replace (sdistance x2 x3 t2 t3) with (sdistance x2' x3' t2 t3). { apply sum_is; auto; congruence. }
  destruct A1 as [_ [_ [S2 S3]]]. destruct A4 as [_ [_ A4]]. destruct A5 as [_ [_ A5]].
  assert (G : forall d d' : T, (forall i, valid [n; c; h; w] i -> at_ d' i = fopp (at_ d i)) -> forall j, valid [n; c] j -> mean_at d' j = mean_at d j).
  { intros d d' H j V. rewrite (mean_scale f1 d d' j V); [ring|]. intros i Vi. rewrite H by auto. rewrite fabs_opp. ring. }
  unfold sdistance. f_equal. apply lsum_ext. intros j I. apply In_tindices in I. unfold sgap.
  rewrite (G x2 x2'), (G x3 x3'); auto; intros i V; [rewrite A5 by congruence|rewrite A4 by congruence]; ring.
Qed.
(** Both images multiplied by a. *)
Theorem sum_scale a (x y x' y' : T) v : shp x = [n; c; h; w] -> shp y = [n; c; h; w] -> linear_padder p m ->
  combination a f0 x x x' -> combination a f0 y y y' -> loss_is trunc score_sum fuel junk e x y v -> loss_is trunc score_sum fuel junk e x' y' (fmul (fabs a) v).
Proof.
  intros Sx Sy LP C1 C2 L. destruct (pair_linear a f0 x x x' Sx C1 LP) as [x2 [x3 [z2 [z3 [x2' [x3' [A1 [A2 [A3 [A4 A5]]]]]]]]]].
  destruct (pair_linear a f0 y y y' Sy C2 LP) as [y2 [y3 [w2 [w3 [y2' [y3' [B1 [B2 [B3 [B4 B5]]]]]]]]]].
  rewrite (loss_unique _ _ _ _ _ L (sum_is x y x2 x3 y2 y3 Sx Sy A1 B1)).
  pose proof C1 as [_ [Sx' _]]. pose proof C2 as [_ [Sy' _]].
  replace (fmul (fabs a) (sdistance x2 x3 y2 y3)) with (sdistance x2' x3' y2' y3'). { apply sum_is; auto; congruence. }
  destruct A1 as [_ [_ [S2 S3]]]. destruct B1 as [_ [_ [Q2 Q3]]]. destruct A4 as [_ [_ A4]]. destruct A5 as [_ [_ A5]]. destruct B4 as [_ [_ B4]]. destruct B5 as [_ [_ B5]].
  assert (G : forall d d' : T, (forall i, valid [n; c; h; w] i -> at_ d' i = fmul a (at_ d i)) -> forall j, valid [n; c] j -> mean_at d' j = fmul (fabs a) (mean_at d j)).
  { intros d d' H j V. apply mean_scale; auto. intros i Vi. rewrite H by auto. apply fabs_mul. }
  unfold sdistance. transitivity (fdiv (fmul (fabs a) (lsum (map (sgap x2 x3 y2 y3) (tindices [n; c])))) half); [|field; apply half_ne].
  f_equal. rewrite <- lsum_map_mul. apply lsum_ext. intros j I. apply In_tindices in I. unfold sgap.
  rewrite (G x2 x2'), (G x3 x3'), (G y2 y2'), (G y3 y3'); auto; try (intros i V; first [rewrite A4 by congruence|rewrite A5 by congruence|rewrite B4 by congruence|rewrite B5 by congruence]; ring).
  replace (fsub (fmul (fabs a) (mean_at y2 j)) (fmul (fabs a) (mean_at x2 j))) with (fmul (fabs a) (fsub (mean_at y2 j) (mean_at x2 j))) by ring.
  replace (fsub (fmul (fabs a) (mean_at y3 j)) (fmul (fabs a) (mean_at x3 j))) with (fmul (fabs a) (fsub (mean_at y3 j) (mean_at x3 j))) by ring.
  rewrite !fabs_mul, (fabs_pos F (fabs a)) by apply fabs_nonneg. ring.
Qed.

(** *** WeightedMul and WeightedDiv *)
Theorem mul_self (x : T) : shp x = [n; c; h; w] -> loss_is trunc score_mul fuel junk e x x f0.
Proof.
  intros Sx. destruct (pair_exists x Sx) as [p2 [p3 EP]].
  destruct (mul_value F trunc fuel junk ker (NItem sm) normalize (Some p) shared e HI x x p2 p3 p2 p3 n c h w) as [s [S1 [S2 S3]]]; [now apply input|].
  exists s. split; auto. split; auto. rewrite (S3 _ (pixels_list _)). fold size. rewrite (lsum_const F _ f0); [field; apply size_ne|].
  intros i _. replace (fsub (at_ p2 i) (at_ p2 i)) with (@f0 F) by ring. replace (fsub (at_ p3 i) (at_ p3 i)) with (@f0 F) by ring. rewrite fabs_zero. ring.
Qed.
(** A constant true image against a constant prediction. *)
Theorem mul_constant (x y : T) u v : shp x = [n; c; h; w] -> shp y = [n; c; h; w] -> keeps_constants F m -> constant_image u x -> constant_image v y ->
  let g := fmul (wsum (used_kernel trunc ker)) (fprod (map gain (smoothers normalize [sm]))) in
  loss_is trunc score_mul fuel junk e x y (fmul (fabs (fmul (fsub v u) g)) (fmul v g)).
Proof.
  intros Sx Sy KC Cx Cy g. destruct (pair_const u x Sx KC Cx) as [p2 [p3 [EP [P2 P3]]]]. destruct (pair_const v y Sy KC Cy) as [t2 [t3 [ET [T2 T3]]]].
  destruct (mul_value F trunc fuel junk ker (NItem sm) normalize (Some p) shared e HI x y p2 p3 t2 t3 n c h w) as [s [S1 [S2 S3]]]; [now apply input|].
  exists s. split; auto. split; auto. rewrite (S3 _ (pixels_list _)). fold size.
  destruct EP as [_ [_ [A2 A3]]]. destruct ET as [_ [_ [B2 B3]]].
  assert (Cnt : Z.of_nat (length (tindices [n; c; h; w])) = n * c * h * w).
  { destruct RD as [[Q1 [Q2 [Q3 Q4]]] _ _ _ _]. pose proof (pixels_block _ _ (pixels_list [n; c; h; w])) as B. cbn [length] in B.
    rewrite (block_length [n; c; h; w] (seq 0 4) [] _); auto.
    - unfold zprod. cbn [seq map nth fold_right]. ring.
    - apply seq_NoDup.
    - intros a I. apply in_seq in I. cbn [length]. lia.
    - cbn [In]. intros a I. intuition lia.
    - cbn. constructor. }
  rewrite (lsum_const F _ (fmul (fofZ 2) (fmul (fabs (fmul (fsub v u) g)) (fmul v g)))).
  - rewrite Cnt. unfold size. rewrite (fofZ_mul F 2). pose proof size_ne as SN. unfold size in SN. rewrite (fofZ_mul F 2) in SN.
    assert (@fofZ F 2 <> f0) by (apply fofZ_neq0; lia).
    assert (@fofZ F (n * c * h * w) <> f0) by (intros E; apply SN; rewrite E; ring).
    generalize dependent (@fofZ F (n * c * h * w)). intros q _ Hq. generalize dependent (@fofZ F 2). intros r Hr. field. auto.
  - intros i I. apply In_tindices in I. rewrite P2, P3, T2, T3 by congruence. unfold g.
    set (U := wsum _). set (G := fprod _). replace (fsub (fmul (fmul v U) G) (fmul (fmul u U) G)) with (fmul (fsub v u) (fmul U G)) by ring.
    change (@fofZ F 2) with (fadd (@f1 F) f1). ring.
Qed.
(** A true image with a zero edge, such as a constant one for a balanced kernel, makes WeightedDiv divide by zero. *)
Theorem div_constant (x y : T) v : shp x = [n; c; h; w] -> shp y = [n; c; h; w] -> keeps_constants F m -> balanced trunc ker -> constant_image v y ->
  snd (edge_loss trunc score_div fuel junk e x y) = Err ZeroDivisionError.
Proof.
  intros Sx Sy KC [_ BL] Cy. destruct (pair_exists x Sx) as [p2 [p3 EP]]. destruct (pair_const v y Sy KC Cy) as [t2 [t3 [ET [T2 T3]]]].
  pose proof RD as [[Q1 [Q2 [Q3 Q4]]] _ _ _ _]. assert (V : valid (shp y) [0; 0; 0; 0]) by (rewrite Sy; repeat constructor; lia).
  apply (div_zero F trunc fuel junk ker (NItem sm) normalize (Some p) shared e HI x y p2 p3 t2 t3 n c h w [0; 0; 0; 0]); auto; [now apply input|].
  left. destruct ET as [_ [_ [B2 B3]]]. rewrite T2 by (rewrite B2; exact V). rewrite BL. ring.
Qed.
End L.

(** Earlier calls of the module's filter do not matter. *)
Theorem loss_history (F : ofield) (trunc : F -> Z) score fuel junk ker smooth normalize pd shared (e : edge_filter F) cs (x y : tensor F) :
  edge_init (NItem ker) smooth normalize pd shared = Ok e ->
  snd (edge_loss trunc score fuel junk (edge_after trunc e cs) x y) = snd (edge_loss trunc score fuel junk e x y).
Proof.
  intros HI. apply init_coh in HI.
  assert (L : elike F e (edge_after trunc e cs)).
  { unfold edge_after. revert e HI. induction cs as [|c cs IH]; intros e HI; cbn [fold_left]; [apply elike_refl|].
    destruct (do_edge_like F trunc e e c (elike_refl F e) HI) as [_ L]. eapply elike_trans; [exact L|]. apply IH. eapply coh_like; eauto. }
  set (e' := edge_after trunc e cs) in *. clearbody e'. unfold edge_loss.
  destruct (edge_tensor_like F trunc fuel junk e e' x L HI) as [E1 E2].
  destruct (edge_tensor_like F trunc fuel junk e' e x (elike_sym _ _ _ L) (coh_like _ _ _ L HI)) as [_ E3].
  destruct (edge_tensor trunc fuel junk e x) as [e1 r]. destruct (edge_tensor trunc fuel junk e' x) as [e1' r']. cbn [fst snd] in *. subst r'. destruct r as [ep|]; auto.
  assert (L1 : elike F e1 e1') by (eapply elike_trans; [apply elike_sym; exact E2|]; eapply elike_trans; [exact L|exact E3]).
  destruct (edge_tensor_like F trunc fuel junk e1 e1' y L1 (coh_like _ _ _ E2 HI)) as [G1 _].
  destruct (edge_tensor trunc fuel junk e1 y) as [e2 r]. destruct (edge_tensor trunc fuel junk e1' y) as [e2' r']. cbn [fst snd] in *. subst r'. reflexivity.
Qed.
