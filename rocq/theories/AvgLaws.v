(** Laws of averages that leave the padding out (AvgPoolNd with count_include_pad=False). *)
From Coq Require Import Sorted Permutation.
From Verif Require Export AvgOriginal PoolLinear.
Open Scope Z_scope.

(** A call of AvgPoolNd(ks, stride, same_padder=p) with zero padding whose output lengths come in the same order whether or not the
    axes are sorted (the condition of C40): [lens d] is the output length of axis d, B are the axes in ascending order. *)
Record avg_call (F : ofield) (fuel : nat) (ks : nds Z) (stride : nds (option Z)) (m : pool F) (x : tensor F) (ax : axes_arg) (al : list nat) (l : list Z)
    (sts : list (option Z)) (p : padder F) (ms : list (mode F)) (lens : nat -> Z) (B : list nat) : Prop := {
  ac_axes : al <> []; ac_size : expand (length al) ks = Some l; ac_stride : expand (length al) stride = Some sts;
  ac_init : avg_init ks stride (Some p) = Ok m;
  ac_same : same_call F fuel p x ax al ms (map (avg_ker F) l) (map2 stride_or_size l sts);
  ac_zero : every_axis (length al) p (fun m cv _ => m = MConstant /\ cv = (f0, f0));
  ac_pos : forall k, In k l -> 1 <= k;
  ac_lens : forall r, (r < length al)%nat -> is_ceil_div (nth (nth r al 0%nat) (shp x) 0) (nth r (map2 stride_or_size l sts) 1) (lens (nth r al 0%nat));
  ac_sorted : StronglySorted lt B; ac_perm : Permutation al B; ac_order : map lens B = map lens al }.

Section AL.
Variable F : ofield.
Add Field Fal : (f_field F).
Notation T := (tensor F).

Lemma avg_call_shape fuel ks stride m (x x' : T) ax al l sts p ms lens B : shp x' = shp x ->
  avg_call F fuel ks stride m x ax al l sts p ms lens B -> avg_call F fuel ks stride m x' ax al l sts p ms lens B.
Proof. intros S []. constructor; auto; [eapply same_call_shape; eauto|now rewrite S]. Qed.

(** The sum of the members of a window, and their number: [b] tells which offsets are members. *)
Definition part (l : list Z) (b : list Z -> bool) (f : list Z -> F) : F := bsum l (fun o => if b o then f o else f0).

(** All images of one shape are averaged with the same windows. *)
Lemma avg_windows fuel junk ks stride m (x : T) ax al l sts p ms lens B : avg_call F fuel ks stride m x ax al l sts p ms lens B ->
  exists s b src, (forall j, valid s j -> fle f1 (part l (b j) (fun _ => f1))) /\
   (forall j o, valid s j -> valid l o -> b j o = true -> valid (shp x) (src j o)) /\
   forall x' : T, shp x' = shp x -> exists y, snd (avg_forward fuel junk false m x' ax) = Ok y /\ shp y = s /\
    forall j, valid s j -> at_ y j = fdiv (part l (b j) (fun o => at_ x' (src j o))) (part l (b j) (fun _ => f1)).
Proof.
  intros C. pose proof C as [H1 H2 H3 H4 H5 H6 H7 H8 H9 H10 H11].
  destruct (avg_original F fuel junk ks stride m x ax al l sts p ms lens B H1 H2 H3 H4 H5 H6 H7 H8 H9 H10 H11) as [ws [y [W1 [W2 [Y1 [Y2 [Y3 [Y4 Y5]]]]]]]].
  set (S := map2 stride_or_size l sts) in *. pose proof H5 as [[O1 O2 O3] _ _ _ P5 _ _ _].
  assert (Ll : length l = length al) by (eapply expand_length; eauto).
  assert (LS : length S = length al) by (unfold S; rewrite map2_length; apply expand_length in H3; rewrite Ll, H3; apply Nat.min_id).
  exists (shp y), (fun j o => inside al S ws (shp x) j o), (fun j o => source al S ws j o). split; [|split].
  - intros j Vj. apply (Y5 j Vj).
  - intros j o Vj Vo I. assert (Lo : length o = length al) by (rewrite (valid_length _ _ Vo); exact Ll).
    pose proof (valid_length _ _ Vj) as Lj. assert (Lj' : length j = length (shp x)) by (unfold ndim in Y2; congruence).
    rewrite inside_iff in I by auto. apply valid_iff. rewrite source_length. split; [auto|]. intros d Hd.
    destruct (in_dec Nat.eq_dec d al) as [D|D].
    + destruct (In_nth _ _ 0%nat D) as [r [Hr <-]]. rewrite source_nth; auto. intros a Ha. specialize (O2 a Ha). unfold ndim in O2. lia.
    + rewrite source_notin by auto. rewrite <- Y4 by auto. apply valid_nth; auto. unfold ndim in Y2. lia.
  - intros x' Sx. pose proof (avg_call_shape _ _ _ _ _ _ _ _ _ _ _ _ _ _ Sx C) as [G1 G2 G3 G4 G5 G6 G7 G8 G9 G10 G11].
    destruct (avg_original F fuel junk ks stride m x' ax al l sts p ms lens B G1 G2 G3 G4 G5 G6 G7 G8 G9 G10 G11) as [ws' [y' [W1' [W2' [Y1' [Y2' [Y3' [Y4' Y5']]]]]]]].
    assert (Ew : ws' = ws).
    { apply nth_ext with (d := (0, 0)) (d' := (0, 0)); [congruence|]. intros r Hr. rewrite W1' in Hr. specialize (W2' r Hr). rewrite Sx in W2'. eapply same_width_unique; [|exact W2'|exact (W2 r Hr)]. apply P5; auto. }
    subst ws'. assert (Sy : shp y' = shp y).
    { apply nth_ext with (d := 0) (d' := 0); [unfold ndim in *; congruence|]. intros d _. destruct (in_dec Nat.eq_dec d al) as [D|D].
      - destruct (In_nth _ _ 0%nat D) as [r [Hr <-]]. rewrite (Y3' r _ Hr (G8 r Hr)), (Y3 r _ Hr (H8 r Hr)). reflexivity.
      - rewrite Y4', Y4, Sx by auto. reflexivity. }
    exists y'. split; auto. split; auto. rewrite <- Sy. intros j Vj. destruct (Y5' j Vj) as [_ ->]. unfold inside_sum, inside_count. fold S. rewrite Sx. reflexivity.
Qed.

Lemma part_affine l b (f : list Z -> F) a c : part l b (fun o => fadd (fmul a (f o)) c) = fadd (fmul a (part l b f)) (fmul c (part l b (fun _ => f1))).
Proof.
  unfold part. rewrite <- !bsum_mul, <- bsum_add. apply bsum_ext. intros o _. destruct (b o); ring.
Qed.
Lemma part_add l b (f g : list Z -> F) : part l b (fun o => fadd (f o) (g o)) = fadd (part l b f) (part l b g).
Proof. unfold part. rewrite <- bsum_add. apply bsum_ext. intros o _. destruct (b o); ring. Qed.
Lemma part_ext l b (f g : list Z -> F) : (forall o, valid l o -> b o = true -> f o = g o) -> part l b f = part l b g.
Proof. intros H. apply bsum_ext. intros o V. specialize (H o V). destruct (b o); auto. Qed.
Lemma part_le l b (f g : list Z -> F) : (forall o, valid l o -> b o = true -> fle (f o) (g o)) -> fle (part l b f) (part l b g).
Proof. intros H. apply bsum_le. intros o V. specialize (H o V). destruct (b o); auto. apply fle_refl. Qed.
Lemma ge1_pos (c : F) : fle f1 c -> flt f0 c /\ c <> f0.
Proof.
  intros H. assert (P : flt f0 c) by (eapply flt_fle_trans; [apply flt_01|exact H]). split; auto. intros E. rewrite E in P. now apply (flt_ne F f0 f0 P).
Qed.

Theorem avg_affine fuel junk ks stride m (x x' : T) ax al l sts p ms lens B a c : avg_call F fuel ks stride m x ax al l sts p ms lens B ->
  shp x' = shp x -> (forall i, valid (shp x) i -> at_ x' i = fadd (fmul a (at_ x i)) c) ->
  exists y y', snd (avg_forward fuel junk false m x ax) = Ok y /\ snd (avg_forward fuel junk false m x' ax) = Ok y' /\ shp y' = shp y /\
    forall j, valid (shp y) j -> at_ y' j = fadd (fmul a (at_ y j)) c.
Proof.
  intros C S H. destruct (avg_windows fuel junk _ _ _ _ _ _ _ _ _ _ _ _ C) as [s [b [src [W1 [W2 W3]]]]].
  destruct (W3 x eq_refl) as [y [Y1 [Y2 Y3]]]. destruct (W3 x' S) as [y' [Z1 [Z2 Z3]]]. exists y, y'. repeat split; auto; [congruence|]. rewrite Y2. intros j Vj.
  rewrite Y3, Z3 by auto. rewrite (part_ext l (b j) _ (fun o => fadd (fmul a (at_ x (src j o))) c)) by (intros o Vo Bo; apply H, W2; auto).
  rewrite part_affine. destruct (ge1_pos _ (W1 j Vj)) as [_ N]. field. exact N.
Qed.
Theorem avg_constant fuel junk ks stride m (x : T) ax al l sts p ms lens B c : avg_call F fuel ks stride m x ax al l sts p ms lens B ->
  (forall i, valid (shp x) i -> at_ x i = c) ->
  exists y, snd (avg_forward fuel junk false m x ax) = Ok y /\ forall j, valid (shp y) j -> at_ y j = c.
Proof.
  intros C H. destruct (avg_affine fuel junk _ _ _ x x _ _ _ _ _ _ _ _ f0 c C eq_refl) as [y [y' [Y1 [Y2 [_ Y3]]]]]; [intros i V; rewrite H by auto; ring|].
  rewrite Y1 in Y2. injection Y2 as <-. exists y. split; auto. intros j V. rewrite Y3 by auto. ring.
Qed.
Theorem avg_order fuel junk ks stride m (x x' : T) ax al l sts p ms lens B : avg_call F fuel ks stride m x ax al l sts p ms lens B ->
  shp x' = shp x -> (forall i, valid (shp x) i -> fle (at_ x i) (at_ x' i)) ->
  exists y y', snd (avg_forward fuel junk false m x ax) = Ok y /\ snd (avg_forward fuel junk false m x' ax) = Ok y' /\ shp y' = shp y /\
    forall j, valid (shp y) j -> fle (at_ y j) (at_ y' j).
Proof.
  intros C S H. destruct (avg_windows fuel junk _ _ _ _ _ _ _ _ _ _ _ _ C) as [s [b [src [W1 [W2 W3]]]]].
  destruct (W3 x eq_refl) as [y [Y1 [Y2 Y3]]]. destruct (W3 x' S) as [y' [Z1 [Z2 Z3]]]. exists y, y'. repeat split; auto; [congruence|]. rewrite Y2. intros j Vj.
  rewrite Y3, Z3 by auto. destruct (ge1_pos _ (W1 j Vj)) as [P _]. apply fdiv_le; auto. apply part_le. intros o Vo Bo. apply H, W2; auto.
Qed.
Theorem avg_range fuel junk ks stride m (x : T) ax al l sts p ms lens B lo hi : avg_call F fuel ks stride m x ax al l sts p ms lens B ->
  (forall i, valid (shp x) i -> fle lo (at_ x i) /\ fle (at_ x i) hi) ->
  exists y, snd (avg_forward fuel junk false m x ax) = Ok y /\ forall j, valid (shp y) j -> fle lo (at_ y j) /\ fle (at_ y j) hi.
Proof.
  intros C H. set (u v := mkT (shp x) (fun _ => v) : T).
  assert (Cu : forall v, avg_call F fuel ks stride m (u v) ax al l sts p ms lens B) by (intros v; now apply (avg_call_shape _ _ _ _ x)).
  destruct (avg_order fuel junk _ _ _ (u lo) x _ _ _ _ _ _ _ _ (Cu lo) eq_refl) as [y0 [y [A1 [A2 [A3 A4]]]]]; [intros i V; apply (H i V)|].
  destruct (avg_order fuel junk _ _ _ x (u hi) _ _ _ _ _ _ _ _ C eq_refl) as [y' [y1 [B1 [B2 [B3 B4]]]]]; [intros i V; apply (H i V)|].
  rewrite A2 in B1. injection B1 as <-.
  destruct (avg_constant fuel junk _ _ _ (u lo) _ _ _ _ _ _ _ _ lo (Cu lo)) as [z0 [C1 C2]]; [reflexivity|]. rewrite A1 in C1. injection C1 as <-.
  destruct (avg_constant fuel junk _ _ _ (u hi) _ _ _ _ _ _ _ _ hi (Cu hi)) as [z1 [D1 D2]]; [reflexivity|]. rewrite B2 in D1. injection D1 as <-.
  exists y. split; auto. intros j V. split.
  - rewrite <- (C2 j) by congruence. apply A4. congruence.
  - rewrite <- (D2 j) by congruence. auto.
Qed.
Theorem avg_sum fuel junk ks stride m (x x' x2 : T) ax al l sts p ms lens B : avg_call F fuel ks stride m x ax al l sts p ms lens B ->
  shp x' = shp x -> shp x2 = shp x -> (forall i, valid (shp x) i -> at_ x2 i = fadd (at_ x i) (at_ x' i)) ->
  exists y y' y2, snd (avg_forward fuel junk false m x ax) = Ok y /\ snd (avg_forward fuel junk false m x' ax) = Ok y' /\ snd (avg_forward fuel junk false m x2 ax) = Ok y2 /\
    shp y' = shp y /\ shp y2 = shp y /\ forall j, valid (shp y) j -> at_ y2 j = fadd (at_ y j) (at_ y' j).
Proof.
  intros C S S2 H. destruct (avg_windows fuel junk _ _ _ _ _ _ _ _ _ _ _ _ C) as [s [b [src [W1 [W2 W3]]]]].
  destruct (W3 x eq_refl) as [y [Y1 [Y2 Y3]]]. destruct (W3 x' S) as [y' [Z1 [Z2 Z3]]]. destruct (W3 x2 S2) as [y2 [X1 [X2 X3]]]. exists y, y', y2. repeat split; auto; try congruence. rewrite Y2. intros j Vj.
  rewrite Y3, Z3, X3 by auto. rewrite (part_ext l (b j) _ (fun o => fadd (at_ x (src j o)) (at_ x' (src j o)))) by (intros o Vo Bo; apply H, W2; auto).
  rewrite part_add. destruct (ge1_pos _ (W1 j Vj)) as [_ N]. field. exact N.
Qed.
End AL.
