(** The gradient-corrected kernels reproduce constant and affine gray images. *)
From Coq Require Import Ascii String.
From Verif Require Export DemosaicProofs.
Import List. Import ListNotations.
Local Notation length := List.length.
Open Scope string_scope.
Open Scope list_scope.
Open Scope Z_scope.

(** ** integer form of a 5x5 kernel *)
Fixpoint zsumn (n : nat) (f : Z -> Z) : Z := match n with O => 0 | S n' => zsumn n' f + f (Z.of_nat n') end.
Definition zsum (n : Z) f := zsumn (Z.to_nat n) f.
Definition kz (l : list (list Z)) (a b : Z) : Z := nth (Z.to_nat b) (nth (Z.to_nat a) l []) 0.
Definition tr5 (l : list (list Z)) : list (list Z) :=
  map (fun b => map (fun a => kz l (Z.of_nat a) (Z.of_nat b)) (seq 0 5)) (seq 0 5).
Definition kz0 := [[0; 0; -2; 0; 0]; [0; 0; 4; 0; 0]; [-2; 4; 8; 4; -2]; [0; 0; 4; 0; 0]; [0; 0; -2; 0; 0]].
Definition kz1 := [[0; 0; 1; 0; 0]; [0; -2; 0; -2; 0]; [-2; 8; 10; 8; -2]; [0; -2; 0; -2; 0]; [0; 0; 1; 0; 0]].
Definition kz3 := [[0; 0; -3; 0; 0]; [0; 4; 0; 4; 0]; [-3; 0; 12; 0; -3]; [0; 4; 0; 4; 0]; [0; 0; -3; 0; 0]].
(** weights sum to 16/16 and are balanced about the centre in both directions *)
Definition balanced (l : list (list Z)) : Prop :=
  zsum 5 (fun a => zsum 5 (fun b => kz l a b)) = 16 /\
  zsum 5 (fun a => zsum 5 (fun b => kz l a b * (a - 2))) = 0 /\
  zsum 5 (fun a => zsum 5 (fun b => kz l a b * (b - 2))) = 0.
Lemma balanced_all : balanced kz0 /\ balanced kz1 /\ balanced (tr5 kz1) /\ balanced kz3.
Proof. repeat split; reflexivity. Qed.

Lemma cases5 a : 0 <= a < 5 -> a = 0 \/ a = 1 \/ a = 2 \/ a = 3 \/ a = 4.
Proof. lia. Qed.

Section K.
Variable F : ofield.
Add Field Fk : (f_field F).
Open Scope F_scope.
Notation T := (tensor F).

Lemma fsum_ofZ n (f : Z -> Z) : fsum n (fun a => fofZ (f a) : F) = fofZ (zsum n f).
Proof.
  unfold fsum, zsum. induction (Z.to_nat n) as [|m IH]; simpl; auto. rewrite IH, <- fofZ_add. reflexivity.
Qed.
Lemma fsum2_ofZ n m (f : Z -> Z -> Z) :
  fsum n (fun a => fsum m (fun b => fofZ (f a b) : F)) = fofZ (zsum n (fun a => zsum m (f a))).
Proof. rewrite <- fsum_ofZ. apply fsum_ext. intros. apply fsum_ofZ. Qed.

Definition is_kernel (w : matrix) (l : list (list Z)) : Prop :=
  forall a b, (0 <= a < 5)%Z -> (0 <= b < 5)%Z -> mat_at w a b = (q8 (kz l a b) : F).
Lemma kernels : is_kernel wf0 kz0 /\ is_kernel wf1 kz1 /\ is_kernel wf2 (tr5 kz1) /\ is_kernel wf3 kz3.
Proof.
  split; [|split; [|split]]; intros a b Ha Hb; apply cases5 in Ha, Hb;
    destruct Ha as [->|[->|[->|[->| ->]]]], Hb as [->|[->|[->|[->| ->]]]]; reflexivity.
Qed.
Lemma wf_dict_kernel color q : exists l, is_kernel (wf_dict color q) l /\ balanced l.
Proof.
  destruct kernels as (K0 & K1 & K2 & K3). destruct balanced_all as (B0 & B1 & B2 & B3).
  destruct q; simpl; destruct (_ =? _)%Z; eauto.
Qed.

Lemma n16 : (fofZ 16 : F) <> 0.
Proof. apply fofZ_neq0. lia. Qed.

(** a balanced kernel applied to an affine function returns its value at the centre *)
Lemma affine_kernel w l (al be ga : F) (u v : F) : is_kernel w l -> balanced l ->
  fsum 5 (fun a => fsum 5 (fun b => mat_at w a b * (al + be * (u + fofZ (a - 2)) + ga * (v + fofZ (b - 2)))))
  = al + be * u + ga * v.
Proof.
  intros K (B1 & B2 & B3). pose proof n16 as N.
  transitivity (finv (fofZ 16) *
     ((al + be * u + ga * v) * fsum 5 (fun a => fsum 5 (fun b => fofZ (kz l a b)))
      + be * fsum 5 (fun a => fsum 5 (fun b => fofZ (kz l a b * (a - 2)) : F))
      + ga * fsum 5 (fun a => fsum 5 (fun b => fofZ (kz l a b * (b - 2)) : F)))).
  - repeat rewrite <- fsum_mul. rewrite <- !fsum_add, <- fsum_mul. apply fsum_ext; intros a Ha.
    repeat rewrite <- fsum_mul. rewrite <- !fsum_add, <- fsum_mul. apply fsum_ext; intros b Hb.
    rewrite K by auto. unfold q8. rewrite !fofZ_mul. field. auto.
  - pose proof (fsum2_ofZ 5 5 (fun a b => kz l a b)) as E1. pose proof (fsum2_ofZ 5 5 (fun a b => kz l a b * (a - 2)))%Z as E2.
    pose proof (fsum2_ofZ 5 5 (fun a b => kz l a b * (b - 2)))%Z as E3. cbv beta in E1, E2, E3.
    rewrite E1, E2, E3, B1, B2, B3. rewrite fofZ_0. field. auto.
Qed.

Lemma fclamp_id (lo hi v : F) : fle lo v -> fle v hi -> fclamp lo hi v = v.
Proof. unfold fclamp, fle. intros -> H. now rewrite H. Qed.

(** value of the interpolation filter of class q centred at (R, S) *)
Lemma centred_grad (x : T) m n q p o R S :
  centred 1 m n (bc_k (gradient_corrected_interpolator (F := F))) x gradient_corrected_interpolator q p o R S =
  fsum 5 (fun a => fsum 5 (fun b =>
    mat_at (wf_dict (if (o =? 0)%Z then fst (pos_others q) else snd (pos_others q)) q) a b *
    at_ x (p ++ [0%Z; reflect (2 * m) (R + a - 2); reflect (2 * n) (S + b - 2)]))).
Proof.
  unfold centred, gradient_corrected_interpolator, interpolator. cbn [bc_k bc_w bc_bias].
  change (fsum 1 ?f) with (0 + f 0%Z). change (5 / 2)%Z with 2%Z. cbv beta. ring.
Qed.

Section Img.
Variables (pre : list Z) (m n : Z).
Hypothesis Hpre : nonneg pre.
Hypothesis Lpre : (length pre <= 1)%nat.
Hypothesis Hm : (2 <= m)%Z.
Hypothesis Hn : (2 <= n)%Z.
Variables (s sa : string) (cl : F) (img : T).
Hypothesis Hsa : In sa patterns.
Hypothesis Hv : case_variant s sa.
Hypothesis Hs : shp img = pre ++ [3; 2 * m; 2 * n]%Z.

(** one pixel: if the gray image is affine on the reflected 5x5 neighbourhood *)
Lemma demosaic_pixel j0 j1 j2 (g : list Z -> Z -> Z -> F) :
  (forall p ch i j, valid pre p -> (0 <= ch < 3)%Z -> (0 <= i < 2 * m)%Z -> (0 <= j < 2 * n)%Z -> at_ img (p ++ [ch; i; j]) = g p i j) ->
  exists x z, rgb_to_1c_bayer j0 img s = Ok x /\ demosaic j1 j2 x s cl = Ok z /\ shp z = shp img /\
    forall p ch i j al be ga, valid pre p -> (0 <= ch < 3)%Z -> (0 <= i < 2 * m)%Z -> (0 <= j < 2 * n)%Z ->
      (forall a b, (0 <= a < 5)%Z -> (0 <= b < 5)%Z ->
         g p (reflect (2 * m) (i + a - 2)) (reflect (2 * n) (j + b - 2)) = al + be * (fofZ i + fofZ (a - 2)) + ga * (fofZ j + fofZ (b - 2))) ->
      fle 0 (g p i j) -> fle (g p i j) cl ->
      at_ z (p ++ [ch; i; j]) = g p i j.
Proof using Hpre Lpre Hm Hn Hsa Hv Hs.
  intros G. assert (Hm' : (0 <= m)%Z) by lia. assert (Hn' : (0 <= n)%Z) by lia.
  destruct (rgb_to_1c_spec pre m n Hpre Hm' Hn' j0 img s sa Hs Hsa Hv) as (x & Ex & Sx & Vx).
  destruct (demosaic_ok pre m n Hpre Hm' Hn' s sa Hsa Hv gradient_corrected_interpolator x cl eq_refl eq_refl
              ltac:(cbn; lia) Sx j1 j2 Lpre ltac:(cbn [gradient_corrected_interpolator interpolator bc_k]; change (5 / 2)%Z with 2%Z; lia)
              ltac:(cbn [gradient_corrected_interpolator interpolator bc_k]; change (5 / 2)%Z with 2%Z; lia) ltac:(lia) ltac:(lia)) as [z Ez].
  destruct (demosaic_spec pre m n Hpre Hm' Hn' s sa Hsa Hv gradient_corrected_interpolator x cl eq_refl eq_refl
              ltac:(cbn; lia) Sx j1 j2 z Ez) as [Sz Vz].
  exists x, z. split; auto. split; auto. split; [congruence|].
  intros p ch i j al be ga Vp Hch Hi Hj Haff H0 H1.
  destruct (beg_index_spec sa Hsa) as (f & Ef & _ & _ & _ & _ & _ & Hf6).
  destruct (Hf6 (i mod 2)%Z (j mod 2)%Z (mod2 i) (mod2 j)) as [q Hq].
  assert (X : forall a b, (0 <= a < 2 * m)%Z -> (0 <= b < 2 * n)%Z -> at_ x (p ++ [0%Z; a; b]) = g p a b).
  { intros a b Ha Hb. rewrite Vx by auto. apply G; auto. apply chan_ok; auto.
    pose proof (mod2 a). pose proof (mod2 b). lia. }
  rewrite (Vz f Ef q) by auto. cbv zeta.
  match goal with |- fclamp _ _ ?e = _ => assert (e = g p i j) as -> end; [|now apply fclamp_id].
  destruct (ch =? pos_color q)%Z; [now apply X|].
  rewrite centred_grad.
  match goal with |- fsum 5 (fun a => fsum 5 (fun b => mat_at ?w a b * _)) = _ => set (W := w) end.
  destruct (wf_dict_kernel (if ((if (ch <? pos_color q)%Z then ch else (ch - 1)%Z) =? 0)%Z then fst (pos_others q) else snd (pos_others q)) q) as (l & K & B).
  fold W in K.
  transitivity (al + be * fofZ i + ga * fofZ j).
  - rewrite <- (affine_kernel W l al be ga (fofZ i) (fofZ j) K B).
    apply fsum_ext; intros a Ha. apply fsum_ext; intros b Hb. f_equal.
    rewrite X by (apply reflect_in; lia). auto.
  - specialize (Haff 2%Z 2%Z ltac:(lia) ltac:(lia)). rewrite !reflect_id in Haff by lia.
    replace (i + 2 - 2)%Z with i in Haff by lia. replace (j + 2 - 2)%Z with j in Haff by lia. rewrite Haff.
    change (fofZ (2 - 2)) with (0 : F). ring.
Qed.

Lemma demosaic_const j0 j1 j2 v :
  (forall i, valid (shp img) i -> at_ img i = v) -> fle 0 v -> fle v cl ->
  exists x z, rgb_to_1c_bayer j0 img s = Ok x /\ demosaic j1 j2 x s cl = Ok z /\ teq z img.
Proof using Hpre Lpre Hm Hn Hsa Hv Hs.
  intros G H0 H1. destruct (demosaic_pixel j0 j1 j2 (fun _ _ _ => v)) as (x & z & Ex & Ez & Sz & Vz).
  { intros. apply G. rewrite Hs. apply valid_app; auto. apply valid3_i; auto. }
  exists x, z. split; auto. split; auto. split; auto. rewrite Sz. intros w Vw. rewrite (G w Vw). rewrite Hs in Vw.
  apply valid_app_inv in Vw as (p & i3 & -> & Vp & Vi). apply valid3 in Vi as (ch & i & j & -> & Hch & Hi & Hj).
  apply (Vz p ch i j v 0 0); auto. intros. ring.
Qed.

Lemma demosaic_affine j0 j1 j2 (al be ga : list Z -> F) :
  (forall p ch i j, valid pre p -> (0 <= ch < 3)%Z -> (0 <= i < 2 * m)%Z -> (0 <= j < 2 * n)%Z ->
     at_ img (p ++ [ch; i; j]) = al p + be p * fofZ i + ga p * fofZ j) ->
  exists x z, rgb_to_1c_bayer j0 img s = Ok x /\ demosaic j1 j2 x s cl = Ok z /\ shp z = shp img /\
    forall p ch i j, valid pre p -> (0 <= ch < 3)%Z -> (2 <= i < 2 * m - 2)%Z -> (2 <= j < 2 * n - 2)%Z ->
      fle 0 (at_ img (p ++ [ch; i; j])) -> fle (at_ img (p ++ [ch; i; j])) cl ->
      at_ z (p ++ [ch; i; j]) = at_ img (p ++ [ch; i; j]).
Proof using Hpre Lpre Hm Hn Hsa Hv Hs.
  intros G. destruct (demosaic_pixel j0 j1 j2 (fun p i j => al p + be p * fofZ i + ga p * fofZ j) G) as (x & z & Ex & Ez & Sz & Vz).
  exists x, z. split; auto. split; auto. split; auto. intros p ch i j Vp Hch Hi Hj. rewrite G by (auto; lia). intros H0 H1.
  apply (Vz p ch i j (al p) (be p) (ga p)); auto; try lia.
  intros a b Ha Hb. rewrite !reflect_id by lia. replace (i + a - 2)%Z with (i + (a - 2))%Z by lia. replace (j + b - 2)%Z with (j + (b - 2))%Z by lia.
  now rewrite !fofZ_add.
Qed.
End Img.
End K.
