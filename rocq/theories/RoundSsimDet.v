(** SSIM with a rounding function: what the computed map has in common with the exact one (C154). *)
From Coq Require Import Permutation.
From Verif Require Export RoundSsim.
Open Scope Z_scope.

Section Det.
Context {F : ofield}.
Notation T := (tensor F).
(** What the machine makes of the exact result of an operation. *)
Variable rd : F -> F.

(** metrics/ssim.py:103-115, 122-124 at one pixel; numerator and denominator of line 124. Line 112 compares the rounded factor with
    1; here the exact one is compared, which differs only if n / (n - 1) rounds to 1. *)
Definition rd_scale (f t : F) : F := if is_zero (fsub f f1) then t else rd (fmul t (rd f)).
Definition rd_num (K1 K2 f m1 m2 b12 : F) : F :=
  let q12 := rd (fmul m1 m2) in let t12 := rd_scale f (rd (fsub b12 q12)) in
  rd (fmul (rd (fadd (rd (fmul two q12)) (rd (fmul K1 K1)))) (rd (fadd (rd (fmul two t12)) (rd (fmul K2 K2))))).
Definition rd_den (K1 K2 f m1 m2 b11 b22 : F) : F :=
  let q1 := rd (fmul m1 m1) in let q2 := rd (fmul m2 m2) in
  let t1 := rd_scale f (rd (fsub b11 q1)) in let t2 := rd_scale f (rd (fsub b22 q2)) in
  rd (fmul (rd (fadd (rd (fadd q1 q2)) (rd (fmul K1 K1)))) (rd (fadd (rd (fadd t1 t2)) (rd (fmul K2 K2))))).
(** metrics/ssim.py:107-109: [y1 * y2]. *)
Definition rd_prod (x y : T) : T := mkT (shp x) (fun i => rd (fmul (at_ x i) (at_ y i))).
(** metrics/ssim.py:99-124: numerator and denominator at a pixel, for any function that blurs. *)
Definition rd_ssim_num (blur : T -> T) (s : ssim F) (f : F) (y1 y2 : T) (j : list Z) : F :=
  rd_num (ss_K1 s) (ss_K2 s) f (at_ (blur y1) j) (at_ (blur y2) j) (at_ (blur (rd_prod y1 y2)) j).
Definition rd_ssim_den (blur : T -> T) (s : ssim F) (f : F) (y1 y2 : T) (j : list Z) : F :=
  rd_den (ss_K1 s) (ss_K2 s) f (at_ (blur y1) j) (at_ (blur y2) j) (at_ (blur (rd_prod y1 y1)) j) (at_ (blur (rd_prod y2 y2)) j).
(** The map; where the denominator is 0, torch has nan or inf, and the theorems say nothing. *)
Definition rd_ssim_full (blur : T -> T) (s : ssim F) (f : F) (y1 y2 : T) : T :=
  mkT (shp (blur y1)) (fun j => rd (fdiv (rd_ssim_num blur s f y1 y2 j) (rd_ssim_den blur s f y1 y2 j))).

(** v is what adding up p(o) for the o in the list may give: any order, any bracketing; [fl_sum] with a function. *)
Inductive rd_sum {A} (p : A -> F) : list A -> F -> Prop :=
| rd_one o : rd_sum p [o] (p o)
| rd_add l m n u v : rd_sum p l u -> rd_sum p m v -> Permutation n (l ++ m) -> rd_sum p n (rd (fadd u v)).
(** metrics/ssim.py:137-138: the mean of the pixels listed, by a division. *)
Definition rd_mean {A} (p : A -> F) (l : list A) (w : F) : Prop := exists v, rd_sum p l v /\ w = rd (fdiv v (fofZ (Z.of_nat (length l)))).
End Det.

Section DetLaws.
Variable F : ofield.
Add Field Frdt : (f_field F).
Notation T := (tensor F).

Lemma two_plus (a : F) : fmul two a = fadd a a.
Proof. unfold two. ring. Qed.
Lemma zero_rounds (v : F) : rounds f1 v f0.
Proof. unfold rounds. rewrite <- (fabs_opp F). replace (fopp (fsub f0 v)) with v by ring. replace (fmul f1 (fabs v)) with (fabs v) by ring. apply fle_refl. Qed.
Lemma double_large (t v : F) : fle t (fabs v) -> fle t (fabs (fmul two v)).
Proof.
  intros H. apply (fle_trans F _ (fabs v)); [exact H|]. rewrite (fabs_mul F). replace (fabs (@two F)) with (@two F).
  - rewrite two_plus. replace (fabs v) with (fadd (fabs v) f0) at 1 by ring. apply fle_add; [apply fle_refl|apply fabs_nonneg].
  - symmetry. apply fabs_pos. replace (@f0 F) with (fadd (@f0 F) f0) by ring. unfold two. apply fle_add; apply fle_01.
Qed.
Lemma two_zero : fmul two (@f0 F) = f0.
Proof. ring. Qed.
(** An image and itself: 1 at every pixel. *)
Theorem det_self rd blur (s : ssim F) f (x : T) j : rd f1 = f1 -> rd_ssim_den rd blur s f x x j <> f0 -> at_ (rd_ssim_full rd blur s f x x) j = f1.
Proof.
  intros H1 Hd. cbn [rd_ssim_full at_]. assert (E : rd_ssim_num rd blur s f x x j = rd_ssim_den rd blur s f x x j).
  { unfold rd_ssim_num, rd_ssim_den, rd_num, rd_den. cbv zeta. now rewrite !two_plus. }
  rewrite E. replace (fdiv _ _) with (@f1 F) by (field; auto). exact H1.
Qed.
(** The images may be swapped. *)
Theorem det_symmetric rd blur (s : ssim F) f (x y : T) : shp x = shp y -> shp (blur x) = shp (blur y) ->
  (forall u v, shp u = shp x -> teq u v -> teq (blur u) (blur v)) -> shp (blur (rd_prod rd x y)) = shp (blur x) ->
  teq (rd_ssim_full rd blur s f x y) (rd_ssim_full rd blur s f y x).
Proof.
  intros Hs Hb HE Sp. split; [exact Hb|]. cbn [rd_ssim_full shp at_]. intros j Vj. f_equal.
  assert (P : at_ (blur (rd_prod rd x y)) j = at_ (blur (rd_prod rd y x)) j).
  { destruct (HE (rd_prod rd x y) (rd_prod rd y x) eq_refl) as [_ Q]; [|apply Q; rewrite Sp; exact Vj]. split; [exact Hs|]. intros i _. cbn [rd_prod at_]. f_equal. ring. }
  assert (En : rd_ssim_num rd blur s f x y j = rd_ssim_num rd blur s f y x j).
  { unfold rd_ssim_num. rewrite P. unfold rd_num. cbv zeta. now replace (fmul (at_ (blur x) j) (at_ (blur y) j)) with (fmul (at_ (blur y) j) (at_ (blur x) j)) by ring. }
  assert (Ed : rd_ssim_den rd blur s f x y j = rd_ssim_den rd blur s f y x j).
  { unfold rd_ssim_den, rd_den. cbv zeta. set (a := rd (fmul (at_ (blur x) j) _)). set (b := rd (fmul (at_ (blur y) j) _)).
    set (t := rd_scale rd f (rd (fsub _ a))). set (u := rd_scale rd f (rd (fsub _ b))). replace (fadd b a) with (fadd a b) by ring. now replace (fadd u t) with (fadd t u) by ring. }
  now rewrite En, Ed.
Qed.
(** A possible result in the sense of C153. *)
Theorem det_possible e fuel junk rd blur (s : ssim F) f axes (x y : T) : shp x = shp y -> scale_factor s axes = Ok f ->
  (forall v, rounds e v (rd v)) -> (forall v, rd (fmul two (rd v)) = fmul two (rd v)) ->
  (forall z, shp z = shp x -> fl_forward e fuel junk (ss_blur s) z (AxSeq axes) (blur z)) ->
  fl_ssim_full e fuel junk s x y axes (rd_ssim_full rd blur s f x y).
Proof.
  intros Hs Sc HR H2 HB. exists f, (blur x), (blur y), (rd_prod rd x x), (rd_prod rd y y), (rd_prod rd x y), (blur (rd_prod rd x x)), (blur (rd_prod rd y y)), (blur (rd_prod rd x y)).
  assert (P : forall u v : T, shp u = shp v -> fl_map2 e fmul u v (rd_prod rd u v)).
  { intros u v Hv. destruct (tmap2_same fmul u v Hv) as [d [D1 [D2 D3]]]. exists d. split; [exact D1|]. split; [now rewrite D2|]. intros i Vi. rewrite D2 in Vi. rewrite D3 by auto. apply HR. }
  split; [exact Sc|]. split; [now apply HB|]. split; [now apply HB|]. split; [now apply P|]. split; [now apply P|]. split; [now apply P|].
  split; [now apply HB|]. split; [apply HB; cbn; congruence|]. split; [now apply HB|]. split; [reflexivity|]. intros j _. cbn [rd_ssim_full at_].
  set (m1 := at_ (blur x) j). set (m2 := at_ (blur y) j). unfold rd_ssim_num, rd_ssim_den, rd_num, rd_den. cbv zeta. fold m1 m2.
  set (b11 := at_ (blur (rd_prod rd x x)) j). set (b22 := at_ (blur (rd_prod rd y y)) j). set (b12 := at_ (blur (rd_prod rd x y)) j).
  assert (S1 : forall v, fl_scaled e f (rd f) (rd v) (rd_scale rd f (rd v))).
  { intros v. unfold rd_scale. destruct (is_zero (fsub f f1)) eqn:Z; [left|right]; split; auto.
    - apply (is_zero_iff F) in Z. replace f with (fadd (fsub f f1) f1) by ring. rewrite Z. ring.
    - intros E. assert (is_zero (fsub f f1) = true); [|congruence]. apply (is_zero_iff F). rewrite E. ring. }
  assert (S2 : forall v, rd (fmul two (rd_scale rd f (rd v))) = fmul two (rd_scale rd f (rd v))) by (intros v; unfold rd_scale; destruct (is_zero _); apply H2).
  exists (rd (fmul (ss_K1 s) (ss_K1 s))), (rd (fmul (ss_K2 s) (ss_K2 s))), (rd f), (rd (fmul m1 m1)), (rd (fmul m2 m2)), (rd (fmul m1 m2)), (rd (fsub b11 (rd (fmul m1 m1)))), (rd (fsub b22 (rd (fmul m2 m2)))), (rd (fsub b12 (rd (fmul m1 m2)))).
  do 3 eexists. do 8 eexists. rewrite H2, S2.
  do 3 (split; [apply HR|]). split; [split; [apply HR|split; apply HR]|]. split; [split; [apply HR|split; apply HR]|]. split; [split; [apply S1|split; apply S1]|].
  split; [apply HR|]. split; [apply HR|]. split; [split; apply HR|]. split; [split; apply HR|]. split; [apply HR|]. split; [apply HR|]. intros _. apply HR.
Qed.
(** The mean of ones. *)
Lemma ones_sum {A} rd (p : A -> F) l v : rd_sum rd p l v -> (forall o, In o l -> p o = f1) ->
  (forall k, 1 <= k <= Z.of_nat (length l) -> rd (fofZ k) = fofZ k) -> v = fofZ (Z.of_nat (length l)) /\ 1 <= Z.of_nat (length l).
Proof.
  induction 1 as [o|l m n u v Hl IHl Hm IHm P]; intros H1 HR.
  - split; [rewrite H1 by (now left)|]; reflexivity.
  - pose proof (Permutation_length P) as L. rewrite app_length in L.
    destruct IHl as [-> Nl]; [intros o Ho; apply H1, (Permutation_in _ (Permutation_sym P)), in_or_app; now left|intros k Hk; apply HR; lia|].
    destruct IHm as [-> Nm]; [intros o Ho; apply H1, (Permutation_in _ (Permutation_sym P)), in_or_app; now right|intros k Hk; apply HR; lia|].
    rewrite <- (fofZ_add F), <- Nat2Z.inj_add, <- L. split; [apply HR; lia|lia].
Qed.
Theorem det_mean {A} rd (p : A -> F) l w : rd_mean rd p l w -> (forall o, In o l -> p o = f1) ->
  (forall k, 1 <= k <= Z.of_nat (length l) -> rd (fofZ k) = fofZ k) -> w = f1.
Proof.
  intros [v [S ->]] H1 HR. destruct (ones_sum rd p l v S H1 HR) as [-> N].
  replace (fdiv _ _) with (@f1 F) by (field; apply (fofZ_neq0 F); lia). apply (HR 1). lia.
Qed.
(** The score of an image with itself, over any list of pixels. *)
Theorem det_score rd blur (s : ssim F) f (x : T) l w : (forall k, 1 <= k <= Z.of_nat (length l) -> rd (fofZ k) = fofZ k) ->
  (forall j, In j l -> rd_ssim_den rd blur s f x x j <> f0) -> rd_mean rd (at_ (rd_ssim_full rd blur s f x x)) l w -> w = f1.
Proof.
  intros HR Hd M. eapply det_mean; [exact M| |exact HR]. intros j Hj. apply det_self; [|now apply Hd].
  apply (HR 1). destruct l; [destruct Hj|]. cbn [length]. lia.
Qed.
End DetLaws.
