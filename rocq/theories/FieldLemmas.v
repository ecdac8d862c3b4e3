(** Facts about ordered fields and finite sums; instances over Qc and R. *)
From Verif Require Export BaseLemmas.
From Coq Require Import QArith Qcanon.

Section FieldFacts.
Variable F : ofield.
Open Scope F_scope.

Definition fle (a b : F) : Prop := fleb a b = true.
Definition flt (a b : F) : Prop := fleb b a = false.

Add Field Ffield : (f_field F).

Lemma fle_refl a : fle a a. Proof. apply f_leb_refl. Qed.
Lemma fle_trans a b c : fle a b -> fle b c -> fle a c. Proof. apply f_leb_trans. Qed.
Lemma fle_antisym a b : fle a b -> fle b a -> a = b. Proof. apply f_leb_antisym. Qed.
Lemma fle_total a b : fle a b \/ fle b a. Proof. apply f_leb_total. Qed.
Lemma flt_fle a b : flt a b -> fle a b.
Proof. unfold flt, fle. intros. destruct (f_leb_total _ a b); congruence. Qed.
Lemma flt_ne a b : flt a b -> a <> b.
Proof. intros H ->. unfold flt in H. rewrite f_leb_refl in H. discriminate. Qed.
Lemma fle_ne_flt a b : fle a b -> a <> b -> flt a b.
Proof.
  intros H N. unfold flt. destruct (fleb b a) eqn:E; auto. exfalso. apply N. now apply fle_antisym.
Qed.
Lemma fle_flt_trans a b c : fle a b -> flt b c -> flt a c.
Proof.
  unfold fle, flt. intros. destruct (fleb c a) eqn:E; auto.
  rewrite (f_leb_trans _ c a b) in H0; auto.
Qed.
Lemma flt_fle_trans a b c : flt a b -> fle b c -> flt a c.
Proof.
  unfold fle, flt. intros. destruct (fleb c a) eqn:E; auto.
  rewrite (f_leb_trans _ b c a) in H; auto.
Qed.
Lemma fle_dec_flt a b : fle a b \/ flt b a.
Proof. unfold fle, flt. destruct (fleb a b); auto. Qed.

Lemma fle_add a b c d : fle a b -> fle c d -> fle (a + c) (b + d).
Proof.
  intros H1 H2. apply fle_trans with (b + c).
  - now apply f_leb_add.
  - replace (b + c) with (c + b) by ring. replace (b + d) with (d + b) by ring. now apply f_leb_add.
Qed.
Lemma fle_sub_nonneg a b : fle a b <-> fle 0 (b - a).
Proof.
  split; intros H.
  - apply (f_leb_add _ _ _ (- a)) in H. unfold fle. replace 0 with (a + - a) by ring.
    replace (b - a) with (b + - a) by ring. exact H.
  - apply (f_leb_add _ _ _ a) in H. unfold fle. replace (0 + a) with a in H by ring.
    replace (b - a + a) with b in H by ring. exact H.
Qed.
Lemma fle_sub1 a b : fle a b -> fle 0 (b - a). Proof. apply fle_sub_nonneg. Qed.
Lemma fle_sub2 a b : fle 0 (b - a) -> fle a b. Proof. apply fle_sub_nonneg. Qed.
Lemma fle_opp a b : fle a b -> fle (- b) (- a).
Proof. intros H. apply fle_sub2. replace (- a - - b) with (b - a) by ring. now apply fle_sub1. Qed.
Lemma fmul_nonneg a b : fle 0 a -> fle 0 b -> fle 0 (a * b).
Proof. apply f_leb_mul. Qed.
Lemma fmul_le_l a b c : fle 0 c -> fle a b -> fle (c * a) (c * b).
Proof.
  intros H1 H2. apply fle_sub2. replace (c * b - c * a) with (c * (b - a)) by ring.
  apply fmul_nonneg; auto. now apply fle_sub1.
Qed.
Lemma fsq_nonneg a : fle 0 (a * a).
Proof.
  destruct (fle_total 0 a) as [H|H].
  - now apply fmul_nonneg.
  - apply fle_opp in H. replace (- @f0 F) with (0:F) in H by ring.
    replace (a * a) with (- a * - a) by ring. now apply fmul_nonneg.
Qed.
Lemma f1_neq_f0 : (1:F) <> 0.
Proof. apply (F_1_neq_0 (f_field F)). Qed.
Lemma fle_01 : fle 0 1.
Proof. replace (1:F) with (@fmul F f1 f1) by ring. apply fsq_nonneg. Qed.
Lemma flt_01 : flt (0:F) 1.
Proof. apply fle_ne_flt. apply fle_01. intros H; symmetry in H; now apply f1_neq_f0. Qed.
Lemma fmul_eq0 (a b : F) : a * b = 0 -> a = 0 \/ b = 0.
Proof.
  intros H. destruct (fle_dec_flt a 0) as [H1|H1].
  - destruct (fle_dec_flt 0 a) as [H2|H2].
    + left. now apply fle_antisym.
    + right. assert (a <> 0) by now apply flt_ne.
      replace b with (finv a * (a * b)). rewrite H; ring. field; auto.
  - right. assert (a <> 0) by (intros ->; now apply (flt_ne 0 0)).
    replace b with (finv a * (a * b)). rewrite H; ring. field; auto.
Qed.
Lemma fmul_pos a b : flt 0 a -> flt 0 b -> flt 0 (a * b).
Proof.
  intros H1 H2. apply fle_ne_flt.
  - apply fmul_nonneg; now apply flt_fle.
  - intros E. symmetry in E. apply fmul_eq0 in E. destruct E as [->| ->];
      [apply (flt_ne _ _ H1)|apply (flt_ne _ _ H2)]; reflexivity.
Qed.
Lemma finv_pos a : flt 0 a -> flt 0 (finv a).
Proof.
  intros H. assert (Ha : a <> 0) by (intros ->; now apply (flt_ne 0 0)).
  destruct (fle_dec_flt (finv a) 0) as [H1|H1]; auto. exfalso.
  assert (H2 : fle (a * finv a) 0).
  { replace (0:F) with (a * 0) by ring. apply fmul_le_l; auto. now apply flt_fle. }
  replace (a * finv a) with (1:F) in H2 by (field; auto).
  apply f1_neq_f0. apply fle_antisym; auto. apply fle_01.
Qed.
Lemma fdiv_nonneg a b : fle 0 a -> flt 0 b -> fle 0 (a / b).
Proof.
  intros. assert (b <> 0) by (intros ->; now apply (flt_ne 0 0)).
  replace (a / b) with (a * finv b) by (field; auto).
  apply fmul_nonneg; auto. apply flt_fle. now apply finv_pos.
Qed.
Lemma fdiv_le a b c : flt 0 c -> fle a b -> fle (a / c) (b / c).
Proof.
  intros. assert (c <> 0) by (intros ->; now apply (flt_ne 0 0)).
  apply fle_sub2. replace (b / c - a / c) with ((b - a) / c) by (field; auto).
  apply fdiv_nonneg; auto. now apply fle_sub1.
Qed.
Lemma fadd_pos a b : flt 0 a -> fle 0 b -> flt 0 (a + b).
Proof.
  intros H1 H2. eapply flt_fle_trans; eauto. apply fle_sub2.
  replace (a + b - a) with b by ring. auto.
Qed.

(** Integers. *)
Lemma fofpos_succ p : fofpos (Pos.succ p) = (1 + fofpos p : F).
Proof. induction p; simpl; try ring. rewrite IHp. ring. Qed.
Lemma fofpos_nonneg p : flt 0 (fofpos p : F).
Proof.
  induction p using Pos.peano_ind; [apply flt_01|]. rewrite fofpos_succ.
  apply fadd_pos; [apply flt_01|now apply flt_fle].
Qed.
Lemma fofpos_add p q : fofpos (p + q) = (fofpos p + fofpos q : F).
Proof.
  induction p using Pos.peano_ind.
  - rewrite Pos.add_1_l, fofpos_succ. reflexivity.
  - rewrite Pos.add_succ_l, !fofpos_succ, IHp. ring.
Qed.
Lemma fofZ_succ z : fofZ (z + 1) = (fofZ z + 1 : F).
Proof.
  destruct z as [|p|p]; simpl.
  - ring.
  - rewrite fofpos_add. reflexivity.
  - destruct p; simpl.
    + ring.
    + change (Pos.pred_double p) with (Pos.pred_double p).
      assert (E : (fofpos (Pos.pred_double p) : F) + 1 = fofpos p + fofpos p).
      { replace (@fofpos F (Pos.pred_double p) + 1) with (1 + @fofpos F (Pos.pred_double p)) by ring.
        rewrite <- fofpos_succ, Pos.succ_pred_double. reflexivity. }
      rewrite <- E. ring.
    + ring.
Qed.
Lemma fofZ_0 : fofZ 0 = (0:F). Proof. reflexivity. Qed.
Lemma fofZ_1 : fofZ 1 = (1:F). Proof. reflexivity. Qed.
Lemma fofZ_add a b : fofZ (a + b) = (fofZ a + fofZ b : F).
Proof.
  revert a. apply (Z.bi_induction (fun a => fofZ (a + b) = fofZ a + (fofZ b : F))).
  - intros x y ->. reflexivity.
  - simpl. ring.
  - intros n. unfold Z.succ. replace (n + 1 + b)%Z with (n + b + 1)%Z by lia.
    rewrite !fofZ_succ. split; intros H.
    + rewrite H. ring.
    + replace (@fofZ F (n + b)) with (@fofZ F (n + b) + 1 - 1) by ring. rewrite H. ring.
Qed.
Lemma fofZ_opp a : fofZ (- a) = (- fofZ a : F).
Proof. destruct a; simpl; ring. Qed.
Lemma fofZ_sub a b : fofZ (a - b) = (fofZ a - fofZ b : F).
Proof. unfold Z.sub. rewrite fofZ_add, fofZ_opp. ring. Qed.
Lemma fofZ_mul a b : fofZ (a * b) = (fofZ a * fofZ b : F).
Proof.
  revert a. apply (Z.bi_induction (fun a => fofZ (a * b) = fofZ a * (fofZ b : F))).
  - intros x y ->. reflexivity.
  - simpl. ring.
  - intros n. unfold Z.succ. rewrite Z.mul_add_distr_r, Z.mul_1_l, !fofZ_add, fofZ_1. split; intros H.
    + rewrite H. ring.
    + replace (@fofZ F (n * b)) with (@fofZ F (n * b) + fofZ b - fofZ b) by ring. rewrite H. ring.
Qed.
Lemma fofZ_pos z : (0 < z)%Z -> flt 0 (fofZ z : F).
Proof. intros. destruct z; try lia. apply fofpos_nonneg. Qed.
Lemma fofZ_neq0 z : z <> 0%Z -> (fofZ z : F) <> 0.
Proof.
  intros H E. destruct z; [auto| |]; simpl in E.
  - apply (flt_ne _ _ (fofpos_nonneg p)). auto.
  - apply (flt_ne _ _ (fofpos_nonneg p)). replace (@fofpos F p) with (- - @fofpos F p) by ring. rewrite E. ring.
Qed.
Lemma fofZ_nonneg z : (0 <= z)%Z -> fle 0 (fofZ z : F).
Proof. intros. destruct (Z.eq_dec z 0); [subst; apply fle_refl|]. apply flt_fle, fofZ_pos. lia. Qed.
Lemma fofZ_le a b : (a <= b)%Z -> fle (fofZ a : F) (fofZ b).
Proof. intros. apply fle_sub2. rewrite <- fofZ_sub. apply fofZ_nonneg. lia. Qed.
Lemma fofZ_inj a b : (fofZ a : F) = fofZ b -> a = b.
Proof.
  intros H. destruct (Z.eq_dec (a - b) 0); [lia|]. exfalso. apply (fofZ_neq0 (a - b) n).
  rewrite fofZ_sub, H. ring.
Qed.

(** Finite sums. *)
Lemma fsumn_ext n (f g : Z -> F) :
  (forall k, (0 <= k < Z.of_nat n)%Z -> f k = g k) -> fsumn n f = fsumn n g.
Proof.
  induction n; simpl; auto. intros H. rewrite IHn, H; auto. lia. intros. apply H. lia.
Qed.
Lemma fsum_ext n (f g : Z -> F) : (forall k, (0 <= k < n)%Z -> f k = g k) -> fsum n f = fsum n g.
Proof. intros H. apply fsumn_ext. intros. apply H. lia. Qed.
Lemma fsumn_add n (f g : Z -> F) : fsumn n (fun k => f k + g k) = fsumn n f + fsumn n g.
Proof. induction n; simpl; [ring|]. rewrite IHn. ring. Qed.
Lemma fsum_add n (f g : Z -> F) : fsum n (fun k => f k + g k) = fsum n f + fsum n g.
Proof. apply fsumn_add. Qed.
Lemma fsumn_mul n c (f : Z -> F) : fsumn n (fun k => c * f k) = c * fsumn n f.
Proof. induction n; simpl; [ring|]. rewrite IHn. ring. Qed.
Lemma fsum_mul n c (f : Z -> F) : fsum n (fun k => c * f k) = c * fsum n f.
Proof. apply fsumn_mul. Qed.
Lemma fsum_mul_r n c (f : Z -> F) : fsum n (fun k => f k * c) = fsum n f * c.
Proof.
  transitivity (fsum n (fun k => c * f k)); [apply fsum_ext; intros; ring|].
  rewrite fsum_mul. ring.
Qed.
Lemma fsum_opp n (f : Z -> F) : fsum n (fun k => - f k) = - fsum n f.
Proof.
  transitivity (fsum n (fun k => - (1) * f k)); [apply fsum_ext; intros; ring|].
  rewrite fsum_mul. ring.
Qed.
Lemma fsum_sub n (f g : Z -> F) : fsum n (fun k => f k - g k) = fsum n f - fsum n g.
Proof.
  transitivity (fsum n (fun k => f k + - g k)); [apply fsum_ext; intros; ring|].
  rewrite fsum_add, fsum_opp. ring.
Qed.
Lemma fsumn_const n (c : F) : fsumn n (fun _ => c) = fofZ (Z.of_nat n) * c.
Proof.
  induction n; [simpl; ring|]. cbn [fsumn]. rewrite IHn, Nat2Z.inj_succ. unfold Z.succ.
  rewrite fofZ_succ. ring.
Qed.
Lemma fsum_const n (c : F) : (0 <= n)%Z -> fsum n (fun _ => c) = fofZ n * c.
Proof. intros. unfold fsum. rewrite fsumn_const. f_equal. f_equal. lia. Qed.
Lemma fsum_zero n (f : Z -> F) : (forall k, (0 <= k < n)%Z -> f k = 0) -> fsum n f = 0.
Proof.
  intros. destruct (Z_le_gt_dec 0 n).
  - rewrite (fsum_ext n f (fun _ => 0)) by auto. rewrite fsum_const by auto. ring.
  - unfold fsum. replace (Z.to_nat n) with 0%nat by lia. reflexivity.
Qed.
Lemma fsumn_swap n m (f : Z -> Z -> F) :
  fsumn n (fun i => fsumn m (f i)) = fsumn m (fun j => fsumn n (fun i => f i j)).
Proof.
  induction n; simpl.
  - symmetry. rewrite fsumn_const. ring.
  - rewrite IHn, <- fsumn_add. reflexivity.
Qed.
Lemma fsum_swap n m (f : Z -> Z -> F) :
  fsum n (fun i => fsum m (f i)) = fsum m (fun j => fsum n (fun i => f i j)).
Proof. apply fsumn_swap. Qed.
Lemma fsum_nonneg n (f : Z -> F) : (forall k, (0 <= k < n)%Z -> fle 0 (f k)) -> fle 0 (fsum n f).
Proof.
  unfold fsum. intros H.
  assert (H' : forall k, (0 <= k < Z.of_nat (Z.to_nat n))%Z -> fle 0 (f k)) by (intros; apply H; lia).
  clear H. induction (Z.to_nat n); simpl; [apply fle_refl|].
  replace (0:F) with (@fadd F f0 f0) by ring. apply fle_add.
  - apply IHn0. intros. apply H'. lia.
  - apply H'. lia.
Qed.
Lemma fsum_le n (f g : Z -> F) : (forall k, (0 <= k < n)%Z -> fle (f k) (g k)) -> fle (fsum n f) (fsum n g).
Proof.
  intros. apply fle_sub2. rewrite <- fsum_sub. apply fsum_nonneg.
  intros. apply fle_sub1. auto.
Qed.
Lemma fsum_S n (f : Z -> F) : (0 <= n)%Z -> fsum (n + 1) f = fsum n f + f n.
Proof.
  intros. unfold fsum. replace (Z.to_nat (n + 1)) with (S (Z.to_nat n)) by lia. simpl.
  f_equal. f_equal. lia.
Qed.
Lemma fsumn_S_l n (f : Z -> F) : fsumn (S n) f = f 0%Z + fsumn n (fun k => f (k + 1)%Z).
Proof.
  induction n.
  - simpl. ring.
  - change (fsumn (S (S n)) f) with (fsumn (S n) f + f (Z.of_nat (S n))). rewrite IHn.
    cbn [fsumn]. rewrite Nat2Z.inj_succ. unfold Z.succ. ring.
Qed.
Lemma fsum_S_l n (f : Z -> F) : (0 <= n)%Z -> fsum (n + 1) f = f 0%Z + fsum n (fun k => f (k + 1)%Z).
Proof. intros. unfold fsum. replace (Z.to_nat (n + 1)) with (S (Z.to_nat n)) by lia. apply fsumn_S_l. Qed.
Lemma fsum_app n m (f : Z -> F) : (0 <= n)%Z -> (0 <= m)%Z ->
  fsum (n + m) f = fsum n f + fsum m (fun k => f (n + k)%Z).
Proof.
  intros Hn Hm. revert m Hm. apply natlike_ind.
  - rewrite Z.add_0_r. unfold fsum at 3. simpl. ring.
  - intros m Hm IH. unfold Z.succ. rewrite Z.add_assoc, !fsum_S by lia. rewrite IH. ring.
Qed.
(** Exactly one nonzero term. *)
Lemma fsum_single n a (f : Z -> F) : (0 <= a < n)%Z ->
  (forall k, (0 <= k < n)%Z -> k <> a -> f k = 0) -> fsum n f = f a.
Proof.
  intros Ha H. replace n with (a + (1 + (n - a - 1)))%Z by lia.
  rewrite fsum_app, fsum_app by lia.
  rewrite (fsum_zero a) by (intros; apply H; lia).
  rewrite (fsum_zero (n - a - 1)) by (intros; apply H; lia).
  unfold fsum; simpl. rewrite Z.add_0_r. ring.
Qed.

(** List sums. *)
Lemma fold_zrange n (f : Z -> F) : fold_right fadd 0 (map f (zrange n)) = fsum n f.
Proof.
  unfold zrange, fsum.
  assert (H : forall m lo, fold_right fadd 0 (map f (zseq lo m)) = fsumn m (fun k => f (lo + k)%Z)).
  { induction m; intros lo; [reflexivity|]. rewrite fsumn_S_l. cbn [zseq map fold_right].
    rewrite IHm, Z.add_0_r. f_equal. apply fsumn_ext. intros. f_equal. lia. }
  rewrite H. apply fsumn_ext. intros. f_equal.
Qed.
End FieldFacts.
Arguments fle {F}. Arguments flt {F}.

(** ** The rationals *)
Definition Qc_leb (a b : Qc) : bool := Qle_bool (this a) (this b).
Definition QcF : ofield.
Proof.
  refine (mkOF Qc 0%Qc 1%Qc Qcplus Qcmult Qcminus Qcopp Qcdiv Qcinv Qc_leb Qcft _ _ _ _ _ _);
    unfold Qc_leb; intros; repeat rewrite Qle_bool_iff in *.
  - apply Qle_refl.
  - now apply Qcle_antisym.
  - eapply Qcle_trans; unfold Qcle; eauto.
  - destruct (Qlt_le_dec (this a) (this b)); auto using Qlt_le_weak.
  - change (a + c <= b + c)%Qc. apply Qcplus_le_compat; auto. apply Qcle_refl.
  - change (0 <= a * b)%Qc. replace 0%Qc with (0 * b)%Qc by ring.
    apply Qcmult_le_compat_r; auto.
Defined.
