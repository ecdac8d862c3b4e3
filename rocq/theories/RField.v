(** The real numbers as scalars. *)
From Coq Require Import Reals Lra Ring Field RealField.
From Verif Require Export FieldLemmas.
Open Scope Z_scope.

Definition R_leb (a b : R) : bool := if Rle_dec a b then true else false.
Lemma R_leb_iff a b : R_leb a b = true <-> (a <= b)%R.
Proof. unfold R_leb. destruct (Rle_dec a b); split; intros; auto; try discriminate; contradiction. Qed.
Definition RF : ofield.
Proof.
  refine (mkOF R 0%R 1%R Rplus Rmult Rminus Ropp Rdiv Rinv R_leb Rfield _ _ _ _ _ _);
    intros *; rewrite ?R_leb_iff; intros; try lra.
  now apply Rmult_le_pos.
Defined.
Canonical Structure RF.

Lemma RF_le (a b : R) : @fle RF a b <-> (a <= b)%R.
Proof. apply R_leb_iff. Qed.
Lemma RF_lt (a b : R) : @flt RF a b <-> (a < b)%R.
Proof.
  unfold flt. change (@fleb RF b a) with (R_leb b a). pose proof (R_leb_iff b a) as H. split; intros G.
  - apply Rnot_le_lt. intros L. apply H in L. congruence.
  - destruct (R_leb b a); auto. assert (b <= a)%R by (now apply H). lra.
Qed.
Lemma RF_pos p : @fofpos RF p = IZR (Zpos p).
Proof.
  induction p as [p IH|p IH|]; cbn [fofpos]; try rewrite IH; cbn [fadd f1 RF]; [| |reflexivity].
  - rewrite Pos2Z.inj_xI, plus_IZR, mult_IZR. lra.
  - rewrite Pos2Z.inj_xO, mult_IZR. lra.
Qed.
Lemma RF_ofZ z : @fofZ RF z = IZR z.
Proof. destruct z; cbn [fofZ]; [reflexivity|apply RF_pos|]. rewrite RF_pos. cbn [fopp RF]. rewrite <- opp_IZR. reflexivity. Qed.

(** [int(r)] of a float. *)
Definition Rtrunc (r : R) : Z := if Rle_dec 0 r then Int_part r else - Int_part (- r).

Lemma Int_part_bounds r : (IZR (Int_part r) <= r < IZR (Int_part r) + 1)%R.
Proof. destruct (base_Int_part r). lra. Qed.
Lemma Int_part_unique r z : (IZR z <= r < IZR z + 1)%R -> Int_part r = z.
Proof.
  intros H. pose proof (Int_part_bounds r) as B. assert (A1 : (IZR (Int_part r) < IZR (z + 1))%R) by (rewrite plus_IZR; lra).
  assert (A2 : (IZR z < IZR (Int_part r + 1))%R) by (rewrite plus_IZR; lra). apply lt_IZR in A1, A2. lia.
Qed.

(** Finite sums of reals: sum of f k for 0 <= k < n. *)
Definition rsum (n : Z) (f : Z -> R) : R := @fsum RF n f.
Lemma rsum_fsum n f : @fsum RF n f = rsum n f. Proof. reflexivity. Qed.
Lemma rsum_ext n f g : (forall k, 0 <= k < n -> f k = g k) -> rsum n f = rsum n g.
Proof. exact (fsum_ext RF n f g). Qed.
Lemma rsum_add n f g : rsum n (fun k => f k + g k)%R = (rsum n f + rsum n g)%R.
Proof. exact (fsum_add RF n f g). Qed.
Lemma rsum_sub n f g : rsum n (fun k => f k - g k)%R = (rsum n f - rsum n g)%R.
Proof. exact (fsum_sub RF n f g). Qed.
Lemma rsum_opp n f : rsum n (fun k => - f k)%R = (- rsum n f)%R.
Proof. exact (fsum_opp RF n f). Qed.
Lemma rsum_mul n c f : rsum n (fun k => c * f k)%R = (c * rsum n f)%R.
Proof. exact (fsum_mul RF n c f). Qed.
Lemma rsum_mul_r n c f : rsum n (fun k => f k * c)%R = (rsum n f * c)%R.
Proof. exact (fsum_mul_r RF n c f). Qed.
Lemma rsum_S n f : 0 <= n -> rsum (n + 1) f = (rsum n f + f n)%R.
Proof. exact (fsum_S RF n f). Qed.
Lemma rsum_S_l n f : 0 <= n -> rsum (n + 1) f = (f 0%Z + rsum n (fun k => f (k + 1)%Z))%R.
Proof. exact (fsum_S_l RF n f). Qed.
Lemma rsum_0 f : rsum 0 f = 0%R. Proof. reflexivity. Qed.
Lemma rsum_1 f : rsum 1 f = f 0.
Proof. change (0 + f 0%Z = f 0%Z)%R. apply Rplus_0_l. Qed.
Lemma rsum_zero n f : (forall k, 0 <= k < n -> f k = 0%R) -> rsum n f = 0%R.
Proof. exact (fsum_zero RF n f). Qed.
Lemma rsum_single n a f : 0 <= a < n -> (forall k, 0 <= k < n -> k <> a -> f k = 0%R) -> rsum n f = f a.
Proof. exact (fsum_single RF n a f). Qed.
Lemma rsum_nonneg n f : (forall k, 0 <= k < n -> (0 <= f k)%R) -> (0 <= rsum n f)%R.
Proof. intros H. apply RF_le. apply (fsum_nonneg RF). intros k Hk. apply RF_le. now apply H. Qed.
Lemma rsum_le n f g : (forall k, 0 <= k < n -> (f k <= g k)%R) -> (rsum n f <= rsum n g)%R.
Proof. intros H. apply RF_le. apply (fsum_le RF). intros k Hk. apply RF_le. now apply H. Qed.
Lemma rsum_pos n f : 0 < n -> (forall k, 0 <= k < n -> (0 < f k)%R) -> (0 < rsum n f)%R.
Proof.
  intros Hn H. replace n with (n - 1 + 1) by lia. rewrite rsum_S by lia.
  assert (0 <= rsum (n - 1) f)%R by (apply rsum_nonneg; intros; left; apply H; lia). specialize (H (n - 1) ltac:(lia)). lra.
Qed.
Lemma rsum_const n c : 0 <= n -> rsum n (fun _ => c) = (IZR n * c)%R.
Proof. intros H. rewrite <- RF_ofZ. exact (fsum_const RF n c H). Qed.
Lemma rsum_rev n f : 0 <= n -> rsum n (fun k => f (n - 1 - k)) = rsum n f.
Proof.
  intros H. revert f. pattern n. apply natlike_ind; auto.
  intros m Hm IH f. unfold Z.succ. rewrite rsum_S_l by auto. rewrite rsum_S by auto. rewrite Rplus_comm. f_equal; [|f_equal; lia].
  rewrite <- (IH f). apply rsum_ext. intros k Hk. f_equal. lia.
Qed.
