(** How far rounding can take SeparablePoolNd from the exact result. *)
From Coq Require Import Sorting.Permutation.
From Verif Require Export RoundModel PadRelation PoolSame PoolLinear EdgeLossProofs MiscProofs PropsPool.
Open Scope Z_scope.

(** The sum of the absolute values; over the axes, the product of those sums; the number of roundings. *)
Definition abs_sum {F : ofield} (k : list F) : F := wsum (map fabs k).
Fixpoint gain {F : ofield} (kers : list (list F)) : F :=
  match kers with [] => f1 | [] :: kers' => gain kers' | k :: kers' => fmul (abs_sum k) (gain kers') end.
Fixpoint roundings {F : ofield} (kers : list (list F)) : nat :=
  match kers with [] => 0 | [] :: kers' => roundings kers' | k :: kers' => length k + 1 + roundings kers' end.
(** No pixel of x exceeds B in absolute value. *)
Definition bounded {F : ofield} (B : F) (x : tensor F) : Prop := forall i, valid (shp x) i -> fle (fabs (at_ x i)) B.
(** y has x's shape and differs from it by at most d. *)
Definition within {F : ofield} (d : F) (y x : tensor F) : Prop :=
  shp y = shp x /\ forall i, valid (shp x) i -> fle (fabs (fsub (at_ y i) (at_ x i))) d.
(** Modes that copy, negate or select pixels; constants within the bound. *)
Definition exact_mode {F : ofield} (B : F) (m : mode F) (cv ev : F * F) : Prop :=
  match m with
  | MReplicate | MCircular | MPeriodize | MSymmetric | MReflect | MAntisymmetric | MStat SMax | MStat SMin | MStat SMedian => True
  | MConstant => fle (fabs (fst cv)) B /\ fle (fabs (snd cv)) B
  | _ => False
  end.

Section R.
Variable F : ofield.
Add Field Frp : (f_field F).
Notation T := (tensor F).
Notation "a <= b" := (fle a b).
Notation "a + b" := (fadd a b).
Notation "a * b" := (fmul a b).
Notation "a - b" := (fsub a b).
Notation "1" := (@f1 F).
Notation "0" := (@f0 F).

(** v errs from w, whose size is at most S, by (c - 1) S. *)
Definition errs (c S v w : F) : Prop := fabs (v - w) <= (c - 1) * S /\ fabs w <= S.

Lemma sub_le (a b c d : F) : a <= b -> (b - a = d - c) -> c <= d.
Proof. intros H E. apply fle_sub2. rewrite <- E. now apply fle_sub1. Qed.
Lemma mul_le (a b c d : F) : 0 <= c -> a <= b -> 0 <= b -> c <= d -> a * c <= b * d.
Proof.
  intros Hc H1 Hb H2. apply (fle_trans F _ (b * c)); [|now apply fmul_le_l].
  replace (a * c) with (c * a) by ring. replace (b * c) with (c * b) by ring. now apply fmul_le_l.
Qed.
Lemma err_size c S v w : errs c S v w -> fabs v <= c * S.
Proof.
  intros [E1 E2]. replace v with ((v - w) + w) by ring. eapply fle_trans; [apply fabs_add|].
  replace (c * S) with ((c - 1) * S + S) by ring. now apply fle_add.
Qed.
Lemma err_pos c S v w : errs c S v w -> 0 <= S.
Proof. intros [_ E]. eapply fle_trans; [apply fabs_nonneg|exact E]. Qed.
Lemma err_mono c c' S v w : c <= c' -> errs c S v w -> errs c' S v w.
Proof.
  intros H E. pose proof (err_pos _ _ _ _ E) as P. destruct E as [E1 E2]. split; auto. eapply fle_trans; [exact E1|].
  replace ((c - 1) * S) with (S * (c - 1)) by ring. replace ((c' - 1) * S) with (S * (c' - 1)) by ring. apply fmul_le_l; auto.
  apply (sub_le c c'); auto. ring.
Qed.
Lemma err_round e c S v v' w : 0 <= e -> errs c S v w -> rounds e v v' -> errs (c * (1 + e)) S v' w.
Proof.
  intros He E R. pose proof (err_size _ _ _ _ E) as Z. destruct E as [E1 E2]. split; auto. eapply fle_trans; [apply (fabs_triangle F _ v)|].
  replace ((c * (1 + e) - 1) * S) with (e * (c * S) + (c - 1) * S) by ring. apply fle_add; auto. eapply fle_trans; [exact R|]. now apply fmul_le_l.
Qed.
Lemma err_add c S S' v v' w w' : errs c S v w -> errs c S' v' w' -> errs c (S + S') (v + v') (w + w').
Proof.
  intros [E1 E2] [E3 E4]. split.
  - replace (v + v' - (w + w')) with ((v - w) + (v' - w')) by ring. eapply fle_trans; [apply fabs_add|].
    replace ((c - 1) * (S + S')) with ((c - 1) * S + (c - 1) * S') by ring. now apply fle_add.
  - eapply fle_trans; [apply fabs_add|]. now apply fle_add.
Qed.
Lemma err_mul c c' S S' v v' w w' : 1 <= c -> errs c S v w -> errs c' S' v' w' -> errs (c * c') (S * S') (v * v') (w * w').
Proof.
  intros H E E'. pose proof (err_size _ _ _ _ E') as Z. pose proof (err_pos _ _ _ _ E) as P. pose proof (err_pos _ _ _ _ E') as P'.
  destruct E as [E1 E2], E' as [E3 E4]. split.
  - replace (v * v' - w * w') with ((v - w) * v' + w * (v' - w')) by ring. eapply fle_trans; [apply fabs_add|]. rewrite !fabs_mul.
    replace ((c * c' - 1) * (S * S')) with ((c - 1) * S * (c' * S') + S * ((c' - 1) * S')) by ring. apply fle_add.
    + apply mul_le; auto; [apply fabs_nonneg|]. eapply fle_trans; [apply fabs_nonneg|exact E1].
    + apply mul_le; auto. apply fabs_nonneg.
  - rewrite fabs_mul. apply mul_le; auto. apply fabs_nonneg.
Qed.
Lemma pow_ge1 e n : 0 <= e -> 1 <= fpow (1 + e) n.
Proof.
  intros He. induction n as [|n IH]; cbn [fpow]; [apply fle_refl|]. assert (E : 1 = 1 * 1) by ring. rewrite E at 1.
  assert (H : 1 <= 1 + e) by (apply (sub_le 0 e); auto; ring). apply mul_le; auto; [apply fle_01|]. eapply fle_trans; [apply fle_01|exact H].
Qed.
Lemma pow_add e n k : fpow (1 + e) (n + k) = fpow (1 + e) n * fpow (1 + e) k.
Proof. induction n as [|n IH]; cbn [fpow Nat.add]; [ring|]. rewrite IH. ring. Qed.
Lemma pow_mono e n k : 0 <= e -> (n <= k)%nat -> fpow (1 + e) n <= fpow (1 + e) k.
Proof.
  intros He H. replace k with (n + (k - n))%nat by lia. rewrite pow_add. replace (fpow (1 + e) n) with (fpow (1 + e) n * 1) at 1 by ring.
  pose proof (pow_ge1 e n He). apply fmul_le_l; [eapply fle_trans; [apply fle_01|eassumption]|now apply pow_ge1].
Qed.
Lemma wsum_app (l m : list F) : wsum (l ++ m) = wsum l + wsum m.
Proof. unfold wsum. induction l as [|a l IH]; cbn [app fold_right]; [ring|]. rewrite IH. ring. Qed.
Lemma wsum_perm (l m : list F) : Permutation l m -> wsum l = wsum m.
Proof. unfold wsum. induction 1; cbn [fold_right]; try congruence. ring. Qed.

(** Any order of addition. *)
Lemma sum_err {A} e c (p S w : A -> F) l v : 0 <= e -> 1 <= c -> fl_sum e p l v -> (forall o, In o l -> errs c (S o) (p o) (w o)) ->
  (0 < length l)%nat /\ errs (c * fpow (1 + e) (length l - 1)) (wsum (map S l)) v (wsum (map w l)).
Proof.
  intros He Hc H. induction H as [o|l m n u v z H1 IH1 H2 IH2 P R]; intros HE.
  - split; [cbn; lia|]. cbn. replace (c * 1) with c by ring. replace (S o + 0) with (S o) by ring. replace (w o + 0) with (w o) by ring. apply HE. now left.
  - assert (I : forall o, In o (l ++ m) -> In o n) by (intros o Ho; eapply Permutation_in; [apply Permutation_sym; eassumption|auto]).
    destruct IH1 as [L1 E1]; [intros o Ho; apply HE, I, in_or_app; auto|]. destruct IH2 as [L2 E2]; [intros o Ho; apply HE, I, in_or_app; auto|].
    rewrite (Permutation_length P), app_length. split; [lia|].
    rewrite (wsum_perm _ _ (Permutation_map S P)), (wsum_perm _ _ (Permutation_map w P)), !map_app, !wsum_app.
    assert (C0 : 0 <= c) by (eapply fle_trans; [apply fle_01|exact Hc]).
    replace (c * fpow (1 + e) (length l + length m - 1)) with (c * fpow (1 + e) (length l + length m - 2) * (1 + e)).
    + eapply err_round; eauto. apply err_add; [eapply err_mono; [|exact E1]|eapply err_mono; [|exact E2]]; (apply fmul_le_l; auto; apply pow_mono; auto; lia).
    + replace (length l + length m - 1)%nat with (1 + (length l + length m - 2))%nat by lia. cbn [fpow Nat.add]. ring.
Qed.
Lemma rounds_err e v v' : 0 <= e -> rounds e v v' -> errs (1 + e) (fabs v) v' v.
Proof. intros He R. split; [|apply fle_refl]. replace (1 + e - 1) with e by ring. exact R. Qed.
Lemma dot_err e c B k f g v : 0 <= e -> 1 <= c -> (forall o, Z.le Z0 o /\ Z.lt o (Z.of_nat (length k)) -> errs c B (f o) (g o)) -> fl_dot e k f v ->
  errs (c * fpow (1 + e) (length k + 1)) (abs_sum k * B) v (fsum (Z.of_nat (length k)) (fun o => g o * nth (Z.to_nat o) k 0)).
Proof.
  intros He Hc H [k' [p [K Sm]]]. assert (H1 : 1 <= 1 + e) by (apply (sub_le 0 e); auto; ring).
  destruct (sum_err e (c * (1 + e) * (1 + e)) p (fun o => B * fabs (nth (Z.to_nat o) k 0)) (fun o => g o * nth (Z.to_nat o) k 0) (zrange (Z.of_nat (length k))) v He) as [L E]; [|exact Sm| |].
  - assert (E1 : 1 = 1 * 1 * 1) by ring. rewrite E1 at 1. assert (0 <= 1 + e) by (eapply fle_trans; [apply fle_01|exact H1]). assert (0 <= c) by (eapply fle_trans; [apply fle_01|exact Hc]).
    repeat apply mul_le; auto; try apply fle_01. apply fmul_nonneg; auto.
  - intros o Ho. apply In_zrange in Ho. destruct (K o Ho) as [K1 K2]. eapply err_round; eauto. apply err_mul; auto. now apply rounds_err.
  - rewrite zrange_length in *. rewrite Nat2Z.id in *. unfold wsum in E. rewrite !fold_zrange in E. 
    replace (c * fpow (1 + e) (length k + 1)) with (c * (1 + e) * (1 + e) * fpow (1 + e) (length k - 1)).
    + replace (abs_sum k * B) with (fsum (Z.of_nat (length k)) (fun o => B * fabs (nth (Z.to_nat o) k 0))); [exact E|].
      rewrite fsum_mul. rewrite <- fold_zrange. unfold abs_sum, wsum. replace (map fabs k) with (map (fun o => fabs (nth (Z.to_nat o) k 0)) (zrange (Z.of_nat (length k)))); [ring|].
      apply list_ext with (d := 0); rewrite !map_length, zrange_length, Nat2Z.id; auto. intros n Hn.
      rewrite (nth_indep _ 0 (fabs (nth (Z.to_nat Z0) k 0))) by (rewrite map_length, zrange_length; lia). rewrite (map_nth (fun o => fabs (nth (Z.to_nat o) k 0))).
      rewrite nth_zrange by lia. rewrite Nat2Z.id. rewrite (nth_indep (map fabs k) 0 (fabs 0)) by (rewrite map_length; lia). now rewrite map_nth.
    + replace (length k + 1)%nat with (2 + (length k - 1))%nat by lia. cbn [fpow Nat.add]. ring.
Qed.

End R.

Section R2.
Variable F : ofield.
Add Field Frp2 : (f_field F).
Notation T := (tensor F).

Lemma axis_nat_lt nd a a' : axis_nat nd a = Ok a' -> (a' < nd)%nat.
Proof. unfold axis_nat. cbv zeta. destruct (_ && _) eqn:E; [|discriminate]. intros H. injection H as <-. bdestr. lia. Qed.

(** *** one pass *)
Lemma pass_err e c B (x x' u' y' : T) a k s : fle f0 e -> fle f1 c -> (a < ndim x)%nat -> shp x' = shp x ->
  (forall j, valid (shp x) j -> errs F c B (at_ x' j) (at_ x j)) -> tunfold a (klen k) s x' = Ok u' -> fl_matvec e u' k y' ->
  exists u y, tunfold a (klen k) s x = Ok u /\ tmatvec u k = Ok y /\ shp y' = shp y /\
    forall j, valid (shp y) j -> errs F (fmul c (fpow (fadd f1 e) (length k + 1))) (fmul (abs_sum k) B) (at_ y' j) (at_ y j).
Proof.
  intros He Hc Ha Hs HE. unfold tunfold, dimlen. rewrite Hs. destruct ((0 <? s) && (0 <=? klen k) && (klen k <=? nth a (shp x) 0)) eqn:E; [|discriminate].
  intros H. injection H as <-. intros [M1 [M2 M3]]. cbn [shp at_] in *. eexists. eexists. split; [reflexivity|]. unfold tmatvec. cbn [shp at_]. rewrite M1, Z.eqb_refl.
  split; [reflexivity|]. cbn [shp at_]. split; [exact M2|]. rewrite removelast_last in *. intros j Vj. rewrite M2 in M3. specialize (M3 j Vj).
  apply (dot_err F e c B k (fun o => at_ x' (upd a (nth a (j ++ [o]) 0 * s + nth (ndim x') (j ++ [o]) 0) (firstn (ndim x') (j ++ [o]))))); auto.
  intros o Ho. pose proof (valid_length _ _ Vj) as L. rewrite upd_length in L. change (length j = ndim x) in L.
  assert (N : ndim x' = ndim x) by (unfold ndim; now rewrite Hs). rewrite N. apply HE. rewrite app_nth1 by lia. rewrite <- L at 1. rewrite app_nth2, Nat.sub_diag by lia.
  cbn [nth]. rewrite <- L, firstn_app, Nat.sub_diag, firstn_all. cbn [firstn]. rewrite app_nil_r.
  eapply valid_upd_back; [exact Vj|]. assert (Va := valid_nth _ _ a Vj). rewrite upd_length in Va. specialize (Va Ha). rewrite nth_upd_eq in Va by exact Ha.
  bdestr. eapply window_fits; eauto; unfold klen in *; lia.
Qed.

(** *** the loop *)
Lemma loop_err e m : fle f0 e -> forall axes i (x x' y' : T) kers sts c B, fle f1 c -> length kers = length axes -> length sts = length axes ->
  (forall r, (r < length axes)%nat -> step_ok F m (i + Z.of_nat r) (nth r kers []) (nth r sts 1)) -> shp x' = shp x ->
  (forall j, valid (shp x) j -> errs F c B (at_ x' j) (at_ x j)) -> fl_loop e m x' i axes y' ->
  exists y, pool_loop m x i axes = Ok y /\ shp y' = shp y /\
    forall j, valid (shp y) j -> errs F (fmul c (fpow (fadd f1 e) (roundings kers))) (fmul (gain kers) B) (at_ y' j) (at_ y j).
Proof.
  intros He. induction axes as [|a axes IH]; intros i x x' y' kers sts c B Hc Lk Ls H Hs HE HL.
  - destruct kers; [|discriminate]. cbn in HL. subst y'. exists x. split; [reflexivity|]. split; [auto|]. intros j Vj. cbn [roundings gain fpow].
    replace (fmul c f1) with c by ring. replace (fmul f1 B) with B by ring. auto.
  - destruct kers as [|k kers]; [discriminate|]. destruct sts as [|s sts]; [discriminate|]. cbn [length] in Lk, Ls.
    destruct (H 0%nat ltac:(cbn; lia)) as [G1 G2]. cbn [nth] in G1, G2. replace (i + Z.of_nat 0) with i in * by lia.
    assert (Hrec : forall r, (r < length axes)%nat -> step_ok F m (i + 1 + Z.of_nat r) (nth r kers []) (nth r sts 1)).
    { intros r Hr. specialize (H (S r) ltac:(cbn; lia)). cbn [nth] in H. now replace (i + 1 + Z.of_nat r) with (i + Z.of_nat (S r)) by lia. }
    cbn [fl_loop] in HL. destruct HL as [ks [K1 HL]]. cbn [pool_loop]. rewrite K1 in *. injection G1 as ->. cbn [bind].
    destruct k as [|b k].
    + change (klen (@nil F) =? 0) with true in *. cbn match in *. cbn [roundings gain]. apply (IH (i + 1) x x' y' kers sts); auto; lia.
    + destruct (Z.eqb_spec (klen (b :: k)) 0) as [E|_]; [unfold klen in E; cbn in E; lia|].
      destruct HL as [s' [a' [u [k' [x1 [S1 [A1 [U1 [K2 [M1 HL]]]]]]]]]]. destruct G2 as [G2 [G3 G4]]; [discriminate|]. rewrite G2 in K2. injection K2 as <-. rewrite G3 in *. injection S1 as <-. cbn [bind].
      assert (N : ndim x' = ndim x) by (unfold ndim; now rewrite Hs). rewrite N in A1. rewrite A1. cbn [bind].
      destruct (pass_err e c B x x' u x1 a' (b :: k) s He Hc (axis_nat_lt _ _ _ A1) Hs HE U1 M1) as [u0 [y0 [V1 [V2 [V3 V4]]]]].
      rewrite V1. cbn [bind]. rewrite G2. cbn [bind]. rewrite V2. cbn [bind].
      destruct (IH (i + 1) y0 x1 y' kers sts (fmul c (fpow (fadd f1 e) (length (b :: k) + 1))) (fmul (abs_sum (b :: k)) B)) as [y [Y1 [Y2 Y3]]]; auto; try lia.
      { replace (@f1 F) with (fmul (@f1 F) f1) at 1 by ring. apply mul_le; auto; [apply fle_01|eapply fle_trans; [apply fle_01|exact Hc]|now apply pow_ge1]. }
      exists y. split; [exact Y1|]. split; [exact Y2|]. intros j Vj. specialize (Y3 j Vj). cbn [roundings gain]. rewrite pow_add.
      replace (fmul (fmul (abs_sum (b :: k)) (gain kers)) B) with (fmul (gain kers) (fmul (abs_sum (b :: k)) B)) by ring.
      now replace (fmul c (fmul (fpow (fadd f1 e) (length (b :: k) + 1)) (fpow (fadd f1 e) (roundings kers))))
        with (fmul (fmul c (fpow (fadd f1 e) (length (b :: k) + 1))) (fpow (fadd f1 e) (roundings kers))) by ring.
Qed.

(** *** exact arithmetic is one of the possibilities *)
Lemma rounds_refl (e v : F) : fle f0 e -> rounds e v v.
Proof. intros He. unfold rounds. replace (fsub v v) with (@f0 F) by ring. rewrite fabs_zero. apply fmul_nonneg; auto. apply fabs_nonneg. Qed.
Lemma sum_exact e (p : Z -> F) n : fle f0 e -> fl_sum e p (zrange (Z.of_nat (S n))) (fsum (Z.of_nat (S n)) p).
Proof.
  intros He. induction n as [|n IH].
  - change (Z.of_nat 1) with 1. rewrite fsum_1. change (zrange 1) with [0]. constructor.
  - replace (Z.of_nat (S (S n))) with (Z.of_nat (S n) + 1) by lia. rewrite fsum_S by lia. rewrite zrange_S by lia.
    eapply fl_add; [exact IH|apply fl_one|reflexivity|now apply rounds_refl].
Qed.
Lemma matvec_exact e (u y : T) k : fle f0 e -> k <> [] -> tmatvec u k = Ok y -> fl_matvec e u k y.
Proof.
  intros He Hk. unfold tmatvec. destruct (Z.eqb_spec (last (shp u) 0) (Z.of_nat (length k))) as [E|]; [|discriminate]. intros H. injection H as <-.
  split; auto. split; [reflexivity|]. cbn [shp at_]. intros j Vj. exists (fun o => nth (Z.to_nat o) k f0), (fun o => fmul (at_ u (j ++ [o])) (nth (Z.to_nat o) k f0)).
  split; [intros o Ho; split; now apply rounds_refl|]. destruct k as [|b k]; [congruence|]. cbn [length]. now apply sum_exact.
Qed.
Lemma loop_exact e m : fle f0 e -> forall axes i (x y : T), pool_loop m x i axes = Ok y -> fl_loop e m x i axes y.
Proof.
  intros He. induction axes as [|a axes IH]; intros i x y; cbn [pool_loop fl_loop]; [intros H; now injection H as <-|].
  destruct (nds_get (pl_size m) i) as [ks|]; [|discriminate]. cbn [bind]. intros H. exists ks. split; [reflexivity|]. destruct (Z.eqb_spec ks 0) as [E|E]; [auto|].
  destruct (nds_get (pl_stride m) i) as [s|]; [|discriminate]. cbn [bind] in H. destruct (axis_nat (ndim x) a) as [a'|] eqn:A1; [|discriminate]. cbn [bind] in H.
  destruct (tunfold a' ks s x) as [u|] eqn:U; [|discriminate]. cbn [bind] in H. destruct (nds_get (pl_kernel m) i) as [k|]; [|discriminate]. cbn [bind] in H.
  destruct (tmatvec u k) as [x1|] eqn:M; [|discriminate]. cbn [bind] in H. exists s, a', u, k, x1. do 4 (split; [auto|]). split; [|auto].
  apply matvec_exact; auto. intros ->. unfold tmatvec in M. unfold tunfold in U. destruct (_ && _) in U; [|discriminate]. injection U as <-. cbn [shp] in M. rewrite last_last in M.
  destruct (Z.eqb_spec ks (Z.of_nat (length (@nil F)))); [cbn in *; lia|discriminate].
Qed.
Theorem forward_exact e fuel junk m (x y : T) ax : fle f0 e -> snd (sep_forward fuel junk m x ax) = Ok y -> fl_forward e fuel junk m x ax y.
Proof.
  intros He. unfold sep_forward, fl_forward. destruct (check_axes _ ax) as [al|]; [|discriminate]. destruct (_ || _) eqn:E; [|discriminate].
  destruct (pool_pad fuel junk m x (AxSeq al)) as [m' r] eqn:P. cbn [snd]. destruct r as [xp|]; [|discriminate]. cbn [bind]. intros H. exists al, m', xp.
  split; [auto|]. split; [|split; [auto|now apply loop_exact]]. apply orb_true_iff in E as [E|E]; bdestr; auto.
Qed.
(** *** the calls *)
Lemma err_within c S (y' y : T) : shp y' = shp y -> (forall j, valid (shp y) j -> errs F c S (at_ y' j) (at_ y j)) -> within (fmul (fsub c f1) S) y' y.
Proof. intros E H. split; auto. intros j Vj. apply (H j Vj). Qed.
Lemma err_self B (x : T) : bounded B x -> forall j, valid (shp x) j -> errs F f1 B (at_ x j) (at_ x j).
Proof. intros H j Vj. split; [|auto]. replace (fsub (at_ x j) (at_ x j)) with (@f0 F) by ring. rewrite fabs_zero. replace (fmul (fsub (@f1 F) f1) B) with (@f0 F) by ring. apply fle_refl. Qed.
Lemma forward_err e fuel junk m (x xp y y' : T) ax al m' kers sts B : fle f0 e -> on_axes x ax al -> pool_par F m (length al) kers sts ->
  pool_pad fuel junk m x (AxSeq (map Z.of_nat al)) = (m', Ok xp) ->
  pl_size m' = pl_size m -> pl_stride m' = pl_stride m -> pl_kernel m' = pl_kernel m ->
  bounded B xp -> fl_forward e fuel junk m x ax y' -> snd (sep_forward fuel junk m x ax) = Ok y ->
  within (fmul (fsub (fpow (fadd f1 e) (roundings kers)) f1) (fmul (gain kers) B)) y' y.
Proof.
  intros He [A1 A2 A3] [P1 [P2 [P3 P4]]] HP H1 H2 H3 HB [al' [m1 [xp' [C1 [_ [C2 C3]]]]]] HS. rewrite A1 in C1. injection C1 as <-. rewrite HP in C2. injection C2 as <- <-.
  unfold sep_forward in HS. rewrite A1 in HS. destruct (_ || _); [|discriminate]. rewrite HP in HS. cbn [snd bind] in HS.
  destruct (loop_err e m' He (map Z.of_nat al) 0 xp xp y' kers sts f1 B) as [y0 [Y1 [Y2 Y3]]]; auto; try (rewrite map_length; auto).
  { apply fle_refl. }
  { intros r Hr. destruct (P4 r Hr) as [Q1 [Q2 [Q3 Q4]]]. unfold step_ok. rewrite H1, H2, H3. cbn [Z.add]. split; auto. }
  { now apply err_self. }
  rewrite HS in Y1. injection Y1 as <-. replace (fmul f1 (fpow (fadd f1 e) (roundings kers))) with (fpow (fadd (@f1 F) e) (roundings kers)) in Y3 by ring.
  apply err_within; auto.
Qed.
Theorem round_valid e fuel junk (m : pool F) (x y' : T) ax al kers sts B : fle f0 e -> on_axes x ax al -> built (length al) kers sts None m ->
  (forall r, (r < length al)%nat -> klen (nth r kers []) <= nth (nth r al 0%nat) (shp x) 0) -> bounded B x -> fl_forward e fuel junk m x ax y' ->
  exists y, snd (sep_forward fuel junk m x ax) = Ok y /\ within (fmul (fsub (fpow (fadd f1 e) (roundings kers)) f1) (fmul (gain kers) B)) y' y.
Proof.
  intros He OA B0 Hf HB HF. destruct (built_par _ _ _ _ _ _ B0) as [PP [Pd _]]. destruct (sep_forward_valid F fuel junk m x ax al kers sts OA PP Pd Hf) as [y [Y1 _]].
  exists y. rewrite Y1. split; [reflexivity|]. eapply (forward_err e fuel junk m x x); eauto.
  - unfold pool_pad. destruct OA as [A1 A2 A3]. rewrite check_axes_seq_nat by auto. now rewrite Pd.
  - now rewrite Y1.
Qed.

(** *** padding without arithmetic *)
Lemma stat_in s (l : list F) : s <> SMean -> l <> [] -> In (stat_fun s l) l.
Proof.
  intros Hs Hl. pose proof (stat_fun_rel F s l Hl) as H. destruct s; [congruence| | |]; [|apply H|apply H].
  destruct H as [l' [P [_ N]]]. eapply Permutation_in; [apply Permutation_sym; exact P|]. eapply nth_error_In; eauto.
Qed.
Lemma map_zrange_ne (f : Z -> F) n : 1 <= n -> map f (zrange n) <> [].
Proof. intros H E. apply (f_equal (@length F)) in E. rewrite map_length, zrange_length in E. cbn in E. lia. Qed.
Ltac pick H Hn := destruct Hn as [Hn|Hn]; [|discriminate]; apply H.
Lemma preserves_bound B : preserves F (par_of (exact_mode B)) (fun a b c => fle (fabs a) B).
Proof.
  unfold preserves, par_of, exact_mode. intros q e n f h k t He Hl Hn Hb Ha Ht H. destruct (ap_mode q) eqn:Em; simpl in He; try contradiction; injection He as <-.
  - pick H Hn. lia.
  - pick H Hn. apply Z.mod_pos_bound. lia.
  - unfold ext_periodize, ext_circular. destruct Hn as [Hn|]; [|discriminate].
    assert (0 <= t mod (n + n mod 2)) by (apply Z.mod_pos_bound; pose proof (Z.mod_pos_bound n 2); lia). zcase; apply H; lia.
  - unfold ext_symmetric. cbv zeta. destruct Hn as [Hn|]; [|discriminate]. pose proof (Z.mod_pos_bound t (2 * n)). zcase; apply H; lia.
  - unfold ext_reflect. cbv zeta. destruct Hn as [Hn|]; [|discriminate]. destruct (Z.eqb_spec n 1); [apply H; lia|].
    pose proof (Z.mod_pos_bound t (2 * n - 2)). zcase; apply H; lia.
  - unfold ext_antisymmetric. cbv zeta. destruct Hn as [Hn|]; [|discriminate]. pose proof (Z.mod_pos_bound t (2 * n)). zcase; [apply H; lia|]. rewrite fabs_opp. apply H; lia.
  - destruct Hn as [Hn|]; [|discriminate].
    assert (L : forall w, 1 <= clip_window n w <= n) by (intros [w|]; unfold clip_window; lia).
    match goal with Em : _ = MStat ?s0 |- _ => rename s0 into s end.
    assert (Hs : s <> SMean) by (destruct s; try contradiction; discriminate).
    unfold ext_stat. cbv zeta. repeat zcase.
    + match goal with |- fle (fabs (stat_fun s ?l)) _ => pose proof (stat_in s l Hs (map_zrange_ne _ _ (proj1 (L (fst (ap_stat q)))))) as I end.
      apply in_map_iff in I as [o [<- Ho]]. apply In_zrange in Ho. apply H. specialize (L (fst (ap_stat q))). lia.
    + apply H. lia.
    + match goal with |- fle (fabs (stat_fun s ?l)) _ => pose proof (stat_in s l Hs (map_zrange_ne _ _ (proj1 (L (snd (ap_stat q)))))) as I end.
      apply in_map_iff in I as [o [<- Ho]]. apply In_zrange in Ho. apply H. specialize (L (snd (ap_stat q))). lia.
  - unfold ext_constant. destruct Hl as [L1 L2]. repeat zcase; auto; apply H; lia.
Qed.
Theorem round_same e fuel junk (m : pool F) (x y' : T) ax al kers sts p ms B : fle f0 e -> built (length al) kers sts (Some p) m ->
  same_call F fuel p x ax al ms kers sts -> every_axis (length al) p (exact_mode B) -> bounded B x -> fl_forward e fuel junk m x ax y' ->
  exists y, snd (sep_forward fuel junk m x ax) = Ok y /\ within (fmul (fsub (fpow (fadd f1 e) (roundings kers)) f1) (fmul (gain kers) B)) y' y.
Proof.
  intros He B0 SC EA HB HF. destruct (built_par _ _ _ _ _ _ B0) as [PP [Hp [He1 [He2 _]]]].
  destruct (sep_forward_same F fuel junk m x ax al kers sts p ms PP He1 He2 Hp SC) as [ws [xp [y [X1 [X2 [X3 [X4 [X5 [X6 [X7 [X8 _]]]]]]]]]]].
  exists y. rewrite X8. split; [reflexivity|]. pose proof SC as [OA N0 _ _ SS PF _ _]. pose proof OA as [A1 A2 A3].
  assert (HP : pool_pad fuel junk m x (AxSeq (map Z.of_nat al)) = (set_padder m (with_width p ws), Ok xp)).
  { pose proof X8 as X. unfold sep_forward in X. rewrite A1 in X. destruct (_ || _); [|discriminate].
    destruct (pool_pad fuel junk m x (AxSeq (map Z.of_nat al))) as [m' r] eqn:Q. destruct r as [xp'|]; [|discriminate]. cbn [bind] in X. assert (M : m' = set_padder m (with_width p ws)) by congruence. clear X.
    f_equal; [exact M|]. unfold pool_pad in Q. rewrite check_axes_seq_nat in Q by auto. rewrite Hp in Q. destruct (mapM _ _) as [ish|]; [|discriminate].
    destruct (to_same _ _ _ _) as [p' r]. destruct r as [t|]; [|discriminate]. cbn [bind] in Q. injection Q as Q1 Q2. rewrite <- Q1 in M. assert (M' : p' = with_width p ws) by (apply (f_equal (@pl_padder F)) in M; cbn in M; congruence).
    subst p'. rewrite (padder_forward_axes F fuel junk _ x _ ax) in Q2 by (rewrite A1; apply check_axes_seq_nat; auto). congruence. }
  eapply (forward_err e fuel junk m x xp); eauto.
  - assert (R : related (fun a b c : F => fle (fabs a) B) x x x) by (split; [|split]; auto).
    destruct (forward_rel F (par_of (exact_mode B)) (fun a b c => fle (fabs a) B) fuel junk (with_width p ws) x x x ax al) as [x1 [x2 [x3 [E1 [_ [_ [_ [_ E2]]]]]]]]; auto.
    + apply preserves_bound.
    + eapply every_axis_par; eauto.
    + rewrite X6 in E1. injection E1 as <-. exact E2.
  - now rewrite X8.
Qed.
(** Kernels without negative entries that sum to one. *)
Lemma gain_one (kers : list (list F)) : (forall k e, In k kers -> In e k -> fle f0 e) -> (forall k, In k kers -> k = [] \/ wsum k = f1) -> gain kers = f1.
Proof.
  induction kers as [|k kers IH]; intros H1 H2; [reflexivity|]. assert (G : gain kers = f1) by (apply IH; intros; [eapply H1|eapply H2]; eauto; now right).
  destruct k as [|b k]; [exact G|]. cbn [gain]. rewrite G. unfold abs_sum. replace (map fabs (b :: k)) with (b :: k).
  - destruct (H2 (b :: k)) as [E|E]; [now left|discriminate|]. rewrite E. ring.
  - rewrite <- (map_id (b :: k)) at 1. apply map_ext_in. intros a Ha. symmetry. apply fabs_pos. apply (H1 (b :: k)); auto. now left.
Qed.
Theorem round_valid_mean e fuel junk (m : pool F) (x y' : T) ax al kers sts B : fle f0 e -> on_axes x ax al -> built (length al) kers sts None m ->
  (forall r, (r < length al)%nat -> klen (nth r kers []) <= nth (nth r al 0%nat) (shp x) 0) ->
  (forall k e, In k kers -> In e k -> fle f0 e) -> (forall k, In k kers -> k = [] \/ wsum k = f1) -> bounded B x -> fl_forward e fuel junk m x ax y' ->
  exists y, snd (sep_forward fuel junk m x ax) = Ok y /\ within (fmul (fsub (fpow (fadd f1 e) (roundings kers)) f1) B) y' y.
Proof.
  intros He OA B0 Hf H1 H2 HB HF. destruct (round_valid e fuel junk m x y' ax al kers sts B He OA B0 Hf HB HF) as [y [Y1 Y2]]. exists y. split; auto.
  rewrite (gain_one kers H1 H2) in Y2. now replace (fmul f1 B) with B in Y2 by ring.
Qed.
Theorem round_same_mean e fuel junk (m : pool F) (x y' : T) ax al kers sts p ms B : fle f0 e -> built (length al) kers sts (Some p) m ->
  same_call F fuel p x ax al ms kers sts -> every_axis (length al) p (exact_mode B) ->
  (forall k e, In k kers -> In e k -> fle f0 e) -> (forall k, In k kers -> k = [] \/ wsum k = f1) -> bounded B x -> fl_forward e fuel junk m x ax y' ->
  exists y, snd (sep_forward fuel junk m x ax) = Ok y /\ within (fmul (fsub (fpow (fadd f1 e) (roundings kers)) f1) B) y' y.
Proof.
  intros He B0 SC EA H1 H2 HB HF. destruct (round_same e fuel junk m x y' ax al kers sts p ms B He B0 SC EA HB HF) as [y [Y1 Y2]]. exists y. split; auto.
  rewrite (gain_one kers H1 H2) in Y2. now replace (fmul f1 B) with B in Y2 by ring.
Qed.

(** *** a linear bound *)
Lemma pow_linear (e : F) n : fle f0 e -> fle (fmul (fofZ (2 * Z.of_nat n)) e) f1 -> fle (fsub (fpow (fadd f1 e) n) f1) (fmul (fofZ (2 * Z.of_nat n)) e).
Proof.
  intros He Hn. set (N := @fofZ F (Z.of_nat n)). replace (@fofZ F (2 * Z.of_nat n)) with (fadd N N) in * by (unfold N; rewrite <- fofZ_add; f_equal; lia).
  assert (K : forall q, (q <= n)%nat -> fle (fmul (fpow (fadd f1 e) q) (fsub f1 (fmul (fofZ (Z.of_nat q)) e))) f1).
  { induction q as [|q IH]; intros Hq.
    - cbn [fpow]. change (fofZ (Z.of_nat 0)) with (@f0 F). replace (fmul f1 (fsub f1 (fmul f0 e))) with (@f1 F) by ring. apply fle_refl.
    - eapply fle_trans; [|apply IH; lia]. cbn [fpow]. replace (Z.of_nat (S q)) with (Z.of_nat q + 1) by lia. rewrite fofZ_add, fofZ_1.
      set (Q := @fofZ F (Z.of_nat q)). set (P := fpow (fadd f1 e) q). apply fle_sub2.
      replace (fsub _ _) with (fmul P (fmul (fadd Q f1) (fmul e e))) by ring. apply fmul_nonneg; [eapply fle_trans; [apply fle_01|now apply pow_ge1]|].
      apply fmul_nonneg; [|now apply fmul_nonneg]. replace (@f0 F) with (fadd (@f0 F) f0) by ring. apply fle_add; [apply fofZ_nonneg; lia|apply fle_01]. }
  specialize (K n (Nat.le_refl n)). fold N in K. set (P := fpow (fadd f1 e) n) in *. assert (NN : fle f0 (fmul N e)) by (apply fmul_nonneg; auto; apply fofZ_nonneg; lia).
  assert (P1 : fle f1 P) by now apply pow_ge1. assert (P0 : fle f0 P) by (eapply fle_trans; [apply fle_01|exact P1]).
  assert (P2 : fle P (fadd f1 f1)).
  { assert (A : fle (fmul P (fmul (fadd N N) e)) (fmul P f1)) by now apply fmul_le_l. pose proof (fle_add F _ _ _ _ A (fle_add F _ _ _ _ K K)) as A2.
    apply fle_sub2. apply fle_sub1 in A2. replace (fsub (fadd f1 f1) P) with (fsub (fadd (fmul P f1) (fadd f1 f1)) (fadd (fmul P (fmul (fadd N N) e)) (fadd (fmul P (fsub f1 (fmul N e))) (fmul P (fsub f1 (fmul N e)))))) by ring. exact A2. }
  assert (A : fle (fmul (fmul N e) P) (fmul (fmul N e) (fadd f1 f1))) by now apply fmul_le_l.
  pose proof (fle_add F _ _ _ _ A K) as A2. apply fle_sub2. apply fle_sub1 in A2.
  replace (fsub (fmul (fadd N N) e) (fsub P f1)) with (fsub (fadd (fmul (fmul N e) (fadd f1 f1)) f1) (fadd (fmul (fmul N e) P) (fmul P (fsub f1 (fmul N e))))) by ring. exact A2.
Qed.
End R2.
