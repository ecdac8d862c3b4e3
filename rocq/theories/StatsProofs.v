(** The statistics of misc/stats.py: order, bounds, equivariance. *)
From Verif Require Export StatsModel StatProofs ReduceProofs.
From Coq Require Import Permutation Sorted.
Open Scope Z_scope.

Section Stats.
Variable F : ofield.
Add Field Fstats : (f_field F).
Variable root : F -> F.
Notation le := (fun a b : F => fleb a b = true).

(** ** Sorted lists *)
Lemma sorted_strong (l : list F) : Sorted le l -> StronglySorted le l.
Proof. apply Sorted_StronglySorted. intros a b c. apply f_leb_trans. Qed.
Lemma sorted_unique : forall l l' : list F, Sorted le l -> Sorted le l' -> Permutation l l' -> l = l'.
Proof.
  induction l as [|a l IH]; intros l' S S' P.
  - apply Permutation_nil in P. auto.
  - destruct l' as [|b l']; [apply Permutation_sym, Permutation_nil in P; discriminate|].
    pose proof (sorted_strong _ S) as T. pose proof (sorted_strong _ S') as T'. inv T. inv T'.
    assert (E : a = b).
    { apply fle_antisym.
      - assert (I : In b (a :: l)) by (apply (Permutation_in _ (Permutation_sym P)); now left).
        destruct I as [<-|I]; [apply fle_refl|]. rewrite Forall_forall in H2. now apply H2.
      - assert (I : In a (b :: l')) by (apply (Permutation_in _ P); now left).
        destruct I as [<-|I]; [apply fle_refl|]. rewrite Forall_forall in H4. now apply H4. }
    subst b. f_equal. apply IH; [now inv S|now inv S'|]. now apply Permutation_cons_inv in P.
Qed.
Lemma lsort_unique (l s : list F) : Permutation l s -> Sorted le s -> lsort l = s.
Proof.
  intros P S. apply sorted_unique; auto; [apply lsort_sorted|].
  eapply perm_trans; [apply Permutation_sym, lsort_perm|auto].
Qed.
Lemma lsort_length (l : list F) : length (lsort l) = length l.
Proof. symmetry. apply Permutation_length, lsort_perm. Qed.
Lemma sorted_nth (s : list F) : Sorted le s -> forall i j, (i <= j)%nat -> (j < length s)%nat -> fle (nth i s f0) (nth j s f0).
Proof.
  intros S. apply sorted_strong in S. induction S as [|a l S IH H]; intros i j Hij Hj; [cbn in Hj; lia|].
  destruct i, j; cbn [nth]; try lia; [apply fle_refl| |apply IH; cbn in Hj; lia].
  rewrite Forall_forall in H. apply H. apply nth_In. cbn in Hj. lia.
Qed.

(** ** Quantiles *)
(** Reading a sorted list s at position r/q. *)
Definition interp (s : list F) (q r : Z) : F :=
  fadd (nth (Z.to_nat (r / q)) s f0)
    (fmul (fdiv (fofZ (r mod q)) (fofZ q)) (fsub (nth (Z.to_nat (r / q + 1)) s f0) (nth (Z.to_nat (r / q)) s f0))).
Lemma ceil_div r q : 0 < q -> - (- r / q) = if r mod q =? 0 then r / q else r / q + 1.
Proof.
  intros H. destruct (r mod q =? 0) eqn:E; [apply Z.eqb_eq in E|apply Z.eqb_neq in E].
  - rewrite Z.div_opp_l_z; lia.
  - rewrite Z.div_opp_l_nz; lia.
Qed.
Lemma quantile_interp p q (l s : list F) : 0 < q -> Permutation l s -> Sorted le s ->
  quantile p q l = interp s q (p * (Z.of_nat (length l) - 1)).
Proof.
  intros H P S. unfold quantile, interp. rewrite (lsort_unique l s P S). rewrite ceil_div by auto.
  set (r := p * _). destruct (r mod q =? 0) eqn:E; [|reflexivity].
  apply Z.eqb_eq in E. rewrite E. rewrite fofZ_0. field. now apply fofZ_neq0; lia.
Qed.
Lemma flt_ofZ (q : Z) : 0 < q -> flt (f0 : F) (fofZ q).
Proof. apply fofZ_pos. Qed.
Lemma interp_step (s : list F) q r : 0 < q -> Sorted le s -> 0 <= r -> r < q * (Z.of_nat (length s) - 1) ->
  fle (interp s q r) (interp s q (r + 1)).
Proof.
  intros Hq S H0 H1. pose proof (Z.mod_pos_bound r q Hq) as B. pose proof (Z.div_mod r q ltac:(lia)) as D.
  set (k := r / q) in *. set (m := r mod q) in *.
  assert (Hk : 0 <= k) by (apply Z.div_pos; lia). assert (Hk2 : k + 1 < Z.of_nat (length s)) by nia.
  assert (L : fle (nth (Z.to_nat k) s f0) (nth (Z.to_nat (k + 1)) s f0)) by (apply sorted_nth; auto; lia).
  assert (Q : fofZ q <> (f0 : F)) by (apply fofZ_neq0; lia).
  unfold interp at 1. fold k. fold m.
  set (a := nth (Z.to_nat k) s f0) in *. set (b := nth (Z.to_nat (k + 1)) s f0) in *.
  destruct (Z.eq_dec (m + 1) q) as [E|E].
  - assert (D1 : (r + 1) / q = k + 1) by (symmetry; apply (Z.div_unique _ _ _ 0); lia).
    assert (M1 : (r + 1) mod q = 0) by (symmetry; apply (Z.mod_unique _ _ (k + 1)); lia).
    unfold interp. rewrite D1, M1. fold b. rewrite fofZ_0.
    apply fle_sub2. set (c := nth (Z.to_nat (k + 1 + 1)) s f0).
    replace (fsub (fadd b (fmul (fdiv f0 (fofZ q)) (fsub c b))) (fadd a (fmul (fdiv (fofZ m) (fofZ q)) (fsub b a)))) with
      (fmul (fdiv (fofZ (q - m)) (fofZ q)) (fsub b a)) by (rewrite fofZ_sub; field; auto).
    apply fmul_nonneg; [apply fdiv_nonneg; [apply fofZ_nonneg; lia|now apply fofZ_pos]|now apply fle_sub1].
  - assert (D1 : (r + 1) / q = k) by (symmetry; apply (Z.div_unique _ _ _ (m + 1)); lia).
    assert (M1 : (r + 1) mod q = m + 1) by (symmetry; apply (Z.mod_unique _ _ k); lia).
    unfold interp. rewrite D1, M1. fold a b. apply fle_sub2.
    replace (fsub (fadd a (fmul (fdiv (fofZ (m + 1)) (fofZ q)) (fsub b a))) (fadd a (fmul (fdiv (fofZ m) (fofZ q)) (fsub b a)))) with
      (fmul (fdiv (fofZ 1) (fofZ q)) (fsub b a)) by (rewrite fofZ_add, fofZ_1; field; auto).
    apply fmul_nonneg; [apply fdiv_nonneg; [apply fofZ_nonneg; lia|now apply fofZ_pos]|now apply fle_sub1].
Qed.
Lemma interp_mono (s : list F) q r r' : 0 < q -> Sorted le s -> 0 <= r -> r <= r' -> r' <= q * (Z.of_nat (length s) - 1) ->
  fle (interp s q r) (interp s q r').
Proof.
  intros Hq S H0 H1 H2. replace r' with (r + Z.of_nat (Z.to_nat (r' - r))) in * by lia.
  generalize dependent (Z.to_nat (r' - r)). intros n _. intros H2. induction n as [|n IH].
  - rewrite Z.add_0_r. apply fle_refl.
  - eapply fle_trans; [apply IH; lia|]. replace (r + Z.of_nat (Datatypes.S n)) with (r + Z.of_nat n + 1) by lia. apply interp_step; auto; lia.
Qed.
Lemma interp_grid (s : list F) q k : 0 < q -> interp s q (q * k) = nth (Z.to_nat k) s f0.
Proof.
  intros H. unfold interp. rewrite (Z.mul_comm q k), Z.div_mul, Z.mod_mul by lia. rewrite fofZ_0. field. apply fofZ_neq0; lia.
Qed.
(** Reading at p/q of n-1 with different denominators. *)
Lemma interp_scale (s : list F) q r c : 0 < q -> 0 < c -> interp s (c * q) (c * r) = interp s q r.
Proof.
  intros Hq Hc. unfold interp. rewrite Z.div_mul_cancel_l by lia. rewrite Z.mul_mod_distr_l by lia.
  rewrite !fofZ_mul. f_equal. f_equal. field. split; apply fofZ_neq0; lia.
Qed.

Definition positions (l : list F) := Z.of_nat (length l).
Lemma min_first (l s : list F) : l <> [] -> Permutation l s -> Sorted le s -> lmin l = nth 0 s f0.
Proof.
  intros N P S. destruct (lmin_is_min F l N) as [A B]. apply fle_antisym.
  - apply B. apply (Permutation_in _ (Permutation_sym P)). apply nth_In. rewrite <- (Permutation_length P). destruct l; [congruence|cbn; lia].
  - apply (Permutation_in _ P) in A. destruct (In_nth _ _ (f0 : F) A) as [k [Hk <-]]. apply sorted_nth; auto; lia.
Qed.
Lemma max_last (l s : list F) : l <> [] -> Permutation l s -> Sorted le s -> lmax l = nth (length s - 1) s f0.
Proof.
  intros N P S. destruct (lmax_is_max F l N) as [A B]. apply fle_antisym.
  - apply (Permutation_in _ P) in A. destruct (In_nth _ _ (f0 : F) A) as [k [Hk <-]]. apply sorted_nth; auto; lia.
  - apply B. apply (Permutation_in _ (Permutation_sym P)). apply nth_In. rewrite <- (Permutation_length P). destruct l; [congruence|cbn; lia].
Qed.
Lemma quantile_le p q p' q' (l : list F) : l <> [] -> 0 < q -> 0 < q' -> 0 <= p -> p' <= q' -> p * q' <= p' * q ->
  fle (quantile p q l) (quantile p' q' l).
Proof.
  intros N Hq Hq' Hp Hp' H. set (n := Z.of_nat (length l)). assert (Hn : 1 <= n) by (destruct l; [congruence|cbn in *; lia]).
  rewrite (quantile_interp p q l (lsort l)), (quantile_interp p' q' l (lsort l)); auto using lsort_perm, lsort_sorted. fold n.
  rewrite <- (interp_scale _ q (p * (n - 1)) q'), <- (interp_scale _ q' (p' * (n - 1)) q) by lia. rewrite (Z.mul_comm q q').
  assert (n - 1 >= 0) by lia. apply interp_mono; [nia|apply lsort_sorted|nia| |].
  - assert (p * q' * (n - 1) <= p' * q * (n - 1)) by nia. nia.
  - rewrite lsort_length. fold n. replace (q * (p' * (n - 1))) with (p' * (q * (n - 1))) by ring.
    replace (q' * q * (n - 1)) with (q' * (q * (n - 1))) by ring. apply Z.mul_le_mono_nonneg_r; nia.
Qed.
Lemma quantile_min (l : list F) q : l <> [] -> 0 < q -> quantile 0 q l = lmin l.
Proof.
  intros N H. rewrite (quantile_interp 0 q l (lsort l)); auto using lsort_perm, lsort_sorted.
  replace (0 * _) with (q * 0) by lia. rewrite interp_grid by auto. symmetry. apply min_first; auto using lsort_perm, lsort_sorted.
Qed.
Lemma quantile_max (l : list F) q : l <> [] -> 0 < q -> quantile q q l = lmax l.
Proof.
  intros N H. rewrite (quantile_interp q q l (lsort l)); auto using lsort_perm, lsort_sorted.
  rewrite interp_grid by auto. rewrite (max_last l (lsort l)); auto using lsort_perm, lsort_sorted. f_equal. rewrite lsort_length. lia.
Qed.

(** ** describe *)
Lemma mean_bounds (l : list F) : l <> [] -> fle (lmin l) (lmean l) /\ fle (lmean l) (lmax l).
Proof.
  intros N. destruct (lmin_is_min F l N) as [_ A]. destruct (lmax_is_max F l N) as [_ B].
  destruct (lsum_bounds F l (lmin l) (lmax l)) as [C D]; [intros e He; split; [apply A|apply B]; auto|].
  assert (P : flt (f0 : F) (fofZ (Z.of_nat (length l)))) by (apply fofZ_pos; destruct l; [congruence|cbn; lia]).
  pose proof (flt_ne F _ _ P) as Q. apply not_eq_sym in Q. unfold lmean. split.
  - replace (lmin l) with (fdiv (fmul (fofZ (Z.of_nat (length l))) (lmin l)) (fofZ (Z.of_nat (length l)))) at 1 by (field; auto). now apply fdiv_le.
  - replace (lmax l) with (fdiv (fmul (fofZ (Z.of_nat (length l))) (lmax l)) (fofZ (Z.of_nat (length l)))) by (field; auto). now apply fdiv_le.
Qed.
Lemma describe_inv x d : describe root x = Ok d -> elems x <> [] /\
  d = mkDesc (lmean (elems x)) (option_map root (lvar (elems x))) (lmin (elems x))
        (quantile 1 4 (elems x)) (quantile 1 2 (elems x)) (quantile 3 4 (elems x)) (lmax (elems x)).
Proof. unfold describe. destruct (elems x) eqn:E; [discriminate|]. injection 1 as <-. split; [discriminate|reflexivity]. Qed.
Lemma describe_some x : elems x <> [] -> describe root x =
  Ok (mkDesc (lmean (elems x)) (option_map root (lvar (elems x))) (lmin (elems x))
        (quantile 1 4 (elems x)) (quantile 1 2 (elems x)) (quantile 3 4 (elems x)) (lmax (elems x))).
Proof. unfold describe. destruct (elems x); [congruence|reflexivity]. Qed.
Lemma In_elems x (v : F) : In v (elems x) <-> exists i, valid (shp x) i /\ at_ x i = v.
Proof.
  unfold elems. rewrite in_map_iff. split; intros [i [A B]]; exists i; [apply In_tindices in B|rewrite In_tindices]; auto.
Qed.
Theorem describe_order x d : describe root x = Ok d ->
  fle (d_min d) (d_25 d) /\ fle (d_25 d) (d_50 d) /\ fle (d_50 d) (d_75 d) /\ fle (d_75 d) (d_max d) /\
  fle (d_min d) (d_mean d) /\ fle (d_mean d) (d_max d) /\
  (exists i, valid (shp x) i /\ at_ x i = d_min d) /\ (exists i, valid (shp x) i /\ at_ x i = d_max d) /\
  (forall i, valid (shp x) i -> fle (d_min d) (at_ x i) /\ fle (at_ x i) (d_max d)).
Proof.
  intros H. apply describe_inv in H as [N ->]. cbn [d_mean d_min d_25 d_50 d_75 d_max].
  rewrite <- (quantile_min (elems x) 1), <- (quantile_max (elems x) 1) by (auto; lia).
  split; [apply quantile_le; auto; lia|]. split; [apply quantile_le; auto; lia|]. split; [apply quantile_le; auto; lia|].
  split; [apply quantile_le; auto; lia|]. rewrite quantile_min, quantile_max by (auto; lia).
  destruct (mean_bounds _ N) as [A B]. split; auto. split; auto.
  destruct (lmin_is_min F _ N) as [C D]. destruct (lmax_is_max F _ N) as [E G].
  split; [now apply In_elems|]. split; [now apply In_elems|]. intros i V. split; [apply D|apply G]; apply In_elems; eauto.
Qed.
(** The listed values are those of the sorted pixels; the mean and the variance satisfy their equations. *)
Theorem describe_values x d s : describe root x = Ok d -> Permutation (elems x) s -> Sorted le s ->
  let n := Z.of_nat (length s) in
  fmul (fofZ n) (d_mean d) = lsum (elems x) /\
  d_min d = nth 0 s f0 /\ d_25 d = interp s 4 (n - 1) /\ d_50 d = interp s 2 (n - 1) /\ d_75 d = interp s 4 (3 * (n - 1)) /\
  d_max d = nth (length s - 1) s f0 /\
  (n = 1 -> d_std d = None) /\
  (1 < n -> exists v, d_std d = Some (root v) /\ fle f0 v /\
     fmul (fofZ (n - 1)) v = lsum (map (fun e => fmul (fsub e (d_mean d)) (fsub e (d_mean d))) (elems x))).
Proof.
  intros H P S n. apply describe_inv in H as [N ->]. cbn [d_mean d_std d_min d_25 d_50 d_75 d_max].
  assert (L : Z.of_nat (length (elems x)) = n) by (unfold n; now rewrite (Permutation_length P)).
  split. { unfold lmean. rewrite L. field. rewrite <- L. now apply len_neq0. }
  split; [now apply min_first|]. split; [rewrite (quantile_interp 1 4 _ s) by (auto; lia); rewrite L; f_equal; lia|].
  split; [rewrite (quantile_interp 1 2 _ s) by (auto; lia); rewrite L; f_equal; lia|].
  split; [rewrite (quantile_interp 3 4 _ s) by (auto; lia); rewrite L; f_equal; lia|]. split; [now apply max_last|].
  unfold lvar. rewrite L. split; intros Hn.
  - rewrite (proj2 (Z.eqb_eq n 1) Hn). reflexivity.
  - rewrite (proj2 (Z.eqb_neq n 1)) by lia. cbn [option_map]. eexists. split; [reflexivity|]. split.
    + apply fdiv_nonneg; [|apply fofZ_pos; lia]. apply lsum_nonneg. intros e He. apply in_map_iff in He as [v [<- _]]. apply fsq_nonneg.
    + field. apply fofZ_neq0. lia.
Qed.
Theorem describe_empty x : (describe root x = Err RuntimeError <-> exists d, In d (shp x) /\ d <= 0) /\
  ((forall n, In n (shp x) -> 1 <= n) -> exists d, describe root x = Ok d).
Proof.
  assert (A : elems x = [] <-> exists d, In d (shp x) /\ d <= 0).
  { unfold elems. split.
    - intros E. apply map_eq_nil in E. revert E. induction (shp x) as [|n s IH]; cbn [tindices]; [discriminate|]. intros E.
      destruct (Z_le_gt_dec n 0) as [L|G]; [exists n; cbn; auto|]. assert (T : tindices s = []).
      { replace n with (Z.of_nat (S (Z.to_nat (n - 1)))) in E by lia. unfold zrange in E. rewrite Nat2Z.id in E. cbn [zseq flat_map] in E.
        apply app_eq_nil in E as [E _]. now apply map_eq_nil in E. }
      destruct (IH T) as [d [I L]]. exists d. cbn. auto.
    - intros [d [I L]]. assert (T : tindices (shp x) = []); [|now rewrite T].
      induction (shp x) as [|n s IH]; [destruct I|]. cbn [tindices]. destruct I as [->|I].
      + unfold zrange. destruct d; try reflexivity. lia.
      + rewrite (IH I). clear. induction (zrange n); cbn; auto. }
  split.
  - rewrite <- A. unfold describe. destruct (elems x); split; auto; discriminate.
  - intros H. rewrite describe_some; eauto. intros E. apply A in E as [d [I L]]. specialize (H d I). lia.
Qed.

(** ** Affine maps *)
Lemma sum_affine (a b : F) l : lsum (map (fun v => fadd (fmul a v) b) l) = fadd (fmul a (lsum l)) (fmul (fofZ (Z.of_nat (length l))) b).
Proof.
  induction l as [|v l IH]; [cbn; ring|]. cbn [map lsum fold_right length]. unfold lsum in IH. rewrite IH.
  rewrite Nat2Z.inj_succ, <- Z.add_1_r, fofZ_succ. ring.
Qed.
Lemma mean_affine (a b : F) l : l <> [] -> lmean (map (fun v => fadd (fmul a v) b) l) = fadd (fmul a (lmean l)) b.
Proof. intros N. unfold lmean. rewrite sum_affine, map_length. field. now apply len_neq0. Qed.
Lemma var_affine (a b : F) l : l <> [] -> lvar (map (fun v => fadd (fmul a v) b) l) = option_map (fmul (fmul a a)) (lvar l).
Proof.
  intros N. unfold lvar. rewrite map_length. destruct (Z.of_nat (length l) =? 1) eqn:E; [reflexivity|]. apply Z.eqb_neq in E. cbn [option_map]. f_equal.
  rewrite (mean_affine a b l N), map_map. generalize (lmean l). intros m.
  assert (S : lsum (map (fun v => fmul (fsub (fadd (fmul a v) b) (fadd (fmul a m) b)) (fsub (fadd (fmul a v) b) (fadd (fmul a m) b))) l)
            = fmul (fmul a a) (lsum (map (fun v => fmul (fsub v m) (fsub v m)) l))).
  { clear N E. induction l as [|v l IH]; [cbn; ring|]. cbn [map lsum fold_right]. unfold lsum in IH. rewrite IH. ring. }
  cbv zeta. rewrite S. field. apply fofZ_neq0. lia.
Qed.
Lemma sorted_affine (a b : F) s : fle f0 a -> Sorted le s -> Sorted le (map (fun v => fadd (fmul a v) b) s).
Proof.
  intros A S. induction S as [|v s S IH H]; cbn [map]; constructor; auto. destruct H; cbn [map]; constructor.
  change (fle (fadd (fmul a v) b) (fadd (fmul a b0) b)). apply fle_add; [now apply fmul_le_l|apply fle_refl].
Qed.
Lemma sorted_flip (a b : F) s : fle a f0 -> Sorted le s -> Sorted le (rev (map (fun v => fadd (fmul a v) b) s)).
Proof.
  intros A S. apply sorted_strong in S. induction S as [|v s S IH H]; cbn [map rev]; [constructor|].
  assert (G : forall t, Sorted le t -> (forall e, In e t -> le e (fadd (fmul a v) b)) -> Sorted le (t ++ [fadd (fmul a v) b])).
  { clear. induction t as [|e t IH]; cbn [app]; intros S H; [repeat constructor|]. inv S. constructor; [apply IH; auto; intros; apply H; now right|].
    destruct t; cbn [app]; constructor; [apply H; now left|now inv H3]. }
  apply G; auto. intros e He. apply in_rev in He. apply in_map_iff in He as [w [<- Hw]].
  rewrite Forall_forall in H. specialize (H w Hw). change (fle (fadd (fmul a w) b) (fadd (fmul a v) b)).
  apply fle_sub2. replace (fsub (fadd (fmul a v) b) (fadd (fmul a w) b)) with (fmul (fopp a) (fsub w v)) by ring.
  apply fmul_nonneg; [|now apply fle_sub1]. apply fle_opp in A. now replace (fopp f0) with (f0 : F) in A by ring.
Qed.
Lemma nth_affine (a b : F) s k : (k < length s)%nat -> nth k (map (fun v => fadd (fmul a v) b) s) f0 = fadd (fmul a (nth k s f0)) b.
Proof. intros H. rewrite (nth_indep _ _ (fadd (fmul a f0) b)) by (now rewrite map_length). exact (map_nth (fun v => fadd (fmul a v) b) s f0 k). Qed.
(** Reading between the samples lo and hi = lo or lo + 1. *)
Lemma interp_hi (s : list F) q r : 0 < q -> 0 <= r -> r <= q * (Z.of_nat (length s) - 1) ->
  exists hi, (hi < length s)%nat /\ (r mod q <> 0 -> hi = Z.to_nat (r / q + 1)) /\ (Z.to_nat (r / q) < length s)%nat /\
    forall t : list F, length t = length s -> interp t q r = fadd (nth (Z.to_nat (r / q)) t f0)
      (fmul (fdiv (fofZ (r mod q)) (fofZ q)) (fsub (nth hi t f0) (nth (Z.to_nat (r / q)) t f0))).
Proof.
  intros Hq H0 H1. pose proof (Z.mod_pos_bound r q Hq) as B. pose proof (Z.div_mod r q ltac:(lia)) as D.
  assert (0 <= r / q) by (apply Z.div_pos; lia).
  destruct (Z.eq_dec (r mod q) 0) as [E|E].
  - exists (Z.to_nat (r / q)). assert (r / q < Z.of_nat (length s)) by nia. split; [lia|]. split; [tauto|]. split; [lia|]. intros t _. unfold interp. rewrite E, fofZ_0.
    field. apply fofZ_neq0; lia.
  - exists (Z.to_nat (r / q + 1)). assert (r / q + 1 < Z.of_nat (length s)) by nia. split; [lia|]. split; [auto|]. split; [lia|]. reflexivity.
Qed.
Lemma interp_affine (a b : F) s q r : 0 < q -> 0 <= r -> r <= q * (Z.of_nat (length s) - 1) ->
  interp (map (fun v => fadd (fmul a v) b) s) q r = fadd (fmul a (interp s q r)) b.
Proof.
  intros Hq H0 H1. destruct (interp_hi s q r Hq H0 H1) as [hi [A [_ [C D]]]]. rewrite !D by (rewrite ?map_length; auto). rewrite !nth_affine by auto. field. apply fofZ_neq0; lia.
Qed.
Lemma interp_rev (s : list F) q r : 0 < q -> 0 <= r -> r <= q * (Z.of_nat (length s) - 1) ->
  interp (rev s) q r = interp s q (q * (Z.of_nat (length s) - 1) - r).
Proof.
  intros Hq H0 H1. set (n := Z.of_nat (length s)) in *. set (r' := q * (n - 1) - r).
  assert (Hs : (0 < length s)%nat) by nia.
  destruct (interp_hi s q r Hq H0 H1) as [hi [A [B [C D]]]]. rewrite (D (rev s)) by apply rev_length.
  destruct (interp_hi s q r' Hq ltac:(unfold r'; lia) ltac:(unfold r'; lia)) as [hi' [A' [B' [C' D']]]]. rewrite (D' s eq_refl).
  pose proof (Z.mod_pos_bound r q Hq) as M. pose proof (Z.div_mod r q ltac:(lia)) as E. assert (0 <= r / q) by (apply Z.div_pos; lia).
  rewrite !rev_nth by auto. destruct (Z.eq_dec (r mod q) 0) as [Z0|NZ].
  - assert (Q : r' / q = n - 1 - r / q) by (symmetry; apply (Z.div_unique _ _ _ 0); unfold r'; nia).
    assert (R : r' mod q = 0) by (symmetry; apply (Z.mod_unique _ _ (n - 1 - r / q)); unfold r'; nia).
    rewrite Z0, R, fofZ_0, Q. replace (Z.to_nat (n - 1 - r / q)) with (length s - S (Z.to_nat (r / q)))%nat by lia. field. apply fofZ_neq0; lia.
  - assert (Q : r' / q = n - 1 - r / q - 1) by (symmetry; apply (Z.div_unique _ _ _ (q - r mod q)); unfold r'; nia).
    assert (R : r' mod q = q - r mod q) by (symmetry; apply (Z.mod_unique _ _ (n - 1 - r / q - 1)); unfold r'; nia).
    rewrite (B NZ) in *. rewrite (B' ltac:(lia)) in *. rewrite Q, R in *.
    replace (Z.to_nat (n - 1 - r / q - 1)) with (length s - S (Z.to_nat (r / q + 1)))%nat by lia.
    replace (Z.to_nat (n - 1 - r / q - 1 + 1)) with (length s - S (Z.to_nat (r / q)))%nat by lia.
    rewrite fofZ_sub. field. apply fofZ_neq0; lia.
Qed.
Lemma quantile_affine p q (a b : F) l : 0 < q -> 0 <= p <= q -> l <> [] -> fle f0 a ->
  quantile p q (map (fun v => fadd (fmul a v) b) l) = fadd (fmul a (quantile p q l)) b.
Proof.
  intros Hq Hp N A. assert (1 <= Z.of_nat (length l)) by (destruct l; [congruence|cbn in *; lia]).
  rewrite (quantile_interp p q _ (map (fun v => fadd (fmul a v) b) (lsort l))), (quantile_interp p q l (lsort l));
    auto using lsort_perm, lsort_sorted, sorted_affine, Permutation_map.
  rewrite map_length. apply interp_affine; auto; rewrite ?lsort_length; nia.
Qed.
Lemma quantile_flip p q (a b : F) l : 0 < q -> 0 <= p <= q -> l <> [] -> fle a f0 ->
  quantile p q (map (fun v => fadd (fmul a v) b) l) = fadd (fmul a (quantile (q - p) q l)) b.
Proof.
  intros Hq Hp N A. assert (1 <= Z.of_nat (length l)) by (destruct l; [congruence|cbn in *; lia]).
  rewrite (quantile_interp p q _ (rev (map (fun v => fadd (fmul a v) b) (lsort l)))), (quantile_interp (q - p) q l (lsort l));
    auto using lsort_perm, lsort_sorted, sorted_flip.
  - rewrite map_length. rewrite interp_rev by (rewrite ?map_length, ?lsort_length; nia). rewrite interp_affine by (rewrite ?map_length, ?lsort_length; nia).
    rewrite map_length, lsort_length. do 3 f_equal. ring.
  - eapply perm_trans; [apply Permutation_map, lsort_perm|apply Permutation_rev].
Qed.
Theorem describe_affine (a b : F) x d : (forall v, fle f0 v -> fle f0 (root v) /\ root (fmul (fmul a a) v) = fmul (if fleb f0 a then a else fopp a) (root v)) ->
  describe root x = Ok d ->
  exists d', describe root (tmap (fun v => fadd (fmul a v) b) x) = Ok d' /\
    d_mean d' = fadd (fmul a (d_mean d)) b /\ d_50 d' = fadd (fmul a (d_50 d)) b /\
    d_std d' = option_map (fmul (if fleb f0 a then a else fopp a)) (d_std d) /\
    (if fleb f0 a
     then d_min d' = fadd (fmul a (d_min d)) b /\ d_25 d' = fadd (fmul a (d_25 d)) b /\
          d_75 d' = fadd (fmul a (d_75 d)) b /\ d_max d' = fadd (fmul a (d_max d)) b
     else d_min d' = fadd (fmul a (d_max d)) b /\ d_25 d' = fadd (fmul a (d_75 d)) b /\
          d_75 d' = fadd (fmul a (d_25 d)) b /\ d_max d' = fadd (fmul a (d_min d)) b).
Proof.
  intros R H. apply describe_inv in H as [N ->]. cbn [d_mean d_std d_min d_25 d_50 d_75 d_max].
  assert (E : elems (tmap (fun v => fadd (fmul a v) b) x) = map (fun v => fadd (fmul a v) b) (elems x)) by (unfold elems; cbn; now rewrite map_map).
  assert (N' : elems (tmap (fun v => fadd (fmul a v) b) x) <> []) by (rewrite E; intros C; apply map_eq_nil in C; auto).
  eexists. split; [now apply describe_some|]. cbn [d_mean d_std d_min d_25 d_50 d_75 d_max]. rewrite E.
  split; [now apply mean_affine|].
  assert (M : forall l : list F, l <> [] -> lmin l = quantile 0 1 l /\ lmax l = quantile 1 1 l) by (intros; rewrite quantile_min, quantile_max; auto; lia).
  rewrite E in N'. destruct (M _ N) as [M1 M2]. destruct (M _ N') as [M3 M4]. rewrite M1, M2, M3, M4.
  assert (S : option_map root (lvar (map (fun v => fadd (fmul a v) b) (elems x))) = option_map (fmul (if fleb f0 a then a else fopp a)) (option_map root (lvar (elems x)))).
  { rewrite var_affine by auto. destruct (lvar (elems x)) as [v|] eqn:V; [|reflexivity]. cbn [option_map]. f_equal. apply R.
    unfold lvar in V. destruct (Z.of_nat (length (elems x)) =? 1) eqn:E1; [discriminate|]. apply Z.eqb_neq in E1. injection V as <-.
    assert (length (elems x) <> 0)%nat by (rewrite length_zero_iff_nil; auto). apply fdiv_nonneg; [|apply fofZ_pos; lia]. apply lsum_nonneg. intros e He. apply in_map_iff in He as [w [<- _]]. apply fsq_nonneg. }
  rewrite S. destruct (fleb f0 a) eqn:A.
  - split; [now apply quantile_affine; auto; lia|]. split; [reflexivity|]. repeat split; apply quantile_affine; auto; lia.
  - assert (A' : fle a f0) by (destruct (fle_total F a f0) as [T|T]; auto; unfold fle in T; congruence).
    split; [rewrite (quantile_flip 1 2) by (auto; lia); reflexivity|]. split; [reflexivity|].
    repeat split; rewrite quantile_flip by (auto; lia); reflexivity.
Qed.
(** Only the multiset of pixel values matters. *)
Theorem describe_rearranged x y d : Permutation (elems x) (elems y) -> describe root x = Ok d -> describe root y = Ok d.
Proof.
  intros P H. apply describe_inv in H as [N ->].
  assert (N' : elems y <> []) by (intros E; rewrite E in P; apply Permutation_sym, Permutation_nil in P; auto).
  rewrite (describe_some y N'). f_equal.
  assert (S : lsum (elems y) = lsum (elems x)) by (apply lsum_perm; now apply Permutation_sym).
  assert (L : length (elems y) = length (elems x)) by (symmetry; now apply Permutation_length).
  assert (M : lmean (elems y) = lmean (elems x)) by (unfold lmean; now rewrite S, L).
  assert (Q : lsort (elems y) = lsort (elems x)). { apply lsort_unique; [|apply lsort_sorted]. eapply perm_trans; [apply Permutation_sym; eassumption|apply lsort_perm]. }
  assert (V : lvar (elems y) = lvar (elems x)).
  { unfold lvar. rewrite L, M. destruct (_ =? 1); [reflexivity|]. f_equal. f_equal. apply lsum_perm. apply Permutation_map. now apply Permutation_sym. }
  rewrite M, V. unfold quantile. rewrite Q, L.
  rewrite (min_first (elems x) (lsort (elems x))), (max_last (elems x) (lsort (elems x))), (min_first (elems y) (lsort (elems x))), (max_last (elems y) (lsort (elems x)));
    auto using lsort_perm, lsort_sorted; (rewrite <- Q; apply lsort_perm) || (rewrite <- Q; apply lsort_sorted).
Qed.
End Stats.
