(** The executable line statistics satisfy their relational specification. *)
From Verif Require Export PadModel PadSpec FieldLemmas.
From Coq Require Import Permutation Sorted.

Section Stat.
Variable F : ofield.
Add Field Fstat : (f_field F).
Notation le := (fun a b : F => fleb a b = true).

Lemma fold_max_spec (l : list F) : forall a,
  let v := fold_left (fun m e => if fleb m e then e else m) l a in
  (v = a \/ In v l) /\ fleb a v = true /\ forall e, In e l -> fleb e v = true.
Proof.
  induction l as [|b l IH]; simpl; intros a.
  - split; auto. split; [apply f_leb_refl|tauto].
  - destruct (fleb a b) eqn:E.
    + destruct (IH b) as [H1 [H2 H3]]. split; [destruct H1 as [H1|H1]; auto|].
      split; [eapply f_leb_trans; eauto|]. intros e [<-|H]; auto.
    + destruct (IH a) as [H1 [H2 H3]]. split; [tauto|]. split; auto. intros e [<-|H]; auto.
      eapply f_leb_trans; [|exact H2]. destruct (f_leb_total _ a b); congruence.
Qed.
Lemma fold_min_spec (l : list F) : forall a,
  let v := fold_left (fun m e => if fleb e m then e else m) l a in
  (v = a \/ In v l) /\ fleb v a = true /\ forall e, In e l -> fleb v e = true.
Proof.
  induction l as [|b l IH]; simpl; intros a.
  - split; auto. split; [apply f_leb_refl|tauto].
  - destruct (fleb b a) eqn:E.
    + destruct (IH b) as [H1 [H2 H3]]. split; [destruct H1 as [H1|H1]; auto|].
      split; [eapply f_leb_trans; eauto|]. intros e [<-|H]; auto.
    + destruct (IH a) as [H1 [H2 H3]]. split; [tauto|]. split; auto. intros e [<-|H]; auto.
      eapply f_leb_trans; [exact H2|]. destruct (f_leb_total _ b a); congruence.
Qed.
Lemma lmax_is_max (l : list F) : l <> [] -> is_max l (lmax l).
Proof.
  destruct l as [|a l]; [congruence|]. intros _. unfold lmax. destruct (fold_max_spec l a) as [H1 [H2 H3]].
  split; [simpl; destruct H1; auto|]. intros e [<-|H]; auto.
Qed.
Lemma lmin_is_min (l : list F) : l <> [] -> is_min l (lmin l).
Proof.
  destruct l as [|a l]; [congruence|]. intros _. unfold lmin. destruct (fold_min_spec l a) as [H1 [H2 H3]].
  split; [simpl; destruct H1; auto|]. intros e [<-|H]; auto.
Qed.
Lemma len_neq0 (l : list F) : l <> [] -> @fofZ F (Z.of_nat (length l)) <> f0.
Proof. intros H. apply fofZ_neq0. destruct l; [congruence|simpl; lia]. Qed.
Lemma lmean_is_mean (l : list F) : l <> [] -> is_mean l (lmean l).
Proof.
  intros H. unfold is_mean, lmean, lsum. field. now apply len_neq0.
Qed.
Lemma linsert_perm (a : F) l : Permutation (a :: l) (linsert a l).
Proof.
  induction l as [|b l IH]; simpl; auto. destruct (fleb a b); auto.
  eapply perm_trans; [apply perm_swap|]. now constructor.
Qed.
Lemma lsort_perm (l : list F) : Permutation l (lsort l).
Proof.
  induction l as [|a l IH]; simpl; auto. eapply perm_trans; [|apply linsert_perm]. now constructor.
Qed.
Lemma linsert_sorted (a : F) l : Sorted le l -> Sorted le (linsert a l).
Proof.
  induction l as [|b l IH]; simpl; intros H.
  - repeat constructor.
  - destruct (fleb a b) eqn:E.
    + constructor; auto.
    + inv H. constructor; [auto|]. assert (Hba : fleb b a = true) by (destruct (f_leb_total _ a b); congruence).
      destruct l as [|c l]; simpl; [constructor; auto|]. inv H3.
      destruct (fleb a c); constructor; auto.
Qed.
Lemma lsort_sorted (l : list F) : Sorted le (lsort l).
Proof. induction l; simpl; [constructor|]. now apply linsert_sorted. Qed.
Lemma lmedian_is_lower_median (l : list F) : l <> [] -> is_lower_median l (lmedian l).
Proof.
  intros H. exists (lsort l). split; [apply lsort_perm|]. split; [apply lsort_sorted|].
  unfold lmedian. apply nth_error_nth'. rewrite <- (Permutation_length (lsort_perm l)).
  destruct l; [congruence|]. simpl length. rewrite Nat.sub_succ, Nat.sub_0_r.
  assert (length l / 2 <= length l)%nat by (apply Nat.div_le_upper_bound; lia). lia.
Qed.

Lemma lsum_bounds (l : list F) lo hi : (forall e, In e l -> fle lo e /\ fle e hi) ->
  fle (fmul (fofZ (Z.of_nat (length l))) lo) (fold_right fadd f0 l) /\
  fle (fold_right fadd f0 l) (fmul (fofZ (Z.of_nat (length l))) hi).
Proof.
  induction l as [|a l IH]; intros H.
  - simpl. replace (fmul f0 lo) with (@f0 F) by ring. replace (fmul f0 hi) with (@f0 F) by ring.
    split; apply fle_refl.
  - cbn [length fold_right]. rewrite Nat2Z.inj_succ. unfold Z.succ. rewrite fofZ_succ.
    destruct IH as [I1 I2]; [intros; apply H; now right|]. destruct (H a (or_introl eq_refl)) as [A1 A2].
    set (k := @fofZ F (Z.of_nat (length l))) in *.
    replace (fmul (fadd k f1) lo) with (fadd lo (fmul k lo)) by ring.
    replace (fmul (fadd k f1) hi) with (fadd hi (fmul k hi)) by ring.
    split; apply fle_add; auto.
Qed.
Lemma is_mean_bounds (l : list F) v lo hi : l <> [] -> is_mean l v -> (forall e, In e l -> fle lo e /\ fle e hi) ->
  fle lo v /\ fle v hi.
Proof.
  intros Hl Hv H. destruct (lsum_bounds l lo hi H) as [B1 B2]. unfold is_mean in Hv. rewrite <- Hv in B1, B2.
  set (k := @fofZ F (Z.of_nat (length l))) in *.
  assert (Kp : flt (@f0 F) k) by (apply fofZ_pos; destruct l; [congruence|simpl; lia]).
  assert (Kn : k <> f0) by (now apply len_neq0).
  apply (fdiv_le _ _ _ k Kp) in B1. apply (fdiv_le _ _ _ k Kp) in B2.
  replace (fdiv (fmul k lo) k) with lo in B1 by (field; auto).
  replace (fdiv (fmul v k) k) with v in B1 by (field; auto).
  replace (fdiv (fmul k hi) k) with hi in B2 by (field; auto).
  replace (fdiv (fmul v k) k) with v in B2 by (field; auto). auto.
Qed.

(** The statistic [s] computes the relation [stat_rel s]. *)
Definition stat_rel (s : stat_mode) : list F -> F -> Prop :=
  match s with SMax => is_max | SMin => is_min | SMean => is_mean | SMedian => is_lower_median end.
Lemma stat_fun_rel s (l : list F) : l <> [] -> stat_rel s l (stat_fun s l).
Proof.
  destruct s; simpl; intros; auto using lmax_is_max, lmin_is_min, lmean_is_mean, lmedian_is_lower_median.
Qed.
Lemma stat_rel_bounds s (l : list F) v : l <> [] -> stat_rel s l v ->
  (exists lo, is_min l lo /\ fle lo v) /\ (exists hi, is_max l hi /\ fle v hi).
Proof.
  intros Hl Hv. pose proof (lmax_is_max l Hl) as HM. pose proof (lmin_is_min l Hl) as Hm.
  assert (G : fle (lmin l) v /\ fle v (lmax l)).
  { destruct s; simpl in Hv.
    - eapply is_mean_bounds; eauto. intros e He. split; [now apply Hm|now apply HM].
    - destruct Hv as [s [Hp [_ Hn]]]. apply nth_error_In in Hn.
      assert (In v l) by (eapply Permutation_in; [apply Permutation_sym; eauto|auto]).
      split; [now apply Hm|now apply HM].
    - destruct Hv as [Hi _]. split; [now apply Hm|now apply HM].
    - destruct Hv as [Hi _]. split; [now apply Hm|now apply HM]. }
  destruct G as [G1 G2]. split; [exists (lmin l)|exists (lmax l)]; auto.
Qed.
End Stat.
