(** view/reshape that only inserts axes of length 1, outer products and n_original_elements_nd (C26, C27, C65). *)
From Verif Require Export ShapeProofs.
Open Scope Z_scope.

(** [inserted s' i' s i]: s' and i' are s and i with some axes of length 1 inserted. *)
Inductive inserted : list Z -> list Z -> list Z -> list Z -> Prop :=
| ins_nil : inserted [] [] [] []
| ins_keep n k s' i' s i : inserted s' i' s i -> inserted (n :: s') (k :: i') (n :: s) (k :: i)
| ins_one s' i' s i : inserted s' i' s i -> inserted (1 :: s') (0 :: i') s i.

Lemma inserted_ravel s' i' s i : inserted s' i' s i -> ravel s' i' = ravel s i /\ zprod s' = zprod s.
Proof.
  induction 1 as [|n k s' i' s i _ [IH1 IH2]|s' i' s i _ [IH1 IH2]]; simpl; auto.
  - unfold zprod in *. simpl. rewrite IH1, IH2. auto.
  - unfold zprod in *. simpl. rewrite IH1, IH2. split; auto. now destruct (fold_right Z.mul 1 s).
Qed.
Lemma zprod_pos s i : valid s i -> 0 < zprod s.
Proof. induction 1; unfold zprod in *; simpl; nia. Qed.
Lemma ravel_range s i : valid s i -> 0 <= ravel s i < zprod s.
Proof.
  induction 1 as [|n k s i H V IH]; simpl; [unfold zprod; simpl; lia|].
  pose proof (zprod_pos s i V). change (zprod (n :: s)) with (n * zprod s). nia.
Qed.
Lemma unravel_ravel s i : valid s i -> unravel s (ravel s i) = i.
Proof.
  induction 1 as [|n k s i H V IH]; simpl; auto.
  pose proof (zprod_pos s i V). pose proof (ravel_range s i V).
  rewrite Z.div_add_l by lia. rewrite (Z.div_small (ravel s i)) by lia.
  rewrite Z.add_0_r, (Z.add_comm (k * zprod s)), Z.mod_add by lia. rewrite Z.mod_small by lia. now rewrite IH.
Qed.
Lemma infer_same n s : (forall k, In k s -> 0 <= k) -> zprod s = n -> infer_shape n s = Ok s.
Proof.
  intros H E. unfold infer_shape.
  rewrite (filter_all (fun n => negb (n =? -1))), (filter_none (fun n => n =? -1)).
  - rewrite E, Z.eqb_refl.
    rewrite (proj2 (forallb_forall _ _)); auto. intros k Hk. apply H in Hk. apply Z.leb_le. lia.
  - intros k Hk. apply H in Hk. apply Z.eqb_neq. lia.
  - intros k Hk. apply H in Hk. apply negb_true_iff, Z.eqb_neq. lia.
Qed.
(** view to a shape with inserted axes. *)
Lemma treshape_insert {A} (t : tensor A) s' : (forall k, In k s' -> 0 <= k) -> zprod s' = zprod (shp t) ->
  exists u, treshape t s' = Ok u /\ shp u = s' /\
    forall i' i, inserted s' i' (shp t) i -> valid (shp t) i -> at_ u i' = at_ t i.
Proof.
  intros H E. unfold treshape. rewrite infer_same by auto. cbn [bind]. eexists. split; [reflexivity|]. split; auto.
  intros i' i Hi V. cbn [at_]. destruct (inserted_ravel _ _ _ _ Hi) as [-> _]. now rewrite unravel_ravel.
Qed.

Lemma inserted_ones s i m : valid s i -> inserted (s ++ repeat 1 m) (i ++ repeat 0 m) s i.
Proof.
  induction 1 as [|n k s i H V IH]; simpl.
  - induction m; simpl; constructor; auto.
  - constructor; auto.
Qed.
Lemma zprod_app a b : zprod (a ++ b) = zprod a * zprod b.
Proof.
  induction a as [|x a IH]; [change (zprod []) with 1; rewrite Z.mul_1_l; reflexivity|].
  change (zprod ((x :: a) ++ b)) with (x * zprod (a ++ b)). rewrite IH. change (zprod (x :: a)) with (x * zprod a). ring.
Qed.
Lemma zprod_ones m : zprod (repeat 1 m) = 1.
Proof. unfold zprod. induction m; simpl; auto. now rewrite IHm. Qed.

(** *** outer *)
Lemma bshape_rev_app a b c : length a = length b ->
  bshape_rev (a ++ c) b = match bshape_rev a b with Some w => Some (w ++ c) | None => None end.
Proof.
  revert b. induction a as [|x a IH]; intros [|y b] H; simpl in *; try lia.
  - destruct c; auto.
  - rewrite IH by lia. destruct (bdim x y); auto. destruct (bshape_rev a b); auto.
Qed.
Lemma bshape_rev_ones b : bshape_rev (repeat 1 (length b)) b = Some b.
Proof. induction b as [|y b IH]; simpl; auto. unfold bdim. rewrite IH. destruct (Z.eqb_spec 1 y); subst; auto. Qed.
Lemma bshape_outer a b : bshape (a ++ repeat 1 (length b)) b = Some (a ++ b).
Proof.
  unfold bshape. rewrite rev_app_distr.
  assert (E : rev (repeat 1 (length b)) = repeat 1 (length (rev b))).
  { rewrite rev_length. clear. induction b as [|y b IH]; simpl; auto. rewrite IH.
    clear. induction (length b); simpl; auto. now rewrite IHn. }
  rewrite E, bshape_rev_app by (now rewrite repeat_length). rewrite bshape_rev_ones.
  rewrite rev_app_distr, !rev_involutive. reflexivity.
Qed.
Lemma map2_dim_valid s i : valid s i -> map2 (fun n k => if n =? 1 then 0 else k) s i = i.
Proof. induction 1; simpl; auto. rewrite IHForall2. f_equal. destruct (Z.eqb_spec x 1); lia. Qed.
Lemma map2_dim_ones (j : list Z) : map2 (fun n k => if n =? 1 then 0 else k) (repeat 1 (length j)) j = repeat 0 (length j).
Proof. induction j; simpl; auto. now rewrite IHj. Qed.

Section O.
Variable F : ofield.
Add Field Fout : (f_field F).
Notation T := (tensor F).

Theorem outer_ok (u v : T) : (forall n, In n (shp u) -> 0 <= n) ->
  exists w, outer u v = Ok w /\ shp w = shp u ++ shp v /\
    forall i j, valid (shp u) i -> valid (shp v) j -> at_ w (i ++ j) = fmul (at_ u i) (at_ v j).
Proof.
  intros Hu. unfold outer, ndim.
  destruct (treshape_insert u (shp u ++ repeat 1 (length (shp v)))) as [u' [U1 [U2 U3]]].
  { intros k Hk. apply in_app_iff in Hk. destruct Hk as [Hk|Hk]; auto. apply repeat_spec in Hk. lia. }
  { rewrite zprod_app, zprod_ones. lia. }
  rewrite U1. cbn [bind]. unfold tmap2. rewrite U2, bshape_outer. eexists. split; [reflexivity|]. split; auto.
  intros i j Vi Vj. cbn [at_]. pose proof (valid_length _ _ Vi) as Li. pose proof (valid_length _ _ Vj) as Lj.
  f_equal.
  - rewrite <- (U3 (i ++ repeat 0 (length j)) i).
    + f_equal. unfold bidx. rewrite !app_length, repeat_length. replace (_ - _)%nat with 0%nat by lia. simpl skipn.
      rewrite map2_app by lia. rewrite map2_dim_valid by auto. f_equal. rewrite <- Lj. apply map2_dim_ones.
    + rewrite Lj. apply inserted_ones. auto.
    + auto.
  - f_equal. unfold bidx. rewrite app_length. replace (length i + length j - length (shp v))%nat with (length i) by lia.
    rewrite skipn_app, skipn_all, Nat.sub_diag. simpl. apply map2_dim_valid. auto.
Qed.

(** Product of a list. *)
Definition fprod (l : list F) : F := fold_right fmul f1 l.
Lemma fprod_app a b : fprod (a ++ b) = fmul (fprod a) (fprod b).
Proof. unfold fprod. induction a as [|x a IH]; simpl; [ring|]. rewrite IH. ring. Qed.

(** functools.reduce(outer, ...) of vectors. *)
Lemma reduce_outer_vectors (ls : list (list Z)) : ls <> [] ->
  exists w, reduce_outer (map (@tofZs F) ls) = Ok w /\ shp w = map (fun l => Z.of_nat (length l)) ls /\
    forall i, valid (shp w) i -> at_ w i = fprod (map2 (fun l k => fofZ (nth (Z.to_nat k) l 0)) ls i).
Proof.
  destruct ls as [|l0 ls]; [congruence|]. intros _. cbn [map reduce_outer].
  assert (G : forall rest pre (acc : T), shp acc = map (fun l => Z.of_nat (length l)) pre ->
     (forall i, valid (shp acc) i -> at_ acc i = fprod (map2 (fun l k => fofZ (nth (Z.to_nat k) l 0)) pre i)) ->
     exists w, fold_left (fun acc u => a <- acc ;; outer a u) (map tofZs rest) (Ok acc) = Ok w /\
       shp w = map (fun l => Z.of_nat (length l)) (pre ++ rest) /\
       forall i, valid (shp w) i -> at_ w i = fprod (map2 (fun l k => fofZ (nth (Z.to_nat k) l 0)) (pre ++ rest) i)).
  { induction rest as [|l rest IH]; intros pre acc H1 H2; cbn [map fold_left].
    - rewrite app_nil_r. eauto.
    - cbn [bind]. destruct (outer_ok acc (tofZs l)) as [w [W1 [W2 W3]]].
      { intros n Hn. rewrite H1 in Hn. apply in_map_iff in Hn. destruct Hn as [q [<- _]]. lia. }
      rewrite W1. replace (pre ++ l :: rest) with ((pre ++ [l]) ++ rest) by (now rewrite <- app_assoc).
      assert (Sw : shp w = map (fun l => Z.of_nat (length l)) (pre ++ [l])) by (rewrite W2, H1, map_app; reflexivity).
      apply IH; auto.
      intros i V. rewrite W2 in V. unfold valid in V. apply Forall2_app_inv_l in V. destruct V as [a [b0 [Va [Vb ->]]]].
      inversion Vb as [|n0 b s0 b1 Hb Vn]; subst. inversion Vn; subst. fold (valid (shp acc) a) in Va.
      assert (La : length a = length pre). { apply valid_length in Va. rewrite H1, map_length in Va. auto. }
      rewrite W3 by auto. rewrite map2_app by auto. rewrite fprod_app, H2 by auto.
      f_equal. unfold fprod. simpl. ring. }
  destruct (G ls [l0] (tofZs l0)) as [w [W1 [W2 W3]]].
  - reflexivity.
  - intros i V. inv V. inv H3. unfold fprod. simpl. ring.
  - exists w. split; auto.
Qed.

(** C27: the number of original elements in an n-dimensional window. *)
Theorem n_original_nd_ok (ns : list Z) (pws : list (Z * Z)) (ks ss : list Z) : ns <> [] ->
  length pws = length ns -> length ks = length ns -> length ss = length ns ->
  (forall r, (r < length ns)%nat -> 0 <= nth r ns 0 /\ 0 <= fst (nth r pws (0, 0)) /\ 0 <= snd (nth r pws (0, 0)) /\
     1 <= nth r ks 0 /\ 1 <= nth r ss 0 /\ nth r ks 0 <= nth r ns 0 + fst (nth r pws (0, 0)) + snd (nth r pws (0, 0))) ->
  exists w, n_original_elements_nd ns pws ks ss = Ok w /\
    shp w = map (fun r => (nth r ns 0 + fst (nth r pws (0, 0)) + snd (nth r pws (0, 0)) - nth r ks 0) / nth r ss 0 + 1) (seq 0 (length ns)) /\
    forall j, valid (shp w) j ->
      at_ w j = fprod (map (fun r => fofZ (seen (nth r ns 0) (fst (nth r pws (0, 0))) (nth r ks 0) (nth r ss 0) (nth r j 0))) (seq 0 (length ns))).
Proof.
  intros Hne L1 L2 L3 H. unfold n_original_elements_nd. assert (Ew : (match pws with [] => Err ValueError | _ => Ok tt end) = Ok tt) by (destruct pws, ns; cbn in *; try congruence; discriminate). rewrite Ew. clear Ew. cbn [bind].
  assert (EM : exists ls, mapM (fun i => n <- pyidx ns i ;; pw <- pyidx pws i ;; k <- pyidx ks i ;; s <- pyidx ss i ;;
      n_original_elements_1d n pw k s) (zrange (Z.of_nat (length ns))) = Ok ls /\ length ls = length ns /\
      forall r, (r < length ns)%nat -> n_original_elements_1d (nth r ns 0) (nth r pws (0, 0)) (nth r ks 0) (nth r ss 0) = Ok (nth r ls [])).
  { set (g := fun i => match n_original_elements_1d (nth (Z.to_nat i) ns 0) (nth (Z.to_nat i) pws (0, 0)) (nth (Z.to_nat i) ks 0) (nth (Z.to_nat i) ss 0) with Ok l => l | Err _ => [] end).
    assert (Q : forall r, (r < length ns)%nat -> n_original_elements_1d (nth r ns 0) (nth r pws (0, 0)) (nth r ks 0) (nth r ss 0) = Ok (g (Z.of_nat r))).
    { intros r Hr. unfold g. rewrite Nat2Z.id. destruct (H r Hr) as [A1 [A2 [A3 [A4 [A5 A6]]]]].
      destruct (n_original_1d_spec _ _ _ _ _ A1 A2 A3 A4 A5 A6) as [l [E _]].
      rewrite <- surjective_pairing in E. now rewrite E. }
    exists (map g (zrange (Z.of_nat (length ns)))). split; [|split].
    - apply mapM_ok. intros i Hi. apply In_zrange in Hi.
      rewrite pyidx_nonneg with (d := 0) by lia. cbn [bind]. rewrite pyidx_nonneg with (d := (0, 0)) by lia. cbn [bind].
      rewrite pyidx_nonneg with (d := 0) by lia. cbn [bind]. rewrite pyidx_nonneg with (d := 0) by lia. cbn [bind].
      rewrite Q by lia. rewrite Z2Nat.id by lia. reflexivity.
    - rewrite map_length, zrange_length. lia.
    - intros r Hr. rewrite Q by auto. f_equal. rewrite (nth_indep (map g _) [] (g 0)) by (rewrite map_length, zrange_length; lia).
      rewrite map_nth, nth_zrange by lia. reflexivity. }
  destruct EM as [ls [E1 [E2 E3]]]. rewrite E1. cbn [bind].
  assert (Hl : ls <> []) by (intros ->; destruct ns; [congruence|discriminate]).
  destruct (reduce_outer_vectors ls Hl) as [w [W1 [W2 W3]]]. exists w. split; auto.
  assert (Q : forall r, (r < length ns)%nat -> Z.of_nat (length (nth r ls [])) = (nth r ns 0 + fst (nth r pws (0, 0)) + snd (nth r pws (0, 0)) - nth r ks 0) / nth r ss 0 + 1 /\
     forall j, 0 <= j < Z.of_nat (length (nth r ls [])) -> nth (Z.to_nat j) (nth r ls []) 0 = seen (nth r ns 0) (fst (nth r pws (0, 0))) (nth r ks 0) (nth r ss 0) j).
  { intros r Hr. destruct (H r Hr) as [A1 [A2 [A3 [A4 [A5 A6]]]]].
    destruct (n_original_1d_spec _ _ _ _ _ A1 A2 A3 A4 A5 A6) as [l [E [B1 B2]]].
    rewrite <- surjective_pairing in E. rewrite E3 in E by auto. inv E. auto. }
  split.
  - rewrite W2. apply list_ext with (d := 0).
    + now rewrite !map_length, seq_length.
    + rewrite map_length, E2. intros r Hr.
      rewrite (nth_indep (map _ ls) 0 ((fun l : list Z => Z.of_nat (length l)) [])) by (rewrite map_length; lia).
      rewrite (map_nth (fun l : list Z => Z.of_nat (length l))).
      rewrite (nth_indep (map _ (seq _ _)) 0 ((fun r => (nth r ns 0 + fst (nth r pws (0, 0)) + snd (nth r pws (0, 0)) - nth r ks 0) / nth r ss 0 + 1) 0%nat)) by (rewrite map_length, seq_length; lia).
      rewrite (map_nth (fun r => (nth r ns 0 + fst (nth r pws (0, 0)) + snd (nth r pws (0, 0)) - nth r ks 0) / nth r ss 0 + 1)).
      rewrite seq_nth by auto. apply Q. auto.
  - intros j V. rewrite W3 by auto. f_equal. pose proof (valid_length _ _ V) as Lj. rewrite W2, map_length in Lj.
    apply list_ext with (d := f0).
    + rewrite map2_length, map_length, seq_length. lia.
    + rewrite map2_length. intros r Hr. rewrite nth_map2 with (da := []) (db := 0) by lia.
      rewrite (nth_indep (map _ (seq _ _)) f0 ((fun r => fofZ (seen (nth r ns 0) (fst (nth r pws (0, 0))) (nth r ks 0) (nth r ss 0) (nth r j 0))) 0%nat)) by (rewrite map_length, seq_length; lia).
      rewrite (map_nth (fun r => fofZ (seen (nth r ns 0) (fst (nth r pws (0, 0))) (nth r ks 0) (nth r ss 0) (nth r j 0)))).
      rewrite seq_nth by lia. f_equal. apply Q; [lia|].
      pose proof (valid_nth _ _ r V) as Vr. rewrite W2 in Vr.
      rewrite (nth_indep (map _ ls) 0 ((fun l : list Z => Z.of_nat (length l)) [])) in Vr by (rewrite map_length; lia).
      rewrite (map_nth (fun l : list Z => Z.of_nat (length l))) in Vr. apply Vr. rewrite map_length. lia.
Qed.
End O.

(** C26 *)
Lemma conv_1d_counts n k s d : 1 <= s -> d * (k - 1) < n ->
  exists c, conv_1d n k s d = Ok c /\ forall j, 0 <= j -> (j * s + d * (k - 1) < n <-> j < c).
Proof.
  intros Hs H. unfold conv_1d. destruct (Z.eqb_spec s 0); [lia|]. eexists. split; [reflexivity|].
  intros j Hj. set (m := n - d * (k - 1) - 1). assert (0 <= m) by lia.
  pose proof (div_bounds m s Hs). split; intros Q; unfold m in *; nia.
Qed.
