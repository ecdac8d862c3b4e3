(** BayerConv2d on images with an odd side: rejected from 5 pixels on. *)
From Coq Require Import Ascii String.
From Verif Require Export CfaPropLemmas.
Import List. Import ListNotations.
Local Notation length := List.length.
Open Scope list_scope.
Open Scope Z_scope.

Lemma foldM_inv {A B} (P : A -> Prop) (f : A -> B -> res A) l :
  (forall a e b, P a -> f a e = Ok b -> P b) -> forall a z e,
  P a -> foldM f l a = Ok z -> In e l -> exists a' b', P a' /\ f a' e = Ok b'.
Proof.
  intros HP. induction l as [|b l IH]; simpl; intros a z e Pa E; [tauto|].
  destruct (f a b) eqn:Ef; simpl in E; [|discriminate]. intros [->|Hi]; eauto.
Qed.
Lemma tsetx_shp {A} (y v z : tensor A) l : tsetx y l v = Ok z -> shp z = shp y.
Proof.
  unfold tsetx. destruct (resolve_all (shp y) l); [|discriminate]. cbn [bind]. destruct (expandable _ _); [|discriminate].
  intros E. apply (f_equal (fun r => match r with Ok t => shp t | Err _ => [] end)) in E. exact (eq_sym E).
Qed.
Lemma expandable_last (a b : list Z) m n h w : expandable (a ++ [m; n]) (b ++ [h; w]) = true -> (m = h \/ m = 1) /\ (n = w \/ n = 1).
Proof.
  rewrite expandable_rev, !rev_app_distr. cbn [rev app]. cbn [erev]. intros H. 
  repeat match goal with H : _ && _ = true |- _ => apply andb_true_iff in H as [H ?] end.
  repeat match goal with H : _ || _ = true |- _ => apply orb_true_iff in H end. rewrite !Z.eqb_eq in *. tauto.
Qed.
Lemma resolve_step2_odd m r : 0 <= m -> r = 0 \/ r = 1 -> r_len (resolve (2 * m + 1) (step2 r)) = m + 1 - r.
Proof.
  intros Hm Hr. unfold resolve, step2, clampi; cbn [s_lo s_hi s_st r_len].
  replace (r <? 0) with false by (symmetry; apply Z.ltb_ge; lia).
  replace (Z.max 0 (Z.min (2 * m + 1) r)) with r by lia.
  rewrite Z.max_r; [|apply Z.div_pos; lia]. symmetry. destruct Hr as [->| ->].
  - apply Z.div_unique with (r := 0); lia. - apply Z.div_unique with (r := 1); lia.
Qed.

Section Odd.
Variable F : ofield.
Notation T := (tensor F).

Lemma resolve_all_app s s' l l' : length l = length s ->
  resolve_all (s ++ s') (l ++ l') = (R <- resolve_all s l ;; R' <- resolve_all s' l' ;; Ok (R ++ R')).
Proof.
  revert l. induction s as [|n s IH]; destruct l as [|i l]; simpl; try discriminate; intros H.
  - now destruct (resolve_all s' l').
  - destruct (resolve_ix n i); simpl; auto. rewrite IH by lia. destruct (resolve_all s l); simpl; auto. now destruct (resolve_all s' l').
Qed.
Lemma rlens_app R R' : rlens (R ++ R') = rlens R ++ rlens R'.
Proof. induction R as [|[] R IH]; simpl; congruence. Qed.

(** lengths of a branch in general *)
Lemma bayer_branch_lens (M : bayer_conv F) q r c x v pre C h w :
  shp x = pre ++ [C; h; w] -> bayer_branch M q r c x = Ok v ->
  let k := bc_k M in
  shp v = pre ++ [bc_out M; (h + 2 * (k / 2) - 1 - k) / 2 + 1; (w + 2 * (k / 2) - 1 - k) / 2 + 1].
Proof.
  intros Hs. unfold bayer_branch. destruct (bayer_pad (bc_k M) r c x) as [xp|] eqn:E; [|discriminate]. cbn [bind].
  assert (Sp : shp xp = pre ++ [C; h + 2 * (bc_k M / 2) - 1; w + 2 * (bc_k M / 2) - 1]).
  { clear - E Hs. unfold bayer_pad, reflection_pad2d in E. destruct (_ && _) in E; [|discriminate].
    apply (f_equal (fun r => match r with Ok t => shp t | Err _ => [] end)) in E. cbv beta iota in E. rewrite <- E. clear E.
    cbn [shp]. assert (N := ndim3 x _ _ _ _ Hs). rewrite Hs. rewrite l3_upd1, l3_upd2, l3_nth1, l3_nth2 by auto.
    do 2 f_equal. f_equal; [lia|]. f_equal. lia. }
  unfold conv2d. assert (N := ndim3 xp _ _ _ _ Sp). destruct (_ && _); [|discriminate]. intros H.
  apply (f_equal (fun r => match r with Ok t => shp t | Err _ => [] end)) in H. cbv beta iota in H. rewrite <- H. clear H.
  cbn [shp]. rewrite Sp. rewrite l3_upd1, l3_upd2, l3_upd3, l3_nth1, l3_nth2 by auto. reflexivity.
Qed.

Lemma odd_rejected pre C h w (M : bayer_conv F) x s sa junk :
  nonneg pre -> shp x = pre ++ [C; h; w] -> 0 <= bc_out M -> In sa patterns -> case_variant s sa ->
  (bc_k M) mod 2 = 1 -> 0 <= h -> 0 <= w -> (h mod 2 = 1 /\ 5 <= h) \/ (w mod 2 = 1 /\ 5 <= w) ->
  forall y, bayer_forward junk M x s <> Ok y.
Proof.
  intros Hp Hs Ho Hsa Hv Hk Hh Hw Hodd y. unfold bayer_forward.
  rewrite (check_sensor_alignment_ok s sa Hsa Hv). cbn [bind].
  destruct (beg_index_spec sa Hsa) as (f & -> & Hf1 & _ & _ & _ & _ & Hf6). cbn [bind]. intros E.
  destruct (Hf6 0 0 (or_introl eq_refl) (or_introl eq_refl)) as [q Hq].
  set (g := fun (y : T) (p : pos) => let '(r, c) := f p in
      v <- bayer_branch M p r c x ;; tsetx y (ell (ndim y) [ISl (step2 r); ISl (step2 c)]) v) in E.
  assert (G : forall a e b, shp a = pre ++ [bc_out M; h; w] -> g a e = Ok b -> shp b = pre ++ [bc_out M; h; w]).
  { intros a e b Pa. unfold g. destruct (f e) as [r c]. destruct (bayer_branch M e r c x); cbn [bind]; [|discriminate].
    intros Ee. apply tsetx_shp in Ee. congruence. }
  assert (S0 : shp (tempty (butlast 3 (shp x) ++ [bc_out M] ++ lastn 2 (shp x)) junk) = pre ++ [bc_out M; h; w])
    by (cbn [tempty shp]; now rewrite Hs, butlast3, lastn2).
  assert (Iq : In q relative_positions) by (destruct q; simpl; auto).
  destruct (foldM_inv _ g _ G _ _ q S0 E Iq) as (a & b & Pa & Hb). unfold g in Hb.
  rewrite Hq in Hb. destruct (bayer_branch M q 0 0 x) as [v|] eqn:Eb; [|discriminate]. cbn [bind] in Hb.
  apply (bayer_branch_lens M q 0 0 x v pre C h w Hs) in Eb. cbv zeta in Eb.
  unfold tsetx in Hb. replace (ell (ndim a) [ISl (step2 0); ISl (step2 0)])
    with (repeat (ISl sfull) (length (pre ++ [bc_out M])) ++ [ISl (step2 0); ISl (step2 0)]) in Hb.
  2:{ unfold ell, ndim. rewrite Pa, !app_length. cbn [length]. do 2 f_equal. lia. }
  replace (shp a) with ((pre ++ [bc_out M]) ++ [h; w]) in Hb by now rewrite <- app_assoc.
  rewrite resolve_all_full in Hb by (apply Forall_app; split; auto).
  cbn [resolve_all resolve_ix bind] in Hb. rewrite rlens_full in Hb. cbn [rlens] in Hb.
  rewrite Eb in Hb. change (pre ++ [bc_out M; ?a; ?b]) with (pre ++ [bc_out M] ++ [a; b]) in Hb.
  match type of Hb with (if expandable ?u ?v then _ else _) = _ => destruct (expandable u v) eqn:X end; [|discriminate].
  rewrite app_assoc in X. apply expandable_last in X as [X1 X2].
  assert (K : forall n, n + 2 * (bc_k M / 2) - 1 - bc_k M = n - 2) by (intros; pose proof (Z.div_mod (bc_k M) 2); lia).
  rewrite !K in *. clear - X1 X2 Hodd.
  destruct Hodd as [[H1 H2]|[H1 H2]].
  - pose proof (Z.div_mod h 2). set (m := h / 2) in *. replace h with (2 * m + 1) in X1 by lia. rewrite resolve_step2_odd in X1 by lia.
    replace ((2 * m + 1 - 2) / 2) with (m - 1) in X1 by (apply Z.div_unique with (r := 1); lia). lia.
  - pose proof (Z.div_mod w 2). set (m := w / 2) in *. replace w with (2 * m + 1) in X2 by lia. rewrite resolve_step2_odd in X2 by lia.
    replace ((2 * m + 1 - 2) / 2) with (m - 1) in X2 by (apply Z.div_unique with (r := 1); lia). lia.
Qed.
End Odd.
