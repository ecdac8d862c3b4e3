(** Padding commutes with functions applied pixel by pixel. *)
From Coq Require Import Sorting.Sorted Sorting.Permutation.
From Verif Require Export PadRelation PadMono.
Open Scope Z_scope.

(** y is x with g applied to every pixel. *)
Definition mapped {F : ofield} (g : F -> F) (x y : tensor F) : Prop := shp y = shp x /\ forall i, valid (shp x) i -> at_ y i = g (at_ x i).
Definition increasing {F : ofield} (g : F -> F) : Prop := forall u v, fle u v -> fle (g u) (g v).
Definition odd_function {F : ofield} (g : F -> F) : Prop := forall v, g (fopp v) = fopp (g v).
(** Modes that copy pixels, and what the others ask of g. *)
Definition pointwise_mode {F : ofield} (g : F -> F) (m : mode F) (cv ev : F * F) : Prop :=
  match m with
  | MReplicate | MCircular | MPeriodize | MSymmetric | MReflect => True
  | MAntisymmetric => odd_function g
  | MConstant => g (fst cv) = fst cv /\ g (snd cv) = snd cv
  | MStat SMax | MStat SMin | MStat SMedian => increasing g
  | _ => False
  end.

Ltac pick H Hn := destruct Hn as [Hn|Hn]; [|discriminate]; apply H.

Section PM.
Variable F : ofield.
Add Field Fpm : (f_field F).
Notation T := (tensor F).
Variable g : F -> F.
Notation le := (fun a b : F => fleb a b = true).

Lemma insert_map (a : F) l : increasing g -> Sorted le l -> linsert (g a) (map g l) = map g (linsert a l).
Proof.
  intros Hg. induction l as [|b l IH]; intros S; [reflexivity|]. cbn [map linsert]. inversion S as [|? ? S1 S2]; subst.
  destruct (fleb a b) eqn:E; [now rewrite (Hg a b E)|].
  assert (L : fle b a) by (destruct (fle_total F a b); [unfold fle in *; congruence|auto]). cbn [map]. rewrite <- IH by auto.
  destruct (fleb (g a) (g b)) eqn:E2; [|reflexivity]. assert (G : g a = g b) by (apply fle_antisym; [exact E2|now apply Hg]). rewrite G. f_equal.
  destruct l as [|c l]; [reflexivity|]. cbn [map linsert]. inversion S2; subst. now rewrite (Hg b c).
Qed.
Lemma sort_map l : increasing g -> lsort (map g l) = map g (lsort l).
Proof. intros Hg. induction l as [|a l IH]; [reflexivity|]. cbn [map]. unfold lsort in *. cbn [fold_right]. rewrite IH. apply insert_map; auto. apply (lsort_sorted F). Qed.
Lemma stat_map s l : increasing g -> s <> SMean -> l <> [] -> stat_fun s (map g l) = g (stat_fun s l).
Proof.
  intros Hg Hs Hl. assert (Hm : map g l <> []) by (destruct l; cbn; congruence). destruct s; [congruence| | |].
  - cbn [stat_fun]. unfold lmedian. rewrite map_length, sort_map by auto. rewrite (nth_indep _ f0 (g f0)); [apply map_nth|].
    rewrite map_length, <- (Permutation_length (lsort_perm F l)). destruct l as [|e l]; [congruence|]. pose proof (Nat.div_le_upper_bound (length (e :: l) - 1) 2 (length (e :: l) - 1)). cbn [length] in *. lia.
  - destruct (stat_fun_rel F SMax l Hl) as [I M]. destruct (stat_fun_rel F SMax _ Hm) as [I' M']. apply fle_antisym.
    + apply in_map_iff in I' as [u [U1 U2]]. rewrite <- U1. apply Hg. now apply M.
    + apply M'. now apply in_map.
  - destruct (stat_fun_rel F SMin l Hl) as [I M]. destruct (stat_fun_rel F SMin _ Hm) as [I' M']. apply fle_antisym.
    + apply M'. now apply in_map.
    + apply in_map_iff in I' as [u [U1 U2]]. rewrite <- U1. apply Hg. now apply M.
Qed.
Lemma preserves_map : preserves F (par_of (pointwise_mode g)) (fun a b c => b = g a).
Proof.
  unfold preserves, par_of, pointwise_mode. intros q e n f h k t He Hl Hn Hb Ha Ht H. destruct (ap_mode q) eqn:Em; simpl in He; try contradiction; injection He as <-.
  - pick H Hn. lia.
  - pick H Hn. apply Z.mod_pos_bound. lia.
  - unfold ext_periodize, ext_circular. destruct Hn as [Hn|]; [|discriminate].
    assert (0 <= t mod (n + n mod 2)) by (apply Z.mod_pos_bound; pose proof (Z.mod_pos_bound n 2); lia). zcase; apply H; lia.
  - unfold ext_symmetric. cbv zeta. destruct Hn as [Hn|]; [|discriminate]. pose proof (Z.mod_pos_bound t (2 * n)). zcase; apply H; lia.
  - unfold ext_reflect. cbv zeta. destruct Hn as [Hn|]; [|discriminate]. destruct (Z.eqb_spec n 1); [apply H; lia|].
    pose proof (Z.mod_pos_bound t (2 * n - 2)). zcase; apply H; lia.
  - unfold ext_antisymmetric. cbv zeta. destruct Hn as [Hn|]; [|discriminate]. pose proof (Z.mod_pos_bound t (2 * n)). zcase; [apply H; lia|]. rewrite Hl. f_equal. apply H; lia.
  - destruct Hn as [Hn|]; [|discriminate].
    assert (L : forall w, 1 <= clip_window n w <= n) by (intros [w|]; unfold clip_window; lia).
    match goal with Em : _ = MStat ?s0 |- _ => rename s0 into s end.
    assert (Hs : increasing g /\ s <> SMean) by (destruct s; try contradiction; (split; [exact Hl|discriminate])). destruct Hs as [Hg Hs].
    unfold ext_stat. cbv zeta. repeat zcase.
    + rewrite <- stat_map by (auto; apply map_zrange_ne, L). f_equal. rewrite map_map. apply map_ext_in. intros j Hj. apply In_zrange in Hj. apply H. specialize (L (fst (ap_stat q))). lia.
    + apply H. lia.
    + rewrite <- stat_map by (auto; apply map_zrange_ne, L). f_equal. rewrite map_map. apply map_ext_in. intros j Hj. apply In_zrange in Hj. apply H. specialize (L (snd (ap_stat q))). lia.
  - unfold ext_constant. destruct Hl as [L1 L2]. repeat zcase; [now rewrite L1|apply H; lia|now rewrite L2].
Qed.
Theorem pad_map fuel junk junk' p (x y : T) ax al : pad_call fuel p x ax al -> all_fine F p x al -> all_par F (par_of (pointwise_mode g)) p al -> mapped g x y ->
  exists x' y', padder_forward fuel junk p x ax = Ok x' /\ padder_forward fuel junk' p y ax = Ok y' /\ mapped g x' y'.
Proof.
  intros PC AF AL [C1 C2].
  assert (NE : no_empty_mode F p al).
  { eapply no_empty_all; eauto. unfold par_of, pointwise_mode. intros q. destruct (ap_mode q); simpl; tauto. }
  destruct (pad_spec_some F p x al (pc_nodup _ _ _ _ _ PC) AF) as [s Hs].
  destruct (spec_axes_rel F _ _ p preserves_map (last_axes p al) x y y s) as [sy [sz [Hy [_ [D1 [_ D2]]]]]]; auto.
  { apply last_axes_nodup, (pc_nodup _ _ _ _ _ PC). }
  { intros c Hc. split; [apply (pc_lt _ _ _ _ _ PC); eapply last_axes_in; eauto|]. intros q Hq.
    split; [eapply AL; eauto; eapply last_axes_in; eauto|]. destruct (AF c Hc) as [q' [Hq' [_ [Q2 _]]]]. congruence. }
  { split; auto. }
  assert (PCy : pad_call fuel p y ax al) by (destruct PC; constructor; unfold ndim in *; try rewrite C1; auto).
  destruct (forward_call F fuel junk p x s ax al PC Hs) as [x' [X1 [_ [_ X2]]]].
  destruct (forward_call F fuel junk' p y sy ax al PCy Hy) as [y' [Y1 [_ [_ Y2]]]].
  exists x', y'. split; auto. split; auto. specialize (X2 NE). specialize (Y2 NE). destruct X2 as [A1 A2], Y2 as [B1 B2].
  split; [congruence|]. intros i V. rewrite A2, B2; [apply D2|..]; congruence.
Qed.
End PM.
