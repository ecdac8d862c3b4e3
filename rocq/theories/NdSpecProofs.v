(** expand_ragged_ndarray and the NdSpec container. *)
From Verif Require Export ExpandProofs.
Open Scope Z_scope.

Lemma all2_eqb_eq : forall a b : list Z, all2 Z.eqb a b = true <-> a = b.
Proof.
  induction a as [|x a IH]; destruct b as [|y b]; simpl; split; intros H; try discriminate; auto.
  - apply andb_true_iff in H as [H1 H2]. apply Z.eqb_eq in H1. apply IH in H2. congruence.
  - injection H as -> ->. rewrite Z.eqb_refl. now apply IH.
Qed.

Lemma nth_combine_rev (a b : list Z) p : In p (combine (rev a) (rev b)) ->
  exists i, (i < length a)%nat /\ (i < length b)%nat /\ p = (nth (length a - 1 - i) a 0, nth (length b - 1 - i) b 0).
Proof.
  intros H. apply (In_nth _ _ (0,0)) in H as (i & Hi & E). rewrite combine_length, !rev_length in Hi.
  exists i. split; [lia|]. split; [lia|]. rewrite <- E.
  destruct (nth i (combine (rev a) (rev b)) (0, 0)) as [x y] eqn:Q.
  assert (X : forall (u v : list Z), (i < length u)%nat -> (i < length v)%nat -> nth i (combine u v) (0,0) = (nth i u 0, nth i v 0)).
  { clear. induction i; intros [|x u] [|y v]; simpl; intros; try lia; auto. apply IHi; lia. }
  rewrite X in Q by (rewrite rev_length; lia). rewrite !rev_nth in Q by lia. rewrite <- Q.
  f_equal; f_equal; lia.
Qed.

Lemma zero_length_false old new :
  (forall i, (i < length old)%nat -> (i < length new)%nat -> nth (length old - 1 - i) old 0 <> 0 \/ nth (length new - 1 - i) new 0 <= 0) ->
  zero_length old new = false.
Proof.
  intros H. unfold zero_length. destruct (existsb _ _) eqn:E; auto. apply existsb_exists in E as (p & Hp & E).
  apply andb_true_iff in E as [E1 E2]. apply Z.eqb_eq in E1. apply Z.ltb_lt in E2.
  apply nth_combine_rev in Hp as (i & H1 & H2 & ->). simpl in *. destruct (H i H1 H2); lia.
Qed.

Lemma mapM_pyidx {B} (l : list B) : mapM (pyidx l) (zrange (len l)) = Ok l.
Proof.
  destruct l as [|b l]; [reflexivity|]. set (L := b :: l).
  rewrite (mapM_ok _ (fun i => nth (Z.to_nat i) L b)).
  - f_equal. apply nth_ext with (d := b) (d' := b); [rewrite map_length, zrange_length; unfold len; lia|].
    intros n Hn. rewrite map_length, zrange_length in Hn. rewrite (nth_indep _ b (nth (Z.to_nat 0) L b)) by (now rewrite map_length, zrange_length).
    rewrite (map_nth (fun i => nth (Z.to_nat i) L b)), nth_zrange by auto. now rewrite Nat2Z.id.
  - intros i Hi. apply In_zrange in Hi. apply pyidx_nonneg. exact Hi.
Qed.

Section N.
Context {A : Type}.
Notation tr := (tree A).

Lemma lift_S j (t : tr) : lift (S j) t = Node [lift j t].
Proof. revert t. induction j; intros t; [reflexivity|]. cbn [lift] in *. now rewrite IHj. Qed.

(** The target seen from the root: right-justified, axes that are not mentioned are kept. *)
Definition full_target (old new : list Z) : list Z := repeat (-1) (length old - length new) ++ new.
(** Data with leading axes of length one. *)
Definition padded (t : tr) (old new : list Z) : tr := lift (length new - length old) t.

Lemma deep_shape D (t : tr) : (D <= length (ragged_shape t))%nat -> deep D t ->
  forall k, (k < D)%nat -> nth k (ragged_shape t) 0 <> 0.
Proof.
  intros HD Hd k Hk E. destruct (ragged_has_shape t k) as [N [L _]]; [lia|].
  destruct (nodes_at k t) as [|u us] eqn:Q; [congruence|].
  destruct (L u) as (l & -> & Hl); [now left|]. rewrite E in Hl.
  destruct (Hd k (Node l) Hk) as (l' & Q' & Nl); [rewrite Q; now left|]. injection Q' as <-.
  apply Nl. specialize (Hl ltac:(lia)). unfold len in Hl. destruct l; auto. simpl in Hl. lia.
Qed.

Lemma common_single s : common [s] (length s) = s.
Proof.
  apply nth_ext with (d := 0) (d' := 0); [apply common_length|]. intros k Hk. rewrite common_length in Hk.
  rewrite common_nth by auto. apply agree_all; [discriminate|]. intros s' [<-|[]]; auto.
Qed.

Lemma wrap_expanded n ts (t r : tr) s : target_ok n -> expanded ts t r s ->
  expanded (n :: ts) (Node [t]) (fst (wrap n (r, s))) (snd (wrap n (r, s))).
Proof.
  intros Hn X. unfold wrap. cbn [fst snd]. destruct (n =? -1) eqn:E; cbn [fst snd].
  - apply Z.eqb_eq in E. replace (1 :: s) with (len [r] :: common [s] (length ts)).
    + apply expanded_keep; [discriminate|now left| |].
      * constructor; [|constructor]. exists s. split; [now left|auto].
      * constructor; [|constructor]. split; apply X.
    + replace (length ts) with (length s) by apply X. now rewrite common_single.
  - apply Z.eqb_neq in E. replace (n :: s) with (n :: common [s] (length s)) by now rewrite common_single.
    apply expanded_repeat; auto. destruct Hn; congruence.
Qed.

Lemma wraps_expanded : forall lead ts (t r : tr) s, Forall target_ok lead -> expanded ts t r s ->
  expanded (lead ++ ts) (lift (length lead) t) (fst (fold_right wrap (r, s) lead)) (snd (fold_right wrap (r, s) lead)).
Proof.
  induction lead as [|n lead IH]; intros ts t r s Hl X; [exact X|]. inversion Hl; subst.
  cbn [length app fold_right]. rewrite lift_S.
  specialize (IH ts t r s H2 X). destruct (fold_right wrap (r, s) lead) as [r' s']. apply wrap_expanded; auto.
Qed.

Lemma fits_lift : forall j ts (t : tr), (j <= length ts)%nat -> fits ts (lift j t) <-> fits (skipn j ts) t.
Proof.
  induction j as [|j IH]; intros ts t Hj; [reflexivity|]. destruct ts as [|n ts]; [simpl in Hj; lia|].
  rewrite lift_S, fits_cons. cbn [skipn]. rewrite <- IH by (simpl in Hj; lia).
  split; [intros [_ H]; now inversion H|]. intros H. split; [right; right; reflexivity|auto].
Qed.

(** The whole of expand_ragged_ndarray on data without empty lists. *)
Theorem expand_ragged_spec (data : tr) new :
  let old := ragged_shape data in
  Forall target_ok new -> deep (length old) data ->
  match expand_ragged data old new with
  | Ok (r, s) => fits (full_target old new) (padded data old new) /\ expanded (full_target old new) (padded data old new) r s
  | Err e => e = ValueError /\ ~ fits (full_target old new) (padded data old new)
  end.
Proof.
  intros old Hn Hd. unfold expand_ragged.
  assert (Full : forall ts, Forall target_ok ts -> length ts = length old ->
    match recursive_expand ts data with Ok (r, s, m) => fits ts data /\ expanded ts data r s | Err e => e = ValueError /\ ~ fits ts data end).
  { intros ts Ht Lt. pose proof (expand_spec ts data Ht) as X. rewrite Lt in X. specialize (X Hd).
    destruct (recursive_expand ts data) as [[[r s] m]|]; tauto. }
  destruct (all2 Z.eqb old new) eqn:E.
  { apply all2_eqb_eq in E. specialize (Full new Hn ltac:(congruence)).
    rewrite <- E in Full |- *. unfold old in Full at 1. rewrite recursive_expand_id in Full by auto.
    unfold full_target, padded. rewrite Nat.sub_diag. exact Full. }
  rewrite zero_length_false; [|intros i Hi _; left; apply (deep_shape (length old)); auto; fold old; lia].
  destruct (Nat.ltb (length old) (length new)) eqn:L.
  - apply Nat.ltb_lt in L. set (j := (length new - length old)%nat).
    unfold full_target, padded. replace (length old - length new)%nat with 0%nat by lia. cbn [repeat app]. fold j.
    specialize (Full (skipn j new)). rewrite skipn_length in Full.
    specialize (Full ltac:(apply Forall_forall; intros x Hx; rewrite Forall_forall in Hn; apply Hn; rewrite <- (firstn_skipn j new); apply in_or_app; now right) ltac:(unfold j; lia)).
    destruct (recursive_expand (skipn j new) data) as [[[r s] m]|e]; cbn [bind fst snd].
    + assert (Lf : length (firstn j new) = j) by (rewrite firstn_length; unfold j; lia).
      pose proof (wraps_expanded (firstn j new) (skipn j new) data r s
        ltac:(apply Forall_forall; intros x Hx; rewrite Forall_forall in Hn; apply Hn; rewrite <- (firstn_skipn j new); apply in_or_app; now left) (proj2 Full)) as W.
      rewrite Lf, firstn_skipn in W. destruct (fold_right wrap (r, s) (firstn j new)) as [r' s'].
      split; auto. apply fits_lift; [unfold j; lia|]. apply Full.
    + destruct Full as [-> Nf]. split; auto. rewrite fits_lift by (unfold j; lia). exact Nf.
  - apply Nat.ltb_ge in L. unfold padded. replace (length new - length old)%nat with 0%nat by lia. cbn [lift].
    specialize (Full (full_target old new)). unfold full_target in *. rewrite app_length, repeat_length in Full.
    specialize (Full ltac:(apply Forall_app; split; [apply Forall_forall; intros x Hx; apply repeat_spec in Hx; now left|auto]) ltac:(lia)).
    destruct (recursive_expand _ data) as [[[r s] m]|e]; cbn [bind fst snd]; exact Full.
Qed.

(** * NdSpec *)

(** Data that already have the item shape. *)
Definition complete (is : list Z) (t : tr) : Prop :=
  length (ragged_shape t) = length is /\
  forall k, (k < length is)%nat -> nth k is 0 = -1 \/ nth k is 0 = nth k (ragged_shape t) 0.

Lemma zero_len_match old new j : length old = (j + length new)%nat ->
  (forall k, (k < length new)%nat -> nth k new 0 = -1 \/ nth k new 0 = nth (j + k) old 0) -> zero_length old new = false.
Proof.
  intros L H. apply zero_length_false. intros i H1 H2. destruct (H (length new - 1 - i)%nat ltac:(lia)) as [E|E]; [right; lia|].
  replace (length old - 1 - i)%nat with (j + (length new - 1 - i))%nat by lia. rewrite <- E.
  destruct (Z.eq_dec (nth (length new - 1 - i) new 0) 0); [right|left]; lia.
Qed.

Lemma expand_complete is (t : tr) : complete is t -> expand_ragged t (ragged_shape t) is = Ok (t, ragged_shape t).
Proof.
  intros [L H]. unfold expand_ragged. destruct (all2 Z.eqb _ is); auto.
  rewrite (zero_len_match _ _ 0) by auto.
  replace (Nat.ltb _ _) with false by (symmetry; apply Nat.ltb_ge; lia).
  replace (length (ragged_shape t) - length is)%nat with 0%nat by lia. cbn [repeat app].
  now rewrite recursive_expand_id by auto.
Qed.

Theorem single_item is (t : tr) : complete is t ->
  exists sp, ndspec_item t is = Ok sp /\ nd_len sp = Ok 0 /\ nd_iter sp = Ok [t] /\ nd_index_shape sp = [] /\
    nd_item_shape sp = ragged_shape t /\ forall k, nd_get sp k = Ok t.
Proof.
  intros H. exists (mkNd t (ragged_shape t) 0). unfold ndspec_item. rewrite expand_complete by auto. cbn [bind].
  destruct H as [L _]. rewrite L, Nat.sub_diag. repeat split.
Qed.

(** Lists of complete items. *)
Lemma list_shape is (l : list tr) : l <> [] -> is <> [] -> Forall (complete is) l ->
  length (ragged_shape (Node l)) = S (length is) /\ nth 0 (ragged_shape (Node l)) 0 = len l /\
  forall k, (k < length is)%nat -> nth k is 0 = -1 \/ nth k is 0 = nth (S k) (ragged_shape (Node l)) 0.
Proof.
  intros Hl Hs F. destruct l as [|c l]; [congruence|]. rewrite ragged_node. cbv zeta. set (ss := map ragged_shape (c :: l)).
  rewrite Forall_forall in F.
  assert (Hss : forall s, In s ss -> length s = length is).
  { intros s H. apply in_map_iff in H as (u & <- & Hu). apply F, Hu. }
  rewrite (same_ndim_intro ss _ Hss). replace (head_ndim ss) with (length is) by (symmetry; apply (Hss (ragged_shape c)); now left).
  cbn [length]. rewrite common_length. split; auto. split; [reflexivity|]. intros k Hk. cbn [nth].
  rewrite common_nth by auto. destruct (Z.eq_dec (nth k is 0) (-1)) as [E|E]; [now left|right].
  symmetry. apply agree_all; [discriminate|]. intros s H. apply in_map_iff in H as (u & <- & Hu).
  destruct (proj2 (F u Hu) k Hk); congruence.
Qed.

Lemma nd_get_int (l : list tr) s p i : p <> 0%nat -> nd_get (mkNd (Node l) s p) (KInt i) = pyidx l i.
Proof. intros Hp. destruct p; [congruence|]. reflexivity. Qed.


(** The accessors of a one-level list of items. *)
Definition one_level (sp : ndspec A) (l : list tr) : Prop :=
  nd_data sp = Node l /\ nd_pos sp = 1%nat /\ exists r, nd_shape sp = len l :: r.
Lemma one_level_access sp l : one_level sp l ->
  nd_len sp = Ok (len l) /\ nd_iter sp = Ok l /\ nd_index_shape sp = [len l] /\
  (forall i, nd_get sp (KInt i) = pyidx l i) /\ (forall i, nd_get sp (KTuple [i]) = pyidx l i) /\
  (forall i j r, nd_get sp (KTuple (i :: j :: r)) = Err IndexError).
Proof.
  destruct sp as [d s p]. intros (E1 & E2 & r & E3). cbn [nd_data nd_pos nd_shape] in *. subst d s p.
  split; [reflexivity|]. split.
  - unfold nd_iter. cbn [nd_is_item nd_pos Nat.eqb]. unfold nd_len. cbn [nd_is_item nd_pos nd_shape Nat.eqb].
    change (pyidx (len l :: r) 0) with (Ok (len l)). cbn [bind]. apply mapM_pyidx.
  - split; [reflexivity|]. split; [intros; reflexivity|]. split; [intros; reflexivity|]. intros; reflexivity.
Qed.

Lemma item_list_level is (l : list tr) : l <> [] -> is <> [] -> Forall (complete is) l ->
  exists sp, ndspec_item (Node l) is = Ok sp /\ one_level sp l.
Proof.
  intros Hl Hs F. destruct (list_shape is l Hl Hs F) as (L1 & L2 & L3). set (old := ragged_shape (Node l)) in *.
  exists (mkNd (Node l) old 1). unfold ndspec_item, expand_ragged. fold old.
  destruct (all2 Z.eqb old is) eqn:E; [apply all2_eqb_eq in E; rewrite E in L1; lia|].
  rewrite (zero_len_match _ _ 1) by (auto; lia).
  replace (Nat.ltb _ _) with false by (symmetry; apply Nat.ltb_ge; lia).
  replace (length old - length is)%nat with 1%nat by lia. cbn [repeat app].
  rewrite recursive_expand_id.
  2:{ cbn [length]. unfold old in L1. lia. }
  2:{ intros [|k] Hk; cbn [nth length] in *; [now left|]. apply L3. lia. }
  cbn [bind fst]. replace (length (ragged_shape (Node l)) - length is)%nat with 1%nat by (unfold old in L1; lia).
  split; [reflexivity|]. split; [reflexivity|]. split; [reflexivity|]. cbn [nd_shape].
  destruct old as [|n r]; [discriminate|]. cbn [nth] in L2. subst n. eauto.
Qed.
Theorem item_list is (l : list tr) : l <> [] -> is <> [] -> Forall (complete is) l ->
  exists sp, ndspec_item (Node l) is = Ok sp /\ nd_len sp = Ok (len l) /\ nd_iter sp = Ok l /\
    nd_index_shape sp = [len l] /\
    (forall i, nd_get sp (KInt i) = pyidx l i) /\ (forall i, nd_get sp (KTuple [i]) = pyidx l i) /\
    (forall i j r, nd_get sp (KTuple (i :: j :: r)) = Err IndexError).
Proof.
  intros Hl Hs F. destruct (item_list_level is l Hl Hs F) as (sp & E & O). exists sp. split; auto. now apply one_level_access.
Qed.

(** With item_shape = () every list is a list of items, whatever its items are. *)
Lemma scalar_list (l : list tr) :
  exists sp, ndspec_item (Node l) [] = Ok sp /\ nd_data sp = Node l /\ nd_len sp = Ok (len l) /\ nd_iter sp = Ok l /\
    (forall i, nd_get sp (KInt i) = pyidx l i) /\ (forall i, nd_get sp (KTuple [i]) = pyidx l i).
Proof.
  set (old := ragged_shape (Node l)).
  assert (Ho : exists r, old = len l :: r) by (unfold old; destruct l; [now exists []|]; rewrite ragged_node; cbv zeta; eauto).
  destruct Ho as [r Ho].
  exists (mkNd (Node l) old (length old)). unfold ndspec_item, expand_ragged. fold old.
  replace (all2 Z.eqb old []) with false by now rewrite Ho.
  rewrite zero_length_false by (intros i _ Hi; simpl in Hi; lia). cbn [length]. rewrite !Nat.sub_0_r, app_nil_r.
  replace (Nat.ltb _ 0) with false by (symmetry; apply Nat.ltb_ge; lia).
  unfold old at 1 2. rewrite recursive_expand_id.
  2: now rewrite repeat_length. 2:{ intros k Hk. left. rewrite repeat_length in Hk. rewrite nth_indep with (d' := -1) by now rewrite repeat_length. apply nth_repeat. }
  cbn [bind fst]. fold old. rewrite Nat.sub_0_r. split; [reflexivity|]. split; [reflexivity|].
  rewrite Ho. cbn [length]. split; [reflexivity|]. split.
  - unfold nd_iter. cbn [nd_is_item nd_pos Nat.eqb]. unfold nd_len. cbn [nd_is_item nd_pos nd_shape Nat.eqb].
    change (pyidx (len l :: r) 0) with (Ok (len l)). cbn [bind]. apply mapM_pyidx.
  - split; [intros; reflexivity|]. intros i. unfold nd_get. cbn [nd_is_item nd_pos nd_index_shape nd_shape firstn length Nat.eqb].
    reflexivity.
Qed.

(** Incomplete items: each is expanded as it would be on its own. *)
Lemma mapM_split {B C} (f : B -> res C) l r : Forall2 (fun a b => f a = Ok b) l r -> mapM f l = Ok r.
Proof. induction 1 as [|a b l r H F IH]; simpl; auto. rewrite H. simpl. now rewrite IH. Qed.

Lemma item_expand is (c : tr) sp : is <> [] -> Forall target_ok is -> length (ragged_shape c) = length is -> deep (length is) c ->
  ndspec_item c is = Ok sp ->
  exists m, recursive_expand is c = Ok (nd_data sp, nd_shape sp, m) /\ nd_pos sp = 0%nat.
Proof.
  intros Hs Ht L D. unfold ndspec_item, expand_ragged. destruct (all2 Z.eqb (ragged_shape c) is) eqn:E.
  - apply all2_eqb_eq in E. cbn [bind]. intros Q. injection Q as <-. cbn [nd_data nd_shape nd_pos]. exists false.
    split; [|lia]. rewrite <- E. apply recursive_expand_id; auto.
  - rewrite zero_length_false.
    2:{ intros i Hi _. left. apply (deep_shape (length is)); auto; lia. }
    replace (Nat.ltb _ _) with false by (symmetry; apply Nat.ltb_ge; lia).
    replace (length (ragged_shape c) - length is)%nat with 0%nat by lia. cbn [repeat app].
    pose proof (expand_spec is c Ht D) as X.
    destruct (recursive_expand is c) as [[[r s] m]|e]; [|discriminate]. cbn [bind fst]. intros Q. injection Q as <-.
    cbn [nd_data nd_shape nd_pos]. exists m. split; auto. destruct X as (_ & X & _). destruct X as (X & _). lia.
Qed.

Lemma shape_list (l : list tr) d : l <> [] -> Forall (fun c => length (ragged_shape c) = d) l ->
  exists r, ragged_shape (Node l) = len l :: r /\ length r = d.
Proof.
  intros Hl F. destruct l as [|c l]; [congruence|]. rewrite ragged_node. cbv zeta. set (ss := map ragged_shape (c :: l)).
  rewrite Forall_forall in F.
  assert (Hss : forall s, In s ss -> length s = d).
  { intros s H. apply in_map_iff in H as (u & <- & Hu). apply F, Hu. }
  rewrite (same_ndim_intro ss _ Hss). eexists. split; [reflexivity|]. rewrite common_length. apply (Hss (ragged_shape c)). now left.
Qed.

Theorem item_list_broadcast is (l : list tr) sps : l <> [] -> is <> [] -> Forall target_ok is ->
  Forall (fun c => length (ragged_shape c) = length is /\ deep (length is) c) l ->
  Forall2 (fun c sp => ndspec_item c is = Ok sp) l sps ->
  exists sp, ndspec_item (Node l) is = Ok sp /\ one_level sp (map nd_data sps).
Proof.
  intros Hl Hs Ht F G.
  assert (D : deep (S (length is)) (Node l)).
  { destruct l as [|c l]; [congruence|]. apply deep_S. exists c, l. split; auto. eapply Forall_impl; [|exact F]. cbn beta. tauto. }
  destruct (shape_list l (length is) Hl) as (r0 & Eo & Lr); [eapply Forall_impl; [|exact F]; cbn beta; tauto|].
  set (old := ragged_shape (Node l)) in *.
  unfold ndspec_item at 1, expand_ragged. fold old.
  destruct (all2 Z.eqb old is) eqn:E; [apply all2_eqb_eq in E; rewrite E in Eo; apply (f_equal (@length Z)) in Eo; simpl in Eo; lia|].
  assert (Lo : length old = S (length is)) by (rewrite Eo; simpl; lia).
  rewrite zero_length_false.
  2:{ intros i Hi _. left. apply (deep_shape (S (length is)) (Node l)); auto; fold old; lia. }
  replace (Nat.ltb _ _) with false by (symmetry; apply Nat.ltb_ge; lia).
  replace (length old - length is)%nat with 1%nat by lia. cbn [repeat app].
  pose proof (expand_spec (-1 :: is) (Node l) ltac:(constructor; [now left|auto]) D) as X.
  destruct (recursive_expand (-1 :: is) (Node l)) as [[[r s] m]|e] eqn:Er.
  - cbn [bind fst]. destruct X as (_ & (Ls & _) & _). cbn [length] in Ls. rewrite Ls.
    replace (S (length is) - length is)%nat with 1%nat by lia. eexists. split; [reflexivity|].
    cbn [recursive_expand] in Er. destruct l as [|c l]; [congruence|].
    assert (M : exists rs, Forall2 (fun a b => recursive_expand is a = Ok b) (c :: l) rs /\ map (fun r => fst (fst r)) rs = map nd_data sps /\
       Forall2 (fun a b => snd b = false -> fst (fst b) = a) (c :: l) rs).
    { clear Er Ls Lo E Eo Lr D Hl. revert sps G. induction F as [|u us [F1 F2] F IH]; intros sps G; inversion G; subst.
      - exists []. repeat constructor.
      - destruct (item_expand is u y Hs Ht F1 F2 H1) as (m' & Em & _). destruct (IH _ H3) as (rs & I1 & I2 & I3).
        exists ((nd_data y, nd_shape y, m') :: rs). split; [constructor; auto|]. split; [cbn [map fst snd]; congruence|].
        constructor; auto. cbn [fst snd]. pose proof (expand_spec is u Ht F2) as Y. rewrite Em in Y. tauto. }
    destruct M as (rs & M1 & M2 & M3). rewrite (mapM_split _ _ _ M1) in Er. cbn [bind] in Er.
    destruct (same_ndim _); [|discriminate]. cbn [assertb bind] in Er.
    change (-1 =? -1) with true in Er. cbn [orb] in Er. rewrite M2 in Er.
    assert (Arr : (if existsb snd rs then map nd_data sps else c :: l) = map nd_data sps).
    { destruct (existsb snd rs) eqn:Q; auto. rewrite <- M2. clear - Q M3. induction M3; simpl in *; auto.
      apply orb_false_iff in Q as [Q1 Q2]. rewrite H by auto. f_equal. auto. }
    rewrite Arr in Er. injection Er as <- <- <-. unfold one_level. cbn [nd_data nd_pos nd_shape]. eauto.
  - exfalso. destruct X as [_ X]. apply X. apply fits_cons. split; [now left|].
    apply Forall_forall. intros c Hc. rewrite Forall_forall in F. destruct (F c Hc) as [F1 F2].
    destruct (Forall2_In_l _ _ _ G c Hc) as (sp & _ & Esp). destruct (item_expand is c sp Hs Ht F1 F2 Esp) as (m & Em & _).
    pose proof (expand_spec is c Ht F2) as Y. rewrite Em in Y. tauto.
Qed.

(** * A scalar is repeated over the whole item. *)
Definition dim_of (n : Z) : Z := if n =? -1 then 1 else n.
Lemma fill_get (a : A) : forall s p, length p = length s ->
  get p (fst (fold_right wrap (Leaf a, []) s)) =
  if forallb (fun q => Z.of_nat (fst q) <? dim_of (snd q)) (combine p s) then Some (Leaf a) else None.
Proof.
  induction s as [|n s IH]; intros [|i p] L; try discriminate; [reflexivity|]. cbn [fold_right combine forallb fst snd].
  unfold wrap at 1, dim_of. injection L as L. specialize (IH p L).
  destruct (n =? -1) eqn:E; cbn [fst get].
  - destruct i as [|i]; cbn [nth_error]; [exact IH|].
    replace (Z.of_nat (S i) <? 1) with false by (symmetry; apply Z.ltb_ge; lia). destruct i; reflexivity.
  - destruct (Z.of_nat i <? n) eqn:Q.
    + apply Z.ltb_lt in Q. assert (Hi : (i < Z.to_nat n)%nat) by lia.
      rewrite nth_error_nth' with (d := Leaf a) by now rewrite repeat_length.
      rewrite nth_indep with (d' := fst (fold_right wrap (Leaf a, []) s)) by now rewrite repeat_length.
      rewrite nth_repeat. exact IH.
    + apply Z.ltb_ge in Q. replace (nth_error _ i) with (@None tr); [reflexivity|]. symmetry. apply nth_error_None.
      rewrite repeat_length. lia.
Qed.
Lemma fill_shape (a : A) : forall s, snd (fold_right wrap (Leaf a, []) s) = map dim_of s.
Proof. induction s as [|n s IH]; [reflexivity|]. cbn [fold_right map]. unfold wrap at 1, dim_of at 1. destruct (n =? -1); cbn [snd]; now rewrite IH. Qed.

Theorem scalar_item (a : A) s :
  exists sp, ndspec_item (Leaf a) s = Ok sp /\ nd_index_shape sp = [] /\ nd_item_shape sp = map dim_of s /\ nd_len sp = Ok 0 /\
    (forall k, nd_get sp k = Ok (nd_data sp)) /\
    forall p, length p = length s ->
      get p (nd_data sp) = if forallb (fun q => Z.of_nat (fst q) <? dim_of (snd q)) (combine p s) then Some (Leaf a) else None.
Proof.
  assert (E : ndspec_item (Leaf a) s = Ok (mkNd (fst (fold_right wrap (Leaf a, []) s)) (map dim_of s) 0)).
  { unfold ndspec_item, expand_ragged. cbn [ragged_shape]. destruct s as [|n s]; [reflexivity|].
    change (all2 Z.eqb [] (n :: s)) with false. cbv iota. rewrite zero_length_false by (intros i Hi; simpl in Hi; lia).
    change (Nat.ltb (length (@nil Z)) (length (n :: s))) with true. cbv iota.
    change (length (@nil Z)) with 0%nat. rewrite Nat.sub_0_r, skipn_all. cbn [recursive_expand bind fst]. rewrite firstn_all.
    pose proof (fill_shape a (n :: s)) as Fs. destruct (fold_right wrap (Leaf a, []) (n :: s)) as [d sh]. cbn [snd fst bind] in *. subst sh.
    rewrite map_length, Nat.sub_diag. reflexivity. }
  eexists. split; [exact E|]. split; [reflexivity|]. split; [reflexivity|]. split; [reflexivity|]. split; [reflexivity|].
  apply fill_get.
Qed.
End N.
