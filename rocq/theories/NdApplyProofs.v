(** NdSpec.apply, zip, map and starmap. *)
From Verif Require Export NdSpecProofs.
Open Scope Z_scope.

(** * Broadcasting of index shapes *)

Definition agrees (shapes : list (list Z)) (s : list Z) : Prop :=
  In s shapes /\ forall s', In s' shapes -> s' = s \/ s' = [].

Lemma agg_shape_ok shapes s : agg_shape shapes = Ok s <-> agrees shapes s.
Proof.
  unfold agg_shape, agrees. pose proof (NoDup_nodup (list_eq_dec Z.eq_dec) shapes) as ND.
  pose proof (nodup_In (list_eq_dec Z.eq_dec) shapes) as IN.
  destruct (nodup (list_eq_dec Z.eq_dec) shapes) as [|a [|b [|c r]]].
  - split; [discriminate|]. intros [H _]. apply IN in H. destruct H.
  - split.
    + intros E. injection E as <-. split; [apply IN; now left|]. intros s' H. apply IN in H. destruct H as [<-|[]]; auto.
    + intros [H _]. apply IN in H. destruct H as [<-|[]]; auto.
  - assert (Nab : a <> b). { inversion ND as [|? ? H _]; subst. intros ->. apply H. now left. }
    unfold shape_eqb. destruct (all2 Z.eqb a []) eqn:Ea; [|destruct (all2 Z.eqb b []) eqn:Eb].
    + apply all2_eqb_eq in Ea. subst a. split.
      * intros E. injection E as <-. split; [apply IN; right; now left|]. intros s' H. apply IN in H. destruct H as [<-|[<-|[]]]; auto.
      * intros [H G]. f_equal. destruct (G b) as [E|E]; [apply IN; right; now left|auto|congruence].
    + apply all2_eqb_eq in Eb. subst b. split.
      * intros E. injection E as <-. split; [apply IN; now left|]. intros s' H. apply IN in H. destruct H as [<-|[<-|[]]]; auto.
      * intros [H G]. f_equal. destruct (G a) as [E|E]; [apply IN; now left|auto|congruence].
    + split; [discriminate|]. intros [H G].
      assert (a <> []) by (intros ->; discriminate). assert (b <> []) by (intros ->; discriminate).
      destruct (G a), (G b); try (apply IN; simpl; auto); congruence.
  - split; [discriminate|]. intros [H G]. inversion ND as [|? ? H1 ND']; subst. inversion ND' as [|? ? H2 _]; subst.
    assert (a <> b) by (intros ->; apply H1; simpl; auto). assert (a <> c) by (intros ->; apply H1; simpl; auto).
    assert (b <> c) by (intros ->; apply H2; simpl; auto).
    destruct (G a) as [X|X]; [apply IN; simpl; auto| |]; (destruct (G b) as [Y|Y]; [apply IN; simpl; auto| |]);
      (destruct (G c) as [W|W]; [apply IN; simpl; auto| |]); congruence.
Qed.
Lemma agg_shape_err shapes e : agg_shape shapes = Err e -> e = ValueError.
Proof.
  unfold agg_shape. destruct (nodup _ shapes) as [|a [|b [|c r]]]; try congruence.
  destruct (shape_eqb a []); [discriminate|]. destruct (shape_eqb b []); congruence.
Qed.
Lemma agg_shape_no shapes : (forall s, ~ agrees shapes s) -> agg_shape shapes = Err ValueError.
Proof.
  intros H. destruct (agg_shape shapes) as [s|e] eqn:E; [apply agg_shape_ok in E; now apply H in E|].
  now apply agg_shape_err in E as ->.
Qed.

(** * Indexing *)
Section I.
Context {A : Type}.
Notation tr := (tree A).
Definition idx (p : list Z) (t : tr) : res tr := fold_left (fun r i => t <- r ;; tree_idx t i) p (Ok t).

Lemma idx_err p e : fold_left (fun (r : res tr) i => t <- r ;; tree_idx t i) p (Err e) = Err e.
Proof. induction p; simpl; auto. Qed.
Lemma idx_cons i p t : idx (i :: p) t = (c <- tree_idx t i ;; idx p c).
Proof. unfold idx. cbn [fold_left bind]. destruct (tree_idx t i); cbn [bind]; [reflexivity|apply idx_err]. Qed.
End I.

Lemma mapM_ext {B C} (f g : B -> res C) l : (forall a, In a l -> f a = g a) -> mapM f l = mapM g l.
Proof. induction l as [|a l IH]; simpl; intros H; auto. rewrite H by auto. rewrite IH; auto. Qed.

Lemma pyidx_both {B C} (P : B -> C -> Prop) l r i : Forall2 P l r ->
  (exists b c, pyidx l i = Ok b /\ pyidx r i = Ok c /\ P b c) \/ (pyidx l i = Err IndexError /\ pyidx r i = Err IndexError).
Proof.
  intros F. pose proof (Forall2_length _ _ _ F) as L. unfold pyidx. rewrite <- L.
  destruct ((0 <=? _) && _); [|now right]. set (k := Z.to_nat _).
  destruct (nth_error r k) as [c|] eqn:E.
  - destruct (Forall2_nth _ _ _ F k c E) as (b & Eb & H). rewrite Eb. left. eauto.
  - right. apply nth_error_None in E. split; auto. replace (nth_error l k) with (@None B); auto. symmetry. apply nth_error_None. lia.
Qed.

Section M.
Context {A B : Type}.
Notation tr := (tree A).
Variable f : tr -> res (tree B).

Lemma recursive_apply_idx : forall k t d, recursive_apply f k t = Ok d ->
  forall p, length p = k -> idx p d = (u <- idx p t ;; f u).
Proof.
  induction k as [|k IH]; intros t d H p Lp.
  - destruct p; [|discriminate]. cbn in *. now rewrite H.
  - destruct p as [|i p]; [discriminate|]. injection Lp as Lp. cbn [recursive_apply] in H. destruct t as [a|l]; [discriminate|].
    pose proof (mapM_cases (recursive_apply f k) l) as M. destruct (mapM _ l) as [l'|]; [|discriminate].
    cbn [bind] in H. injection H as <-. rewrite !idx_cons. cbn [tree_idx].
    destruct (pyidx_both _ _ _ i M) as [(c & c' & E1 & E2 & H)|[E1 E2]]; rewrite E1, E2; cbn [bind]; auto.
Qed.

Lemma recursive_apply_defined : forall k t, (k <= length (ragged_shape t))%nat ->
  (forall u, In u (nodes_at k t) -> exists v, f u = Ok v) -> exists d, recursive_apply f k t = Ok d.
Proof.
  induction k as [|k IH]; intros t Hk H.
  - apply (H t). now left.
  - destruct t as [a|l]; [simpl in Hk; lia|]. cbn [recursive_apply].
    pose proof (mapM_cases (recursive_apply f k) l) as M. destruct (mapM _ l) as [l'|e]; [cbn [bind]; eauto|].
    exfalso. destruct M as (c & Hc & Ec). destruct (IH c) as [d Hd]; [| |congruence].
    + destruct k; [lia|]. destruct l as [|c0 l]; [destruct Hc|]. rewrite ragged_node in Hk. cbv zeta in Hk.
      set (ss := map ragged_shape (c0 :: l)) in *. cbn [length] in Hk. rewrite common_length in Hk.
      destruct (same_ndim ss) eqn:E; [|lia]. rewrite (same_ndim_spec ss (ragged_shape c) E); [lia|]. unfold ss. now apply in_map.
    + intros u Hu. apply H. apply in_nodes. eauto.
Qed.

Lemma agree_ext ss ss' i : length ss = length ss' -> (forall j, nth i (nth j ss []) 0 = nth i (nth j ss' []) 0) -> agree ss i = agree ss' i.
Proof.
  destruct ss as [|s ss], ss' as [|s' ss']; try discriminate; auto. intros L H. unfold agree.
  pose proof (H 0%nat) as H0. cbn [nth] in H0. rewrite H0.
  replace (forallb (fun s'0 => nth i s'0 0 =? nth i s' 0) ss) with (forallb (fun s'0 => nth i s'0 0 =? nth i s' 0) ss'); auto.
  injection L as L. assert (H' : forall j, nth i (nth j ss []) 0 = nth i (nth j ss' []) 0) by (intros j; apply (H (S j))).
  clear - L H'. revert ss' L H'. induction ss as [|a ss IH]; intros [|b ss'] L H'; try discriminate; auto.
  cbn [forallb]. rewrite (IH ss'); [|now injection L|intros j; apply (H' (S j))].
  pose proof (H' 0%nat) as H0. cbn [nth] in H0. now rewrite H0.
Qed.

Lemma firstn_common ss k n : (k <= n)%nat -> firstn k (common ss n) = map (agree ss) (seq 0 k).
Proof.
  intros H. unfold common. rewrite firstn_map. f_equal. replace n with (k + (n - k))%nat by lia. rewrite seq_app, firstn_app, seq_length, Nat.sub_diag.
  rewrite firstn_O, app_nil_r. apply firstn_all2. rewrite seq_length. lia.
Qed.

Lemma firstn_nth_eq (a b : list Z) k i : firstn k a = firstn k b -> (i < k)%nat -> nth i a 0 = nth i b 0.
Proof. intros H Hi. rewrite <- (nth_firstn_lt 0 k i a), <- (nth_firstn_lt 0 k i b) by auto. now rewrite H. Qed.

(** The shape of the mapped tree agrees with that of the source down to the index depth. *)
Lemma recursive_apply_shape e : forall k t d, recursive_apply f k t = Ok d -> (k <= length (ragged_shape t))%nat ->
  (forall u v, In u (nodes_at k t) -> f u = Ok v -> length (ragged_shape v) = e) -> e = 0%nat \/ deep k t ->
  length (ragged_shape d) = (k + e)%nat /\ firstn k (ragged_shape d) = firstn k (ragged_shape t).
Proof.
  induction k as [|k IH]; intros t d H Hk He Hd.
  - split; [|reflexivity]. apply (He t d); [now left|auto].
  - cbn [recursive_apply] in H. destruct t as [a|l]; [discriminate|].
    pose proof (mapM_cases (recursive_apply f k) l) as M. destruct (mapM _ l) as [l'|]; [|discriminate].
    cbn [bind] in H. injection H as <-. destruct l as [|c l].
    { inversion M; subst. destruct Hd as [->|Hd].
      - simpl in Hk. assert (k = 0%nat) as -> by lia. split; reflexivity.
      - exfalso. apply deep_S in Hd as (c & l & E & _). discriminate. }
    assert (Hc : forall u, In u (c :: l) -> (k <= length (ragged_shape u))%nat).
    { intros u Hu. destruct k; [lia|]. rewrite ragged_node in Hk. cbv zeta in Hk. set (ss := map ragged_shape (c :: l)) in *.
      cbn [length] in Hk. rewrite common_length in Hk. destruct (same_ndim ss) eqn:E; [|lia].
      rewrite (same_ndim_spec ss (ragged_shape u) E); [lia|]. unfold ss. now apply in_map. }
    assert (X : forall u v, In u (c :: l) -> recursive_apply f k u = Ok v ->
       length (ragged_shape v) = (k + e)%nat /\ firstn k (ragged_shape v) = firstn k (ragged_shape u)).
    { intros u v Hu Ev. apply IH; auto.
      - intros x y Hx. apply He. apply in_nodes. eauto.
      - destruct Hd as [->|Hd]; [now left|right]. apply deep_S in Hd as (c' & l0 & E & F). injection E as <- <-.
        rewrite Forall_forall in F. auto. }
    inversion M as [|? c' ? l0 M1 M2]; subst. rewrite (ragged_node c' l0), (ragged_node c l). cbv zeta.
    set (ss := map ragged_shape (c :: l)). set (ss' := map ragged_shape (c' :: l0)).
    assert (Hss' : forall s, In s ss' -> length s = (k + e)%nat).
    { intros s Hs. apply in_map_iff in Hs as (v & <- & Hv). destruct (Forall2_In_r _ _ _ M v Hv) as (u & Hu & Eu). now apply (X u v). }
    rewrite (same_ndim_intro ss' _ Hss'). replace (head_ndim ss') with (k + e)%nat by (symmetry; apply (Hss' (ragged_shape c')); now left).
    cbn [length]. rewrite common_length. split; [lia|]. cbn [firstn].
    assert (Ll : length (c' :: l0) = length (c :: l)) by (symmetry; eapply Forall2_length; eauto).
    f_equal; [unfold len; congruence|].
    assert (Hh : (k <= (if same_ndim ss then head_ndim ss else 0))%nat).
    { rewrite ragged_node in Hk. cbv zeta in Hk. fold ss in Hk. cbn [length] in Hk. rewrite common_length in Hk. lia. }
    rewrite !firstn_common by lia. apply map_ext_in. intros i Hi. apply in_seq in Hi.
    apply agree_ext; [unfold ss, ss'; rewrite !map_length; auto|].
    intros j. destruct (Nat.lt_ge_cases j (length (c :: l))) as [Hj|Hj].
    + destruct (nth_error (c' :: l0) j) as [v|] eqn:Ev; [|apply nth_error_None in Ev; lia].
      destruct (Forall2_nth _ _ _ M j v Ev) as (u & Eu & Hu).
      rewrite (nth_error_nth ss' j [] (x := ragged_shape v)) by (unfold ss'; now rewrite nth_error_map, Ev).
      rewrite (nth_error_nth ss j [] (x := ragged_shape u)) by (unfold ss; now rewrite nth_error_map, Eu).
      apply firstn_nth_eq with (k := k); [|lia]. apply (X u v); auto. eapply nth_error_In; eauto.
    + rewrite !(nth_overflow _ []); auto; unfold ss, ss'; rewrite map_length; lia.
Qed.
End M.

(** * map *)
Section P.
Context {A : Type}.
(** A spec whose shape is the inferred one. *)
Definition wf (sp : ndspec A) : Prop := nd_shape sp = ragged_shape (nd_data sp) /\ (nd_pos sp <= length (nd_shape sp))%nat.

Lemma check_index_prefix : forall s sh, firstn (length s) sh = s -> check_index sh s = Ok true.
Proof.
  induction s as [|n s IH]; intros sh H; [reflexivity|]. destruct sh as [|m sh]; [discriminate|].
  cbn [length firstn] in H. injection H as -> H. cbn [check_index tl]. destruct (n =? -1); auto. rewrite Z.eqb_refl. auto.
Qed.

Lemma ndspec_index_prefix (d : tree A) s : firstn (length s) (ragged_shape d) = s ->
  ndspec_index d s = Ok (mkNd d (ragged_shape d) (length s)).
Proof. intros H. unfold ndspec_index. now rewrite check_index_prefix. Qed.

Lemma ndspec_index_nil (d : tree A) : ndspec_index d [] = Ok (mkNd d (ragged_shape d) 0).
Proof. reflexivity. Qed.
Lemma ragged_head (l : list (tree A)) : exists r, ragged_shape (Node l) = len l :: r.
Proof. destruct l as [|c l]; [now exists []|]. rewrite ragged_node. cbv zeta. eauto. Qed.
Lemma ndspec_index_one (l : list (tree A)) : ndspec_index (Node l) [len l] = Ok (mkNd (Node l) (ragged_shape (Node l)) 1).
Proof. apply (ndspec_index_prefix (Node l) [len l]). destruct (ragged_head l) as [r ->]. reflexivity. Qed.
Lemma one_level_intro (l : list (tree A)) : one_level (mkNd (Node l) (ragged_shape (Node l)) 1) l.
Proof. unfold one_level. cbn [nd_data nd_pos nd_shape]. split; auto. split; auto. apply ragged_head. Qed.

Lemma nd_get_tuple (sp : ndspec A) p : length p = nd_pos sp -> (nd_pos sp <= length (nd_shape sp))%nat ->
  nd_get sp (KTuple p) = idx p (nd_data sp).
Proof.
  intros L H. unfold nd_get, nd_is_item. destruct (nd_pos sp) as [|n] eqn:E.
  - destruct p; [reflexivity|discriminate].
  - cbn [Nat.eqb]. unfold nd_index_shape. rewrite E, firstn_length.
    replace (Nat.ltb _ _) with false by (symmetry; apply Nat.ltb_ge; lia). reflexivity.
Qed.
End P.

Section Q.
Context {A B : Type}.

Lemma map_depth (f : tree A -> res (tree B)) (sp : ndspec A) : (nd_pos sp <= length (nd_shape sp))%nat ->
  nd_map f sp = (d <- recursive_apply f (nd_pos sp) (nd_data sp) ;; ndspec_index d (nd_index_shape sp)).
Proof.
  intros H. unfold nd_map, nd_item_shape. rewrite skipn_length.
  replace (length (nd_shape sp) - (length (nd_shape sp) - nd_pos sp))%nat with (nd_pos sp) by lia. reflexivity.
Qed.

(** Items, or one-level lists of items: any function. *)
Theorem map_item (f : tree A -> res (tree B)) (sp : ndspec A) : nd_pos sp = 0%nat ->
  nd_map f sp = (d <- f (nd_data sp) ;; Ok (mkNd d (ragged_shape d) 0)).
Proof. intros H. rewrite map_depth by lia. unfold nd_index_shape. rewrite H. reflexivity. Qed.
Theorem map_one_level (f : tree A -> res (tree B)) (sp : ndspec A) l : one_level sp l ->
  nd_map f sp = (ds <- mapM f l ;; Ok (mkNd (Node ds) (ragged_shape (Node ds)) 1)).
Proof.
  intros (E1 & E2 & r & E3). rewrite map_depth by (rewrite E2, E3; simpl; lia). unfold nd_index_shape. rewrite E1, E2, E3.
  cbn [firstn recursive_apply]. pose proof (mapM_cases f l) as M. change (fun t => f t) with f.
  destruct (mapM f l) as [ds|e]; [|reflexivity]. cbn [bind].
  replace (len l) with (len ds) by (unfold len; f_equal; symmetry; eapply Forall2_length; eauto).
  apply ndspec_index_one.
Qed.

(** Any index depth, for functions whose results all have the same depth. *)
Theorem map_any (f : tree A -> res (tree B)) (sp : ndspec A) e : wf sp ->
  (forall u, In u (nodes_at (nd_pos sp) (nd_data sp)) -> exists v, f u = Ok v /\ length (ragged_shape v) = e) ->
  e = 0%nat \/ deep (nd_pos sp) (nd_data sp) ->
  exists sp', nd_map f sp = Ok sp' /\ nd_index_shape sp' = nd_index_shape sp /\ wf sp' /\
    forall p, length p = nd_pos sp -> nd_get sp' (KTuple p) = (u <- nd_get sp (KTuple p) ;; f u).
Proof.
  intros [W1 W2] H Hd. rewrite map_depth by auto.
  assert (Hk : (nd_pos sp <= length (ragged_shape (nd_data sp)))%nat) by congruence.
  destruct (recursive_apply_defined f (nd_pos sp) (nd_data sp) Hk) as [d Ed].
  { intros u Hu. destruct (H u Hu) as (v & Hv & _). eauto. }
  destruct (recursive_apply_shape f e _ _ _ Ed Hk) as [L1 L2]; auto.
  { intros u v Hu Ev. destruct (H u Hu) as (v' & Hv' & Lv). congruence. }
  rewrite Ed. cbn [bind].
  assert (Li : length (nd_index_shape sp) = nd_pos sp) by (unfold nd_index_shape; rewrite firstn_length; lia).
  rewrite ndspec_index_prefix.
  2:{ rewrite Li. unfold nd_index_shape. rewrite W1. exact L2. }
  rewrite Li. eexists. split; [reflexivity|]. split; [|split].
  - unfold nd_index_shape. cbn [nd_pos nd_shape]. rewrite W1. exact L2.
  - split; [reflexivity|]. cbn [nd_pos nd_shape]. lia.
  - intros p Lp. rewrite !nd_get_tuple; cbn [nd_pos nd_shape nd_data]; auto; [|lia].
    now apply (recursive_apply_idx f (nd_pos sp)).
Qed.

(** * apply *)
Lemma apply_mismatch (f : list (tree A) -> res (tree B)) args : (forall s, ~ agrees (map nd_index_shape args) s) ->
  nd_apply f args = Err ValueError.
Proof. intros H. unfold nd_apply. now rewrite agg_shape_no. Qed.

Definition simple (sp : ndspec A) : Prop := nd_pos sp = 0%nat \/ exists l, one_level sp l.

Theorem apply_items (f : list (tree A) -> res (tree B)) args : args <> [] -> Forall (fun a => nd_pos a = 0%nat) args ->
  nd_apply f args = (d <- f (map nd_data args) ;; Ok (mkNd d (ragged_shape d) 0)).
Proof.
  intros Ha F. unfold nd_apply. rewrite Forall_forall in F.
  assert (E : agg_shape (map nd_index_shape args) = Ok []).
  { apply agg_shape_ok. split.
    - destruct args as [|a args]; [congruence|]. left. unfold nd_index_shape. now rewrite (F a) by now left.
    - intros s H. apply in_map_iff in H as (a & <- & Hin). left. unfold nd_index_shape. now rewrite F. }
  rewrite E. cbn [bind]. reflexivity.
Qed.

Lemma simple_key sp i : simple sp -> nd_get sp (KTuple [i]) = nd_get sp (KInt i).
Proof.
  intros [H|[l H]].
  - unfold nd_get, nd_is_item. rewrite H. reflexivity.
  - destruct (one_level_access sp l H) as (_ & _ & _ & E1 & E2 & _). now rewrite E1, E2.
Qed.

Theorem apply_one_level (f : list (tree A) -> res (tree B)) args n : Forall simple args ->
  agrees (map nd_index_shape args) [n] ->
  nd_apply f args = (ds <- mapM (fun i => items <- mapM (fun a => nd_get a (KInt i)) args ;; f items) (zrange n) ;;
                     Ok (mkNd (Node ds) (ragged_shape (Node ds)) 1)).
Proof.
  intros F G. unfold nd_apply. rewrite (proj2 (agg_shape_ok _ _) G). cbn [bind].
  assert (Hn : 0 <= n).
  { destruct G as [G _]. apply in_map_iff in G as (a & E & Ha). rewrite Forall_forall in F. destruct (F a Ha) as [H|[l H]].
    - unfold nd_index_shape in E. rewrite H in E. discriminate.
    - destruct (one_level_access a l H) as (_ & _ & E' & _). rewrite E' in E. injection E as <-. apply len_nonneg. }
  cbn [existsb]. replace (n <? 0) with false by (symmetry; apply Z.ltb_ge; lia). cbn [orb fill_index app].
  replace (mapM (fun i => items <- mapM (fun a => nd_get a (KTuple [i])) args ;; f items) (zrange n))
    with (mapM (fun i => items <- mapM (fun a => nd_get a (KInt i)) args ;; f items) (zrange n)).
  2:{ apply mapM_ext. intros i _. replace (mapM (fun a => nd_get a (KTuple [i])) args) with (mapM (fun a => nd_get a (KInt i)) args); auto.
      apply mapM_ext. intros a Ha. rewrite Forall_forall in F. symmetry. apply simple_key; auto. }
  pose proof (mapM_cases (fun i => items <- mapM (fun a => nd_get a (KInt i)) args ;; f items) (zrange n)) as M.
  destruct (mapM _ (zrange n)) as [ds|e]; [|reflexivity]. cbn [bind].
  apply Forall2_length in M. rewrite zrange_length in M.
  replace n with (len ds) by (unfold len; lia). apply ndspec_index_one.
Qed.

(** The items asked for exist. *)
Lemma agrees_get args n i : Forall simple args -> agrees (map nd_index_shape args) [n] -> 0 <= i < n ->
  exists items, mapM (fun a => nd_get a (KInt i)) args = Ok items.
Proof.
  intros F [_ G] Hi. pose proof (mapM_cases (fun a => nd_get a (KInt i)) args) as M.
  destruct (mapM _ args) as [items|e]; [eauto|]. exfalso. destruct M as (a & Ha & Ea).
  rewrite Forall_forall in F. destruct (F a Ha) as [H|[l H]].
  - unfold nd_get, nd_is_item in Ea. rewrite H in Ea. discriminate.
  - destruct (one_level_access a l H) as (_ & _ & E & E' & _). rewrite E' in Ea.
    destruct (G (nd_index_shape a)) as [Q|Q]; [now apply in_map|rewrite E in Q|rewrite E in Q; discriminate].
    injection Q as Q. destruct l as [|c l]; [unfold len in Q; simpl in Q; lia|].
    rewrite (pyidx_nonneg _ _ c) in Ea by (unfold len in Q; lia). discriminate.
Qed.

Theorem apply_items_at (f : list (tree A) -> res (tree B)) args n g : Forall simple args ->
  agrees (map nd_index_shape args) [n] ->
  (forall i items, 0 <= i < n -> mapM (fun a => nd_get a (KInt i)) args = Ok items -> f items = Ok (g i)) ->
  exists sp, nd_apply f args = Ok sp /\ nd_index_shape sp = [n] /\ nd_len sp = Ok n /\
    forall i, 0 <= i < n -> nd_get sp (KInt i) = Ok (g i).
Proof.
  intros F G H. rewrite (apply_one_level f args n) by auto.
  assert (Hn : 0 <= n).
  { destruct G as [G' _]. apply in_map_iff in G' as (a & E & Ha). rewrite Forall_forall in F. destruct (F a Ha) as [H'|[l H']].
    - unfold nd_index_shape in E. rewrite H' in E. discriminate.
    - destruct (one_level_access a l H') as (_ & _ & E' & _). rewrite E' in E. injection E as <-. apply len_nonneg. }
  rewrite (mapM_ok _ g).
  2:{ intros i Hi. apply In_zrange in Hi. destruct (agrees_get args n i F G Hi) as [items Ei]. rewrite Ei. cbn [bind]. eauto. }
  cbn [bind]. set (ds := map g (zrange n)). assert (Ld : len ds = n) by (unfold len, ds; rewrite map_length, zrange_length; lia).
  eexists. split; [reflexivity|]. destruct (one_level_access _ _ (one_level_intro ds)) as (E1 & _ & E3 & E4 & _).
  rewrite E1, E3, Ld. split; auto. split; auto. intros i Hi. rewrite E4. rewrite (pyidx_nonneg _ _ (g 0)) by (unfold len in Ld; lia).
  f_equal. unfold ds. rewrite map_nth, nth_zrange by lia. f_equal. lia.
Qed.

(** Any index depth: results of one depth. *)
Definition inside (p s : list Z) : Prop := Forall2 (fun i n => 0 <= i < n) p s.

Lemma fill_spec (g : list Z -> res (tree B)) h e : forall s done,
  Forall (fun n => 1 <= n) s -> (forall p, inside p s -> g (done ++ p) = Ok (h (done ++ p)) /\ length (ragged_shape (h (done ++ p))) = e) ->
  exists d, fill_index s done g = Ok d /\ length (ragged_shape d) = (length s + e)%nat /\ firstn (length s) (ragged_shape d) = s /\
    forall p, inside p s -> idx p d = Ok (h (done ++ p)).
Proof.
  induction s as [|n s IH]; intros done Hs H.
  - destruct (H [] ltac:(constructor)) as [E1 E2]. rewrite app_nil_r in *. exists (h done). cbn [fill_index].
    split; auto. split; auto. split; auto. intros p Hp. inversion Hp. now rewrite app_nil_r.
  - inversion Hs as [|? ? Hn Hs']; subst. cbn [fill_index].
    assert (X : forall i, 0 <= i < n -> exists d, fill_index s (done ++ [i]) g = Ok d /\ length (ragged_shape d) = (length s + e)%nat /\
       firstn (length s) (ragged_shape d) = s /\ forall p, inside p s -> idx p d = Ok (h (done ++ i :: p))).
    { intros i Hi. destruct (IH (done ++ [i]) Hs') as (d & D1 & D2 & D3 & D4).
      - intros p Hp. rewrite <- app_assoc. cbn [app]. apply H. constructor; auto.
      - exists d. split; auto. split; auto. split; auto. intros p Hp. rewrite D4 by auto. now rewrite <- app_assoc. }
    pose proof (mapM_cases (fun i => fill_index s (done ++ [i]) g) (zrange n)) as M.
    destruct (mapM _ (zrange n)) as [l|er].
    2:{ exfalso. destruct M as (i & Hi & Ei). apply In_zrange in Hi. destruct (X i Hi) as (d & Ed & _). congruence. }
    cbn [bind]. exists (Node l). split; auto.
    assert (Ll : length l = Z.to_nat n) by (rewrite <- (Forall2_length _ _ _ M); apply zrange_length).
    assert (Y : forall d, In d l -> length (ragged_shape d) = (length s + e)%nat /\ firstn (length s) (ragged_shape d) = s).
    { intros d Hd. destruct (Forall2_In_r _ _ _ M d Hd) as (i & Hi & Ei). apply In_zrange in Hi.
      destruct (X i Hi) as (d' & Ed & D2 & D3 & _). assert (d = d') by congruence. subst. auto. }
    assert (Hl : l <> []) by (destruct l; [simpl in Ll; lia|discriminate]).
    destruct l as [|c l0] eqn:El; [congruence|]. rewrite <- El in *. rewrite El, ragged_node, <- El. cbv zeta. set (ss := map ragged_shape l).
    assert (Hss : forall x, In x ss -> length x = (length s + e)%nat).
    { intros x Hx. apply in_map_iff in Hx as (u & <- & Hu). now apply Y. }
    rewrite (same_ndim_intro ss _ Hss). replace (head_ndim ss) with (length s + e)%nat.
    2:{ symmetry. unfold ss. rewrite El. cbn [map head_ndim]. apply Y. rewrite El. now left. }
    cbn [length firstn]. rewrite common_length. split; [lia|]. split.
    + f_equal; [unfold len; lia|]. rewrite firstn_common by lia.
      apply nth_ext with (d := 0) (d' := 0); [rewrite map_length, seq_length; auto|].
      intros i Hi. rewrite map_length, seq_length in Hi.
      rewrite (nth_indep _ 0 (agree ss 0)) by (rewrite map_length, seq_length; auto). rewrite map_nth, seq_nth by auto. cbn [plus].
      apply agree_all. { unfold ss. rewrite El. discriminate. }
      intros x Hx. apply in_map_iff in Hx as (u & <- & Hu). destruct (Y u Hu) as [_ Yu].
      rewrite <- (nth_firstn_lt 0 (length s)) by auto. now rewrite Yu.
    + intros p Hp. inversion Hp as [|i ? p' ? Hi Hp']; subst p. rewrite idx_cons. cbn [tree_idx].
      rewrite (pyidx_nonneg _ _ c) by lia. cbn [bind].
      assert (Q : fill_index s (done ++ [i]) g = Ok (nth (Z.to_nat i) l c)).
      { destruct (nth_error l (Z.to_nat i)) as [u|] eqn:Eu; [|apply nth_error_None in Eu; lia].
        destruct (Forall2_nth _ _ _ M _ _ Eu) as (j & Ej & Hj). rewrite (nth_error_nth _ _ _ Eu).
        apply (nth_error_nth _ _ 0) in Ej. rewrite nth_zrange in Ej by lia. rewrite Z2Nat.id in Ej by lia. now subst j. }
      destruct (X i Hi) as (d & D1 & _ & _ & D4). assert (d = nth (Z.to_nat i) l c) by congruence. subst d. auto.
Qed.

Theorem apply_any (f : list (tree A) -> res (tree B)) args s h e : s <> [] -> Forall (fun n => 1 <= n) s ->
  agrees (map nd_index_shape args) s ->
  (forall p, inside p s -> exists items, mapM (fun a => nd_get a (KTuple p)) args = Ok items /\ f items = Ok (h p) /\ length (ragged_shape (h p)) = e) ->
  exists sp, nd_apply f args = Ok sp /\ nd_index_shape sp = s /\ wf sp /\ forall p, inside p s -> nd_get sp (KTuple p) = Ok (h p).
Proof.
  intros Hs Hp G H. unfold nd_apply. rewrite (proj2 (agg_shape_ok _ _) G). cbn [bind].
  destruct s as [|n s]; [congruence|].
  replace (existsb (fun n => n <? 0) (n :: s)) with false.
  2:{ symmetry. apply Bool.not_true_iff_false. intros E. apply existsb_exists in E as (x & Hx & E). rewrite Forall_forall in Hp.
      apply Hp in Hx. apply Z.ltb_lt in E. lia. }
  set (S := n :: s) in *.
  destruct (fill_spec (fun i => items <- mapM (fun a => nd_get a (KTuple i)) args ;; f items) h e S [] Hp) as (d & D1 & D2 & D3 & D4).
  { intros p Hin. destruct (H p Hin) as (items & E1 & E2 & E3). cbn [app]. rewrite E1. cbn [bind]. auto. }
  rewrite D1. cbn [bind]. rewrite ndspec_index_prefix by auto. eexists. split; [reflexivity|].
  split; [exact D3|]. split; [split; [reflexivity|]; cbn [nd_pos nd_shape]; lia|].
  intros p Hin. rewrite nd_get_tuple; cbn [nd_pos nd_shape nd_data]; [now apply D4| |lia].
  apply (Forall2_length _ _ _ Hin).
Qed.
End Q.

(** Items of a well-formed spec exist inside its index shape. *)
Lemma idx_inside {A} : forall p (t : tree A) s, inside p s -> firstn (length s) (ragged_shape t) = s -> exists u, idx p t = Ok u.
Proof.
  induction p as [|i p IH]; intros t s H E; [exists t; reflexivity|].
  inversion H as [|? n ? s' Hi Hp]; subst. destruct t as [a|l]; [discriminate|]. destruct l as [|c l].
  - simpl in E. destruct s'; simpl in E; injection E as <-; lia.
  - rewrite ragged_node in E. cbv zeta in E. set (ss := map ragged_shape (c :: l)) in *. cbn [length firstn] in E.
    pose proof (f_equal (hd 0) E) as En. pose proof (f_equal (@tl Z) E) as Es. cbn [hd tl] in En, Es. clear E.
    rewrite idx_cons. cbn [tree_idx]. rewrite (pyidx_nonneg _ _ c) by (unfold len in En; cbn [length] in *; lia). cbn [bind].
    set (u := nth (Z.to_nat i) (c :: l) c). assert (Hu : In u (c :: l)) by (apply nth_In; unfold len in En; cbn [length] in *; lia).
    apply (IH u s'); auto.
    set (nd := if same_ndim ss then head_ndim ss else 0%nat) in *.
    assert (Lnd : (length s' <= nd)%nat).
    { apply (f_equal (@length Z)) in Es. rewrite firstn_length, common_length in Es. lia. }
    destruct (Nat.eq_dec (length s') 0) as [Z0|Z0]; [destruct s'; [reflexivity|discriminate]|].
    assert (Lu : (length s' <= length (ragged_shape u))%nat).
    { unfold nd in Lnd. destruct (same_ndim ss) eqn:Q; [|lia]. rewrite (same_ndim_spec ss (ragged_shape u) Q); auto. unfold ss. now apply in_map. }
    apply nth_ext with (d := 0) (d' := 0); [rewrite firstn_length; lia|]. intros k Hk. rewrite firstn_length in Hk.
    rewrite nth_firstn_lt by lia. rewrite firstn_common in Es by auto.
    assert (Ek : nth k s' 0 = agree ss k).
    { rewrite <- Es. rewrite (nth_indep _ 0 (agree ss 0)) by (rewrite map_length, seq_length; lia).
      rewrite map_nth, seq_nth by lia. reflexivity. }
    rewrite Ek. destruct (agree_cases ss k) as [Eq|[Em _]]; [discriminate|apply Eq; unfold ss; now apply in_map|].
    exfalso. assert (X : 0 <= nth k s' 0).
    { clear - Hp Hk. assert (Hk' : (k < length s')%nat) by lia. clear Hk. revert k Hk'. induction Hp; intros [|k]; simpl; try lia. intros; apply IHHp; lia. }
    lia.
Qed.

(** zip then starmap is apply. *)
Theorem zip_starmap {A B} (f : list (tree A) -> res (tree B)) args z : args <> [] -> Forall simple args ->
  nd_zip args = Ok z -> nd_starmap f z = nd_apply f args.
Proof.
  intros Ha F Hz.
  destruct (agg_shape (map nd_index_shape args)) as [s|e] eqn:E.
  2:{ unfold nd_zip, nd_apply in Hz. rewrite E in Hz. discriminate. }
  apply agg_shape_ok in E. destruct s as [|n s].
  - assert (P : Forall (fun a => nd_pos a = 0%nat) args).
    { apply Forall_forall. intros a Hin. rewrite Forall_forall in F. destruct (F a Hin) as [H|[l H]]; auto.
      destruct (one_level_access a l H) as (_ & _ & E' & _). destruct (proj2 E (nd_index_shape a)) as [Q|Q]; try (now apply in_map);
      rewrite E' in Q; discriminate. }
    unfold nd_zip in Hz. rewrite apply_items in Hz by auto. cbn [bind] in Hz. injection Hz as <-.
    unfold nd_starmap. rewrite map_item by reflexivity. cbn [nd_data]. now rewrite apply_items by auto.
  - assert (s = []) as ->.
    { destruct E as [E _]. apply in_map_iff in E as (a & Q & Hin). rewrite Forall_forall in F. destruct (F a Hin) as [H|[l H]].
      - unfold nd_index_shape in Q. rewrite H in Q. discriminate.
      - destruct (one_level_access a l H) as (_ & _ & E' & _). rewrite E' in Q. now injection Q as _ <-. }
    unfold nd_zip in Hz. rewrite (apply_one_level _ args n) in Hz by auto. rewrite (apply_one_level f args n) by auto.
    pose proof (mapM_cases (fun i => items <- mapM (fun a => nd_get a (KInt i)) args ;; Ok (Node items)) (zrange n)) as M.
    destruct (mapM _ (zrange n)) as [ds|]; [|discriminate]. cbn [bind] in Hz. injection Hz as <-.
    unfold nd_starmap. rewrite (map_one_level _ _ ds) by apply one_level_intro. f_equal.
    clear - M. induction M as [|i d is ds H M IH]; [reflexivity|]. cbn [mapM]. rewrite IH.
    destruct (mapM (fun a => nd_get a (KInt i)) args) as [items|]; [|discriminate]. cbn [bind] in H. injection H as <-. reflexivity.
Qed.
