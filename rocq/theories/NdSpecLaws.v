(** Laws of NdSpec.map, starmap and apply (C32). *)
From Verif Require Export NdApplyProofs.
Open Scope Z_scope.

(** Mapping the identity rebuilds the same data. *)
Theorem map_identity {A} (sp : ndspec A) : simple sp ->
  nd_map (fun t => Ok t) sp = Ok (mkNd (nd_data sp) (ragged_shape (nd_data sp)) (nd_pos sp)).
Proof.
  intros [H|[l H]].
  - rewrite map_item by auto. cbn [bind]. now rewrite H.
  - rewrite (map_one_level _ _ l H). rewrite (mapM_ok _ (fun t => t)) by auto. rewrite map_id. cbn [bind]. destruct H as [-> [-> _]]. reflexivity.
Qed.
Lemma mapM_bind {A B C} (f : A -> res B) (g : B -> res C) l ds : mapM f l = Ok ds -> mapM g ds = mapM (fun t => u <- f t ;; g u) l.
Proof.
  revert ds. induction l as [|t l IH]; intros ds H; cbn [mapM] in H.
  - injection H as <-. reflexivity.
  - destruct (f t) as [u|] eqn:E; [|discriminate]. cbn [bind] in H. destruct (mapM f l) as [us|]; [|discriminate]. cbn [bind] in H. injection H as <-.
    cbn [mapM]. rewrite E. cbn [bind]. now rewrite (IH us).
Qed.
Theorem map_compose {A B C} (f : tree A -> res (tree B)) (g : tree B -> res (tree C)) (sp : ndspec A) sp' : simple sp -> nd_map f sp = Ok sp' ->
  nd_map g sp' = nd_map (fun t => u <- f t ;; g u) sp.
Proof.
  intros [H|[l H]] E.
  - rewrite map_item in E by auto. rewrite (map_item _ sp) by auto. destruct (f (nd_data sp)) as [d|]; [|discriminate]. cbn [bind] in E. injection E as <-.
    cbn [bind]. now rewrite map_item by reflexivity.
  - rewrite (map_one_level _ _ l H) in E. rewrite (map_one_level _ sp l H). destruct (mapM f l) as [ds|] eqn:M; [|discriminate]. cbn [bind] in E. injection E as <-.
    rewrite (map_one_level _ _ ds (one_level_intro ds)). now rewrite (mapM_bind f g l ds M).
Qed.
(** apply on a single spec is map. *)
Theorem apply_single {A B} (f : tree A -> res (tree B)) (sp : ndspec A) h : simple sp -> (forall t, h [t] = f t) -> nd_apply h [sp] = nd_map f sp.
Proof.
  intros [H|[l H]] Hh.
  - rewrite apply_items by (auto; discriminate). rewrite map_item by auto. cbn [map]. now rewrite Hh.
  - destruct (one_level_access sp l H) as (_ & _ & E & G & _).
    rewrite (apply_one_level h [sp] (len l)); [|constructor; [right; eauto|constructor]|split; [left; auto|intros s [<-|[]]; auto]].
    rewrite (map_one_level _ _ l H). f_equal.
    transitivity (mapM f l); [|reflexivity]. 
    assert (Q : forall q p, l = p ++ q -> mapM (fun i => items <- mapM (fun a => nd_get a (KInt i)) [sp] ;; h items) (zseq (len p) (length q)) = mapM f q).
    { induction q as [|t q IH]; intros p El; [reflexivity|]. cbn [length zseq].
      cbn [mapM]. rewrite G. rewrite (pyidx_nonneg _ _ t) by (rewrite El; unfold len; rewrite app_length; cbn [length]; lia).
      rewrite El at 1. rewrite app_nth2 by (unfold len; lia). replace (Z.to_nat (len p) - length p)%nat with 0%nat by (unfold len; lia). cbn [nth bind]. rewrite Hh.
      destruct (f t) as [d|]; [|reflexivity]. cbn [bind]. specialize (IH (p ++ [t])). rewrite <- app_assoc in IH. specialize (IH El).
      replace (len (p ++ [t])) with (len p + 1) in IH by (unfold len; rewrite app_length; cbn [length]; lia). cbn [mapM bind] in IH. now rewrite IH. }
    specialize (Q l [] eq_refl). rewrite <- Q. unfold zrange, len. now rewrite Nat2Z.id.
Qed.
(** starmap unpacks items that are lists and raises TypeError on items that are not. *)
Theorem starmap_item {A B} (f : list (tree A) -> res (tree B)) (sp : ndspec A) : nd_pos sp = 0%nat ->
  (forall l, nd_data sp = Node l -> nd_starmap f sp = (d <- f l ;; Ok (mkNd d (ragged_shape d) 0))) /\
  (forall v, nd_data sp = Leaf v -> nd_starmap f sp = Err TypeError).
Proof. intros H. unfold nd_starmap. rewrite map_item by auto. split; intros l ->; reflexivity. Qed.
Theorem starmap_list {A B} (f : list (tree A) -> res (tree B)) (sp : ndspec A) ls : one_level sp (map Node ls) ->
  nd_starmap f sp = (ds <- mapM f ls ;; Ok (mkNd (Node ds) (ragged_shape (Node ds)) 1)).
Proof.
  intros H. unfold nd_starmap. rewrite (map_one_level _ _ _ H). f_equal. clear H. induction ls as [|l ls IH]; [reflexivity|]. cbn [map mapM]. now rewrite IH.
Qed.
Theorem starmap_scalar {A B} (f : list (tree A) -> res (tree B)) (sp : ndspec A) ls v r : one_level sp (map Node ls ++ Leaf v :: r) ->
  nd_starmap f sp = (ds <- mapM f ls ;; Err TypeError).
Proof.
  intros H. unfold nd_starmap. rewrite (map_one_level _ _ _ H). clear H.
  assert (G : mapM (fun item => match item with Leaf _ => Err TypeError | Node l => f l end) (map Node ls ++ Leaf v :: r) = (ds <- mapM f ls ;; Err TypeError)).
  { induction ls as [|l ls IH]; [reflexivity|]. cbn [map app mapM]. destruct (f l); [|reflexivity]. cbn [bind]. rewrite IH. destruct (mapM f ls); reflexivity. }
  rewrite G. destruct (mapM f ls); reflexivity.
Qed.
(** Lists of lists cut down to no list: the inner lengths must agree (np.empty takes no shape with -1). *)
Lemma expand_inner {A} (l : list (list (tree A))) : mapM (recursive_expand [-1]) (map Node l) = Ok (map (fun u => (Node u, [len u], false)) l).
Proof.
  assert (E : forall u : list (tree A), recursive_expand [-1] (Node u) = Ok (Node u, [len u], false)).
  { intros [|t u]; [reflexivity|]. cbn [recursive_expand]. rewrite (mapM_ok _ (fun t => (t, [], false))) by reflexivity. cbn [bind].
    assert (S : same_ndim (map (fun r => snd (fst r)) (map (fun t : tree A => (t, @nil Z, false)) (t :: u))) = true).
    { cbn. apply forallb_forall. intros s Hs. rewrite map_map in Hs. apply in_map_iff in Hs. destruct Hs as [v [<- _]]. reflexivity. }
    rewrite S. cbn [assertb bind]. assert (M : existsb snd (map (fun t : tree A => (t, @nil Z, false)) (t :: u)) = false).
    { clear. induction (t :: u) as [|v w IH]; [reflexivity|]. cbn [map existsb snd]. exact IH. }
    rewrite M. reflexivity. }
  induction l as [|u l IH]; [reflexivity|]. cbn [map mapM]. rewrite E. cbn [bind]. now rewrite IH.
Qed.
Theorem expand_to_none {A} (u : list (tree A)) l k : expand_ragged (Node (map Node (u :: l))) [len (u :: l); k] [0; -1] =
  if forallb (fun v => len v =? len u) l then Ok (Node [], [0; len u]) else Err ValueError.
Proof.
  assert (P : 1 <= len (u :: l)) by (unfold len; cbn; lia).
  unfold expand_ragged, all2. destruct (Z.eqb_spec (len (u :: l)) 0); [lia|]. cbn [andb].
  assert (Z0 : zero_length [len (u :: l); k] [0; -1] = false) by (unfold zero_length; cbn; now rewrite !andb_false_r).
  rewrite Z0. cbn [length Nat.ltb Nat.leb Nat.sub repeat app]. cbn [map].
  match goal with |- (r <- ?e ;; _) = _ => change e with
    (rs <- mapM (recursive_expand [-1]) (map Node (u :: l)) ;;
      let items := map (fun r => fst (fst r)) rs in
      let ss := map (fun r => snd (fst r)) rs in
      let modified := existsb snd rs in
      let arr := if modified then items else map Node (u :: l) in
      _ <- assertb (same_ndim ss) ;;
      let item_shape := common ss (head_ndim ss) in
      if (0 =? -1) || (0 =? len arr) then Ok (Node arr, len arr :: item_shape, modified)
      else if 0 =? 0 then
        if existsb (fun d => d <? 0) item_shape then Err ValueError else Ok (Node [], 0 :: item_shape, true)
      else match arr with
           | [c] => Ok (Node (repeat c (Z.to_nat 0)), 0 :: item_shape, true)
           | _ => Err ValueError
           end) end.
  rewrite expand_inner. cbn [bind].
  assert (M : existsb snd (map (fun u : list (tree A) => (Node u, [len u], false)) (u :: l)) = false).
  { clear. induction (u :: l) as [|v w IH]; [reflexivity|]. cbn [map existsb snd]. exact IH. }
  rewrite M, map_map. cbn [fst snd].
  assert (S : same_ndim (map (fun v : list (tree A) => [len v]) (u :: l)) = true).
  { cbn. apply forallb_forall. intros s Hs. apply in_map_iff in Hs. destruct Hs as [v [<- _]]. reflexivity. }
  rewrite S. cbn [assertb bind]. cbn [orb]. replace (0 =? len (map Node (u :: l))) with false by (symmetry; apply Z.eqb_neq; unfold len; rewrite map_length; cbn [length]; lia).
  change (0 =? -1) with false. cbn [orb]. change (0 =? 0) with true. cbn iota.
  cbn [head_ndim map length common seq agree]. unfold common. cbn [map seq agree].
  assert (Q : forallb (fun s' => nth 0 s' 0 =? nth 0 [len u] 0) (map (fun v : list (tree A) => [len v]) l) = forallb (fun v => len v =? len u) l).
  { clear. induction l as [|v l IH]; [reflexivity|]. cbn [map forallb]. f_equal. exact IH. }
  rewrite Q. destruct (forallb _ l); [|reflexivity]. cbn [nth existsb orb]. replace (len u <? 0) with false by (symmetry; apply Z.ltb_ge; unfold len; lia). reflexivity.
Qed.
