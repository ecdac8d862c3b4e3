(** Statements used by PropsNdSpec.v. *)
From Verif Require Export LooseProofs NdLink.
Open Scope Z_scope.

(** Python list indexing in three cases. *)
Definition list_index {A} (l : list (tree A)) (get : Z -> res (tree A)) : Prop :=
  (forall k t, nth_error l k = Some t -> get (Z.of_nat k) = Ok t) /\
  (forall k t, nth_error l k = Some t -> get (Z.of_nat k - len l) = Ok t) /\
  (forall i, i < - len l \/ len l <= i -> get i = Err IndexError).

Lemma pyidx_list {A} (l : list (tree A)) get : (forall i, get i = pyidx l i) -> list_index l get.
Proof.
  intros H. unfold len. split; [|split].
  - intros k t E. rewrite H. pose proof (proj1 (nth_error_Some l k) ltac:(congruence)).
    rewrite (pyidx_nonneg _ _ t) by lia. rewrite Nat2Z.id. f_equal. now apply nth_error_nth.
  - intros k t E. rewrite H. pose proof (proj1 (nth_error_Some l k) ltac:(congruence)).
    rewrite (pyidx_neg _ _ t) by (unfold len in *; lia). f_equal. apply nth_error_nth. rewrite <- E. f_equal. unfold len in *. lia.
  - intros i Hi. rewrite H. now apply pyidx_err.
Qed.

Lemma C30_list_l {A} is (l : list (tree A)) : l <> [] -> is <> [] -> Forall (complete is) l ->
  exists sp, ndspec_item (Node l) is = Ok sp /\ nd_len sp = Ok (len l) /\ nd_iter sp = Ok l /\
    list_index l (fun i => nd_get sp (KInt i)) /\ list_index l (fun i => nd_get sp (KTuple [i])).
Proof.
  intros H1 H2 H3. destruct (item_list is l H1 H2 H3) as (sp & E & E1 & E2 & _ & E3 & E4 & _).
  exists sp. split; auto. split; auto. split; auto. split; apply pyidx_list; auto.
Qed.
Lemma C30_scalar_l {A} (l : list (tree A)) :
  exists sp, ndspec_item (Node l) [] = Ok sp /\ nd_len sp = Ok (len l) /\ nd_iter sp = Ok l /\
    list_index l (fun i => nd_get sp (KInt i)) /\ list_index l (fun i => nd_get sp (KTuple [i])).
Proof.
  destruct (scalar_list l) as (sp & E & _ & E1 & E2 & E3 & E4).
  exists sp. split; auto. split; auto. split; auto. split; apply pyidx_list; auto.
Qed.
Lemma C30_broadcast_l {A} is (l : list (tree A)) sps : l <> [] -> is <> [] -> Forall target_ok is ->
  Forall (fun c => length (ragged_shape c) = length is /\ deep (length is) c) l ->
  Forall2 (fun c sp => ndspec_item c is = Ok sp) l sps ->
  exists sp, ndspec_item (Node l) is = Ok sp /\ nd_len sp = Ok (len l) /\
    list_index (map nd_data sps) (fun i => nd_get sp (KInt i)).
Proof.
  intros H1 H2 H3 H4 H5. destruct (item_list_broadcast is l sps H1 H2 H3 H4 H5) as (sp & E & O).
  destruct (one_level_access _ _ O) as (E1 & _ & _ & E2 & _). exists sp. split; auto. split.
  - rewrite E1. unfold len. rewrite map_length. now rewrite <- (Forall2_length _ _ _ H5).
  - now apply pyidx_list.
Qed.

Lemma C33_l {A} (t : tree A) : has_shape t (ragged_shape t) /\
  forall s, has_shape t s -> length s = length (ragged_shape t) -> s = ragged_shape t.
Proof. split; [apply ragged_has_shape|]. intros s H L. apply (has_shape_unique t); auto. apply ragged_has_shape. Qed.

(** Every leaf is at depth D. *)
Definition levelled {A} (D : nat) (t : tree A) : Prop :=
  (forall u, In u (nodes_at D t) -> exists a, u = Leaf a) /\
  (forall k u, (k < D)%nat -> In u (nodes_at k t) -> exists l, u = Node l).
Lemma even_levelled {A} D (t : tree A) : even D t -> levelled D t.
Proof.
  intros H. destruct (even_nodes D t H) as (H1 & H2 & _). split; auto. intros k u Hk Hu.
  destruct (H2 k u Hk Hu) as (l & E & _). eauto.
Qed.
Lemma C34_leaves_l {A} (t : tree A) : leaves (fst (ragged_loose t)) = leaves t /\ length (snd (ragged_loose t)) = depth t.
Proof. split; [apply loose_leaves|apply loose_depth]. Qed.
Lemma C34_partial_l {A} (l : list (tree A)) : l <> [] -> Forall (fun c => even (depth c) c) l ->
  levelled (depth (Node l)) (fst (ragged_loose (Node l))) /\ has_shape (fst (ragged_loose (Node l))) (snd (ragged_loose (Node l))) /\
  leaves (fst (ragged_loose (Node l))) = leaves (Node l).
Proof.
  intros H1 H2. destruct (loose_even_items l H1 H2) as [H3 H4]. split; [now apply even_levelled|]. split; auto. apply loose_leaves.
Qed.
Lemma C34_node_partial_l {A} (l : list (tree A)) : l <> [] ->
  Forall (fun c => even (depth c) (fst (ragged_loose c)) /\ has_shape (fst (ragged_loose c)) (snd (ragged_loose c))) l ->
  (exists c c', In c l /\ In c' l /\ depth c <> depth c') ->
  even (depth (Node l)) (fst (ragged_loose (Node l))) /\ has_shape (fst (ragged_loose (Node l))) (snd (ragged_loose (Node l))).
Proof. intros H1 H2 H3. apply loose_node; auto. Qed.
Lemma C34_refuted_l : exists t : tree Z, ~ levelled (depth t) (fst (ragged_loose t)).
Proof.
  exists (Node [Node [Leaf 1; Node [Leaf 2]]]). intros [_ H]. destruct (H 2%nat (Leaf 1)) as [l E]; [simpl; lia| |discriminate].
  simpl. auto.
Qed.

Lemma C35_ok_l {A} (data : tree A) new r s :
  let old := ragged_shape data in
  Forall target_ok new -> deep (length old) data -> expand_ragged data old new = Ok (r, s) ->
  expanded (full_target old new) (padded data old new) r s.
Proof. intros old H1 H2 E. pose proof (expand_ragged_spec data new H1 H2) as X. cbv zeta in X. fold old in X. rewrite E in X. apply X. Qed.
Lemma C35_iff_l {A} (data : tree A) new :
  let old := ragged_shape data in
  Forall target_ok new -> deep (length old) data ->
  ((exists r s, expand_ragged data old new = Ok (r, s)) <-> fits (full_target old new) (padded data old new)) /\
  (~ fits (full_target old new) (padded data old new) -> expand_ragged data old new = Err ValueError).
Proof.
  intros old H1 H2. pose proof (expand_ragged_spec data new H1 H2) as X. cbv zeta in X. fold old in X.
  destruct (expand_ragged data old new) as [[r s]|e].
  - split; [split; [tauto|intros; eauto]|tauto].
  - destruct X as [-> X]. split; [split; [intros (r & s & E); discriminate|tauto]|auto].
Qed.
Lemma bget_lift {A} j : forall (t : tree A) p, (j <= length p)%nat -> bget p (lift j t) = bget (skipn j p) t.
Proof.
  induction j as [|j IH]; intros t p H; [reflexivity|]. destruct p as [|i p]; [simpl in H; lia|]. rewrite lift_S.
  cbn [bget skipn]. apply IH. simpl in H. lia.
Qed.
Lemma C35_mixed_refuted_l : exists (data r : tree Z) s, expand_ragged data (ragged_shape data) [2] = Ok (r, s) /\
  exists l, In (Node l) (nodes_at 1 r) /\ len l <> 2.
Proof.
  exists (Node [Node [Leaf 1]; Node []]). eexists. eexists. split; [reflexivity|]. exists []. split; [simpl; auto|discriminate].
Qed.
Lemma C35_zero_refuted_l : exists (data : tree Z), ragged_shape data = [3] /\ expand_ragged data (ragged_shape data) [0] = Ok (Node [], [0]).
Proof. exists (Node [Leaf 1; Leaf 2; Leaf 3]). split; reflexivity. Qed.

Lemma C31_ragged_refuted_l : exists (sp : ndspec Z), ndspec_item (Node [Node [Leaf 1; Leaf 2]; Node [Leaf 3]]) [] = Ok sp /\
  agrees (map nd_index_shape [sp]) (nd_index_shape sp) /\
  nd_apply (fun l => Ok (Node l)) [sp] = Err ValueError.
Proof.
  eexists. split; [reflexivity|]. split; [|reflexivity]. split; [now left|]. intros s [<-|[]]. now left.
Qed.
Lemma C32_depth_refuted_l : exists (sp : ndspec Z) (f : tree Z -> res (tree Z)),
  ndspec_item (Node [Node [Leaf 1]; Node [Leaf 2]]) [] = Ok sp /\ nd_index_shape sp = [2; 1] /\
  (forall t, exists v, f t = Ok v) /\ nd_map f sp = Err IndexError.
Proof.
  eexists. exists (fun t => match t with Leaf 2 => Ok (Node [Leaf 2]) | _ => Ok t end).
  split; [reflexivity|]. split; [reflexivity|]. split; [|reflexivity].
  intros [a|l]; [|eauto]. destruct (Z.eq_dec a 2) as [->|N]; [eauto|]. destruct a as [|[p|[p|p|]|]|p]; eauto.
Qed.
Lemma C31_args_l {A} (args : list (ndspec A)) s a : Forall wf args -> agrees (map nd_index_shape args) s -> In a args ->
  nd_pos a <> 0%nat -> forall p, inside p s -> exists u, nd_get a (KTuple p) = Ok u.
Proof.
  intros W [_ G] Ha Hp p Hin. rewrite Forall_forall in W. destruct (W a Ha) as [W1 W2].
  assert (Li : length (nd_index_shape a) = nd_pos a) by (unfold nd_index_shape; rewrite firstn_length; lia).
  destruct (G (nd_index_shape a)) as [E|E]; [now apply in_map| |rewrite E in Li; simpl in Li; congruence].
  rewrite nd_get_tuple; auto.
  - apply (idx_inside p _ s Hin). rewrite <- E at 1. rewrite Li, <- W1. exact E.
  - rewrite (Forall2_length _ _ _ Hin), <- E. exact Li.
Qed.

(** A scalar with a declared index shape of unknown lengths. *)
Lemma scalar_as_list : forall A (a : A) k, exists sp, ndspec_index (Leaf a) (repeat (-1) (S k)) = Ok sp /\
  nd_is_item sp = false /\ nd_len sp = Err IndexError /\ (forall i, nd_get sp (KInt i) = Err TypeError) /\
  nd_get sp (KTuple []) = Ok (Leaf a) /\ (forall i l, nd_get sp (KTuple (i :: l)) = Err IndexError).
Proof.
  intros A a k. exists (mkNd (Leaf a) [] (S k)). split.
  - unfold ndspec_index. cbn [ragged_shape].
    assert (E : forall m, check_index [] (repeat (-1) m) = Ok true).
    { induction m as [|m IH]; [reflexivity|]. cbn [repeat check_index]. exact IH. }
    change (ragged_shape (Leaf a)) with (@nil Z). rewrite E. cbn [bind]. now rewrite repeat_length.
  - repeat split.
Qed.

(** [index_shape] is checked from the left: the first entry that is not -1 and does not match decides. *)
Lemma index_shape_ends : forall A (d : tree A) is,
  let sh := ragged_shape d in
  let fine r := nth r is 0 = -1 \/ (r < length sh)%nat /\ nth r sh 0 = nth r is 0 in
  ((forall r, (r < length is)%nat -> fine r) -> ndspec_index d is = Ok (mkNd d sh (length is))) /\
  (forall r, (r < length is)%nat -> (forall r', (r' < r)%nat -> fine r') -> nth r is 0 <> -1 ->
     ((length sh <= r)%nat -> ndspec_index d is = Err IndexError) /\
     ((r < length sh)%nat -> nth r sh 0 <> nth r is 0 -> ndspec_index d is = Err ValueError)).
Proof.
  intros A d is sh fine.
  assert (OKC : forall is sh, (forall r, (r < length is)%nat -> nth r is 0 = -1 \/ (r < length sh)%nat /\ nth r sh 0 = nth r is 0) -> check_index sh is = Ok true).
  { clear. induction is as [|n is IH]; intros sh H; [reflexivity|]. cbn [check_index]. destruct (Z.eqb_spec n (-1)) as [->|N].
    - apply IH. intros r Hr. destruct (H (S r)) as [E|[E1 E2]]; [cbn; lia|now left|]. right. destruct sh; cbn in *; [lia|]. split; [lia|auto].
    - destruct (H 0%nat) as [E|[E1 E2]]; [cbn; lia|now cbn in E|]. destruct sh as [|s sh]; [cbn in E1; lia|]. cbn in E2. subst. rewrite Z.eqb_refl.
      apply IH. intros r Hr. destruct (H (S r)) as [E|[E3 E4]]; [cbn; lia|now left|]. right. cbn in *. split; [lia|auto]. }
  assert (BAD : forall is sh r, (r < length is)%nat -> (forall r', (r' < r)%nat -> nth r' is 0 = -1 \/ (r' < length sh)%nat /\ nth r' sh 0 = nth r' is 0) -> nth r is 0 <> -1 ->
     ((length sh <= r)%nat -> check_index sh is = Err IndexError) /\ ((r < length sh)%nat -> nth r sh 0 <> nth r is 0 -> check_index sh is = Ok false)).
  { clear. induction is as [|n is IH]; intros sh r Hr H N; [cbn in Hr; lia|]. cbn [check_index]. destruct r as [|r].
    - cbn in N. destruct (Z.eqb_spec n (-1)) as [|_]; [congruence|]. destruct sh as [|s sh]; cbn; [split; [auto|lia]|]. split; [lia|]. intros _ E. destruct (Z.eqb_spec s n); [congruence|auto].
    - destruct (Z.eqb_spec n (-1)) as [->|N'].
      + destruct (IH (tl sh) r) as [P Q]; [cbn in Hr; lia| |exact N|].
        * intros r' Hr'. destruct (H (S r')) as [E|[E1 E2]]; [lia|now left|]. right. destruct sh; cbn in *; [lia|]. split; [lia|auto].
        * split; intros; [apply P; destruct sh; cbn in *; lia|]. destruct sh; cbn in *; [lia|]. apply Q; [lia|auto].
      + destruct (H 0%nat) as [E|[E1 E2]]; [lia|now cbn in E|]. destruct sh as [|s sh]; [cbn in E1; lia|]. cbn in E2. subst. rewrite Z.eqb_refl.
        destruct (IH sh r) as [P Q]; [cbn in Hr; lia| |exact N|].
        * intros r' Hr'. destruct (H (S r')) as [E|[E3 E4]]; [lia|now left|]. right. cbn in *. split; [lia|auto].
        * cbn. split; intros; [apply P; lia|apply Q; [lia|auto]]. }
  unfold ndspec_index. fold sh. split; [intros H; now rewrite OKC|].
  intros r Hr H N. destruct (BAD is sh r Hr H N) as [P Q]. split; [intros L; now rewrite P|intros L E; now rewrite Q].
Qed.
