(** The specs consumed by Padder and the pooling modules ([nds], PadModel.v) are the NdSpec objects that
    the constructor builds from the documented argument formats. *)
From Verif Require Export NdApplyProofs PoolModel.
Open Scope Z_scope.

Lemma mapM_then {B C D} (h : B -> res C) (g : C -> D) l :
  mapM (fun i => w <- h i ;; Ok (g w)) l = (ds <- mapM h l ;; Ok (map g ds)).
Proof.
  induction l as [|i l IH]; [reflexivity|]. cbn [mapM]. rewrite IH. destruct (h i); cbn [bind]; [|reflexivity].
  destruct (mapM h l); reflexivity.
Qed.
Lemma mapM_Ok {B C} (f : B -> C) l : mapM (fun a => Ok (f a)) l = Ok (map f l).
Proof. induction l as [|a l IH]; [reflexivity|]. cbn [mapM bind map]. now rewrite IH. Qed.

Section K.
Context {A : Type}.

(** An NdSpec object with items [enc x]. *)
Definition represents {X} (enc : X -> tree A) (sp : ndspec A) (s : nds X) : Prop :=
  match s with
  | NItem x => nd_pos sp = 0%nat /\ nd_data sp = enc x
  | NList l => one_level sp (map enc l)
  end.
Definition shape_of (o : option Z) : list Z := match o with None => [] | Some n => [n] end.

Lemma pyidx_map {X Y} (g : X -> Y) l i : pyidx (map g l) i = (x <- pyidx l i ;; Ok (g x)).
Proof.
  unfold pyidx. rewrite map_length. destruct ((0 <=? _) && _); [|reflexivity]. rewrite nth_error_map.
  destruct (nth_error l _); reflexivity.
Qed.

Lemma copy_rep {X} (enc : X -> tree A) sp s item_shape : represents enc sp s -> exists sp', ndspec_copy sp item_shape = Ok sp' /\ represents enc sp' s.
Proof. intros H. exists sp. now split. Qed.
Lemma rep_get {X} (enc : X -> tree A) sp s i : represents enc sp s -> nd_get sp (KInt i) = (x <- nds_get s i ;; Ok (enc x)).
Proof.
  destruct s as [x|l]; cbn [represents nds_get bind].
  - intros [H <-]. unfold nd_get, nd_is_item. now rewrite H.
  - intros H. destruct (one_level_access _ _ H) as (_ & _ & _ & E & _). rewrite E. apply pyidx_map.
Qed.
Lemma rep_shape {X} (enc : X -> tree A) sp s : represents enc sp s -> nd_index_shape sp = shape_of (nds_ishape s).
Proof.
  destruct s as [x|l]; cbn [represents nds_ishape shape_of].
  - intros [H _]. unfold nd_index_shape. now rewrite H.
  - intros H. destruct (one_level_access _ _ H) as (_ & _ & E & _). rewrite E. unfold len. now rewrite map_length.
Qed.
Lemma rep_simple {X} (enc : X -> tree A) sp s : represents enc sp s -> simple sp.
Proof. destruct s as [x|l]; cbn [represents]; [intros [H _]; now left|intros H; right; eauto]. Qed.

Lemma agg_shapes_in l n : In n (agg_shapes l) <-> In (Some n) l.
Proof.
  induction l as [|[m|] l IH]; simpl; [tauto| |].
  - destruct (existsb (Z.eqb m) (agg_shapes l)) eqn:E.
    + rewrite IH. split; [auto|]. intros [H|H]; auto. injection H as ->. apply existsb_exists in E as (x & Hx & E).
      apply Z.eqb_eq in E. subst. now apply IH.
    + simpl. rewrite IH. split; intros [H|H]; auto; left; congruence.
  - rewrite IH. split; auto. intros [H|H]; [discriminate|auto].
Qed.
Lemma agg_shapes_nodup l : NoDup (agg_shapes l).
Proof.
  induction l as [|[m|] l IH]; simpl; [constructor| |auto].
  destruct (existsb (Z.eqb m) (agg_shapes l)) eqn:E; auto. constructor; auto. intros H.
  assert (existsb (Z.eqb m) (agg_shapes l) = true); [|congruence]. apply existsb_exists. exists m. split; auto. apply Z.eqb_refl.
Qed.

Lemma agg_link l : l <> [] -> agg_shape (map shape_of l) = (o <- agg_index_shape l ;; Ok (shape_of o)).
Proof.
  intros Hl. unfold agg_index_shape. pose proof (agg_shapes_in l) as IN. pose proof (agg_shapes_nodup l) as ND.
  destruct (agg_shapes l) as [|a [|b r]]; cbn [bind shape_of].
  - apply agg_shape_ok. assert (X : forall o, In o l -> o = None).
    { intros [n|] H; auto. apply IN in H. destruct H. }
    split; [destruct l as [|o l]; [congruence|]; left; rewrite (X o) by (now left); reflexivity|].
    intros s Hs. apply in_map_iff in Hs as (o & <- & Ho). rewrite (X o Ho). now left.
  - apply agg_shape_ok. split.
    + apply in_map_iff. exists (Some a). split; auto. apply IN. now left.
    + intros s Hs. apply in_map_iff in Hs as ([n|] & <- & Ho); [|now right]. left. apply IN in Ho. destruct Ho as [->|[]]. reflexivity.
  - apply agg_shape_no. intros s [Hs G]. assert (a <> b) by (inversion ND; subst; intros ->; simpl in *; tauto).
    destruct (G [a]) as [E|E]; [apply in_map_iff; exists (Some a); split; auto; apply IN; simpl; auto| |discriminate].
    destruct (G [b]) as [E'|E']; [apply in_map_iff; exists (Some b); split; auto; apply IN; simpl; auto| |discriminate]. congruence.
Qed.

(** agg_index_len over specs of any item types. *)
Lemma agg_len_link (sps : list (ndspec A)) (l : list (option Z)) : l <> [] ->
  map nd_index_shape sps = map shape_of l ->
  nd_agg_len sps None = agg_index_len l.
Proof.
  intros Hl E. unfold nd_agg_len, agg_index_len. cbn [bind]. rewrite E, agg_link by auto.
  destruct (agg_index_shape l) as [[n|]|]; reflexivity.
Qed.

Lemma map_link {X Y} (enc : X -> tree A) (enc' : Y -> tree A) (f : tree A -> res (tree A)) (g : X -> res Y) sp s :
  represents enc sp s -> (forall x, f (enc x) = (y <- g x ;; Ok (enc' y))) ->
  match nd_map f sp, PadModel.nds_map g s with
  | Ok sp', Ok s' => represents enc' sp' s'
  | Err e, Err e' => e = e'
  | _, _ => False
  end.
Proof.
  intros R H. destruct s as [x|l]; cbn [represents PadModel.nds_map] in *.
  - destruct R as [P D]. rewrite map_item by auto. rewrite D, H. destruct (g x); cbn [bind]; auto. split; reflexivity.
  - rewrite (map_one_level _ _ _ R).
    assert (E : mapM f (map enc l) = (ys <- mapM g l ;; Ok (map enc' ys))).
    { clear R. induction l as [|x l IH]; [reflexivity|]. cbn [map mapM]. rewrite H, IH. destruct (g x); cbn [bind]; [|reflexivity].
      destruct (mapM g l); reflexivity. }
    rewrite E. destruct (mapM g l) as [ys|]; cbn [bind]; auto. apply one_level_intro.
Qed.

(** NdSpec.apply on three specs (to_same, generic_pad.py:119-122). *)
Lemma apply3_link {X Y V W} (ex : X -> tree A) (ey : Y -> tree A) (ez : V -> tree A) (ew : W -> tree A) f g a b c sa sb sc :
  represents ex a sa -> represents ey b sb -> represents ez c sc ->
  (forall x y z, f [ex x; ey y; ez z] = (w <- g x y z ;; Ok (ew w))) ->
  match nd_apply f [a; b; c], nds_apply3 g sa sb sc with
  | Ok sp', Ok s' => represents ew sp' s'
  | Err e, Err e' => e = e'
  | _, _ => False
  end.
Proof.
  intros Ra Rb Rc H. pose proof (rep_shape _ _ _ Ra) as Sa. pose proof (rep_shape _ _ _ Rb) as Sb. pose proof (rep_shape _ _ _ Rc) as Sc.
  assert (Sim : Forall simple [a; b; c]) by (apply Forall_cons; [|apply Forall_cons; [|apply Forall_cons; [|apply Forall_nil]]]; eapply rep_simple; eauto).
  assert (AG : agg_shape (map nd_index_shape [a; b; c]) =
    (o <- agg_index_shape [nds_ishape sa; nds_ishape sb; nds_ishape sc] ;; Ok (shape_of o))).
  { rewrite <- agg_link by discriminate. cbn [map]. now rewrite Sa, Sb, Sc. }
  unfold nds_apply3. destruct (agg_index_shape [nds_ishape sa; nds_ishape sb; nds_ishape sc]) as [[n|]|e] eqn:EA; cbn [bind shape_of] in AG |- *.
  - apply agg_shape_ok in AG. rewrite (apply_one_level f _ n Sim AG). clear EA.
    assert (E : forall i, (items <- mapM (fun a0 => nd_get a0 (KInt i)) [a; b; c] ;; f items) =
       (w <- (x <- nds_get sa i ;; y <- nds_get sb i ;; z <- nds_get sc i ;; g x y z) ;; Ok (ew w))).
    { intros i. cbn [mapM]. rewrite (rep_get _ _ _ i Ra), (rep_get _ _ _ i Rb), (rep_get _ _ _ i Rc).
      destruct (nds_get sa i); cbn [bind]; [|reflexivity]. destruct (nds_get sb i); cbn [bind]; [|reflexivity].
      destruct (nds_get sc i); cbn [bind]; [|reflexivity]. apply H. }
    rewrite (mapM_ext _ _ _ (fun i _ => E i)).
    rewrite mapM_then.
    destruct (mapM _ (zrange n)) as [ds|]; cbn [bind]; auto. apply one_level_intro.
  - assert (Pos : Forall (fun a => nd_pos a = 0%nat) [a; b; c]).
    { apply agg_shape_ok in AG. destruct AG as [_ G]. apply Forall_forall. intros x Hx.
      destruct (proj1 (Forall_forall _ _) Sim x Hx) as [P|[l P]]; auto. destruct (one_level_access x l P) as (_ & _ & E' & _).
      destruct (G (nd_index_shape x)) as [Q|Q]; try (now apply in_map); rewrite E' in Q; discriminate. }
    rewrite apply_items by (auto; discriminate).
    assert (Get : forall X' (e' : X' -> tree A) sp s, represents e' sp s -> nd_pos sp = 0%nat -> exists x, s = NItem x /\ nd_data sp = e' x).
    { intros X' e' sp [x|l] R P; cbn [represents] in R; [exists x; tauto|]. destruct R as (_ & R & _). congruence. }
    inversion Pos as [|? ? P1 Pos1]; subst. inversion Pos1 as [|? ? P2 Pos2]; subst. inversion Pos2 as [|? ? P3 _]; subst.
    destruct (Get _ _ _ _ Ra P1) as (x & -> & Dx). destruct (Get _ _ _ _ Rb P2) as (y & -> & Dy). destruct (Get _ _ _ _ Rc P3) as (z & -> & Dz).
    cbn [map nds_get bind]. rewrite Dx, Dy, Dz, H. destruct (g x y z); cbn [bind]; auto. split; reflexivity.
  - apply agg_shape_err in AG as Q. unfold nd_apply. rewrite AG. cbn [bind]. subst e. reflexivity.
Qed.

(** * Argument formats *)
Definition pair_tree (p : A * A) : tree A := Node [Leaf (fst p); Leaf (snd p)].
Definition seq_tree (k : list A) : tree A := Node (map Leaf k).

Lemma complete_pair p : complete [2] (pair_tree p).
Proof. split; [reflexivity|]. intros [|k] Hk; [right; reflexivity|simpl in Hk; lia]. Qed.
Lemma ragged_leaves (k : list A) : ragged_shape (seq_tree k) = [len k].
Proof.
  destruct k as [|a k]; [reflexivity|]. unfold seq_tree. cbn [map]. rewrite ragged_node. cbv zeta.
  set (ss := map ragged_shape _). assert (H : forall s, In s ss -> length s = 0%nat).
  { intros s Hs. apply in_map_iff in Hs as (u & <- & Hu). change (Leaf a :: map Leaf k) with (map Leaf (a :: k)) in Hu.
    apply in_map_iff in Hu as (x & <- & _). reflexivity. }
  rewrite (same_ndim_intro ss 0 H). replace (head_ndim ss) with 0%nat by reflexivity. unfold len. cbn [length]. now rewrite map_length.
Qed.
Lemma complete_seq k : complete [-1] (seq_tree k).
Proof. split; [now rewrite ragged_leaves|]. intros [|j] Hj; [now left|simpl in Hj; lia]. Qed.

Lemma rep_complete {X} (enc : X -> tree A) is x : complete is (enc x) ->
  exists sp, ndspec_item (enc x) is = Ok sp /\ represents enc sp (NItem x).
Proof.
  intros H. unfold ndspec_item. rewrite expand_complete by auto. cbn [bind]. destruct H as [L _]. rewrite L, Nat.sub_diag.
  eexists. split; [reflexivity|]. split; reflexivity.
Qed.
Lemma rep_complete_list {X} (enc : X -> tree A) is l : is <> [] -> l <> [] -> (forall x, complete is (enc x)) ->
  exists sp, ndspec_item (Node (map enc l)) is = Ok sp /\ represents enc sp (NList l).
Proof.
  intros Hs Hl H. destruct (item_list_level is (map enc l)) as (sp & E & O); auto.
  - destruct l; [congruence|discriminate].
  - apply Forall_forall. intros t Ht. apply in_map_iff in Ht as (x & <- & _). auto.
  - exists sp. auto.
Qed.

(** before/after pairs (pad_width, constant_values, end_values, stat_length): item_shape = (2,) *)
Theorem pair_scalar a : exists sp, ndspec_item (Leaf a) [2] = Ok sp /\ represents pair_tree sp (NItem (a, a)).
Proof. eexists. split; [reflexivity|]. split; reflexivity. Qed.
Theorem pair_item p : exists sp, ndspec_item (pair_tree p) [2] = Ok sp /\ represents pair_tree sp (NItem p).
Proof. apply rep_complete, complete_pair. Qed.
Theorem pair_list l : l <> [] -> exists sp, ndspec_item (Node (map pair_tree l)) [2] = Ok sp /\ represents pair_tree sp (NList l).
Proof. intros Hl. apply rep_complete_list; auto; [discriminate|apply complete_pair]. Qed.
Lemma single_deep (a : A) : deep 1 (Node [Leaf a]).
Proof. intros [|k] u Hk Hu; [|lia]. destruct Hu as [<-|[]]. exists [Leaf a]. split; [auto|discriminate]. Qed.
Theorem pair_singletons l : l <> [] ->
  exists sp, ndspec_item (Node (map (fun a => Node [Leaf a]) l)) [2] = Ok sp /\ represents pair_tree sp (NList (map (fun a => (a, a)) l)).
Proof.
  intros Hl.
  destruct (item_list_broadcast [2] (map (fun a => Node [Leaf a]) l) (map (fun a => mkNd (pair_tree (a, a)) [2] 0) l)) as (sp & E & O).
  - destruct l; [congruence|discriminate].
  - discriminate.
  - constructor; [right; lia|constructor].
  - apply Forall_forall. intros t Ht. apply in_map_iff in Ht as (a & <- & _). split; [reflexivity|apply single_deep].
  - clear Hl. induction l as [|a l IH]; simpl; constructor; auto.
  - exists sp. split; auto. unfold represents. rewrite map_map in O |- *. exact O.
Qed.
(** A flat list of other than two values is rejected. *)
Theorem pair_bad k : len k <> 1 -> len k <> 2 -> ndspec_item (seq_tree k) [2] = Err ValueError.
Proof.
  intros H1 H2. destruct k as [|a k]; [reflexivity|].
  pose proof (expand_ragged_spec (seq_tree (a :: k)) [2]) as X. cbv zeta in X.
  specialize (X ltac:(constructor; [right; lia|constructor])). unfold ndspec_item.
  assert (D : deep (length (ragged_shape (seq_tree (a :: k)))) (seq_tree (a :: k))).
  { rewrite ragged_leaves. intros [|j] u Hj Hu; [|simpl in Hj; lia]. destruct Hu as [<-|[]]. exists (map Leaf (a :: k)). split; [auto|discriminate]. }
  specialize (X D). destruct (expand_ragged _ _ [2]) as [[r s]|e]; cbn [bind].
  - exfalso. destruct X as [X _]. unfold full_target, padded in X. rewrite ragged_leaves in X. cbn [length Nat.sub repeat app lift] in X.
    specialize (X 0%nat (map Leaf (a :: k)) ltac:(simpl; lia) ltac:(now left)). cbn [nth] in X.
    unfold len in *. rewrite map_length in X. lia.
  - now destruct X as [-> _].
Qed.

(** one kernel, or one per axis: item_shape = (-1,) *)
Theorem kernel_item k : exists sp, ndspec_item (seq_tree k) [-1] = Ok sp /\ represents seq_tree sp (NItem k).
Proof. apply rep_complete, complete_seq. Qed.
Theorem kernel_list l : l <> [] -> exists sp, ndspec_item (Node (map seq_tree l)) [-1] = Ok sp /\ represents seq_tree sp (NList l).
Proof. intros Hl. apply rep_complete_list; auto; [discriminate|apply complete_seq]. Qed.

(** scalars (mode, kernel_size, stride, in_shape): item_shape = () *)
Theorem scalar_item_rep a : exists sp, ndspec_item (Leaf a) [] = Ok sp /\ represents Leaf sp (NItem a).
Proof. eexists. split; [reflexivity|]. split; reflexivity. Qed.
Theorem scalar_list_rep l : exists sp, ndspec_item (Node (map Leaf l)) [] = Ok sp /\ represents Leaf sp (NList l).
Proof.
  exists (mkNd (Node (map Leaf l)) [len l] 1). split.
  - unfold ndspec_item, expand_ragged. pose proof (ragged_leaves l) as R. unfold seq_tree in R. rewrite R.
    change (all2 Z.eqb [len l] []) with false. cbv iota. rewrite zero_length_false by (intros i _ Hi; simpl in Hi; lia).
    cbn [length Nat.ltb Nat.leb Nat.sub repeat app]. rewrite recursive_expand_id.
    + cbn [bind fst]. rewrite R. reflexivity.
    + now rewrite R.
    + intros [|k] Hk; [now left|simpl in Hk; lia].
  - split; [reflexivity|]. split; [reflexivity|]. exists []. cbn [nd_shape]. unfold len. now rewrite map_length.
Qed.
End K.
