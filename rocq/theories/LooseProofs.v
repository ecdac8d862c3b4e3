(** get_ragged_ndarray with strict=False. *)
From Verif Require Export NdSpecProofs.
Open Scope Z_scope.

Section L.
Context {A : Type}.
Notation tr := (tree A).

Fixpoint leaves (t : tr) : list A := match t with Leaf a => [a] | Node l => flat_map leaves l end.
Definition maxl (l : list nat) : nat := fold_right Nat.max O l.
(** Nesting depth; an empty list counts as one level. *)
Fixpoint depth (t : tr) : nat := match t with Leaf _ => O | Node l => S (maxl (map depth l)) end.
(** All leaves at depth D, and nothing else ends there; only innermost lists may be empty. *)
Fixpoint even (D : nat) (t : tr) : Prop :=
  match D, t with
  | O, Leaf _ => True
  | S D', Node l => Forall (even D') l /\ (D' <> O -> l <> [])
  | _, _ => False
  end.

Lemma even_nodes D : forall t, even D t ->
  (forall u, In u (nodes_at D t) -> exists a, u = Leaf a) /\
  (forall k u, (k < D)%nat -> In u (nodes_at k t) -> exists l, u = Node l /\ (S k < D -> l <> [])%nat) /\
  (forall k, (k < D)%nat -> nodes_at k t <> []).
Proof.
  induction D as [|D IH]; intros [a|l] H; try contradiction.
  - split; [intros u [<-|[]]; eauto|]. split; intros; lia.
  - destruct H as [F N]. rewrite Forall_forall in F. split; [|split].
    + intros u Hu. apply in_nodes in Hu as (c & Hc & Hu). apply (IH c); auto.
    + intros [|k] u Hk Hu.
      * destruct Hu as [<-|[]]. exists l. split; auto. intros; apply N; lia.
      * apply in_nodes in Hu as (c & Hc & Hu). destruct (IH c (F c Hc)) as [_ [H _]]. destruct (H k u) as (l' & E & Nl); auto; [lia|].
        exists l'. split; auto. intros; apply Nl; lia.
    + intros [|k] Hk; [discriminate|]. destruct l as [|c l]; [exfalso; apply N; [lia|auto]|].
      simpl. intros E. apply app_eq_nil in E as [E _]. destruct (IH c (F c ltac:(now left))) as (_ & _ & H). apply (H k); [lia|auto].
Qed.

Lemma even_depth D : forall t, even D t -> depth t = D.
Proof.
  induction D as [|D IH]; intros [a|l] H; try contradiction; auto. destruct H as [F N]. cbn [depth]. f_equal.
  destruct l as [|c l].
  - destruct D; [reflexivity|]. exfalso. apply N; auto.
  - rewrite Forall_forall in F. assert (X : forall l', l' <> [] -> (forall u, In u l' -> even D u) -> maxl (map depth l') = D).
    { clear - IH. induction l' as [|u l' IH']; [congruence|]. intros _ H. unfold maxl in *. cbn [map fold_right].
      rewrite (IH u) by (apply H; now left). destruct l' as [|v l']; [simpl; lia|]. rewrite IH'; [lia|discriminate|intros; apply H; now right]. }
    apply X; [discriminate|auto].
Qed.

Lemma leaves_lift j : forall t : tr, leaves (lift j t) = leaves t.
Proof. induction j; intros t; [reflexivity|]. rewrite lift_S. cbn [leaves flat_map]. now rewrite IHj, app_nil_r. Qed.

Lemma loose_leaves (t : tr) : leaves (fst (ragged_loose t)) = leaves t.
Proof.
  induction t as [a|l IH] using tree_rect'; [reflexivity|]. cbn [ragged_loose].
  destruct (map snd (map ragged_loose l)) as [|s ss] eqn:E; [reflexivity|]. rewrite <- E.
  destruct (same_ndim _); [reflexivity|]. cbn [fst leaves]. generalize (max_ndim (map snd (map ragged_loose l))). intros nd. clear E.
  induction IH as [|c l H F IH']; [reflexivity|]. cbn [map flat_map]. rewrite leaves_lift, H. f_equal. exact IH'.
Qed.

Lemma max_ndim_map ss : max_ndim ss = maxl (map (@length Z) ss).
Proof. induction ss; simpl; auto. Qed.
Lemma maxl_same l n : l <> [] -> (forall x, In x l -> x = n) -> maxl l = n.
Proof.
  induction l as [|a l IH]; [congruence|]. intros _ H. unfold maxl in *. simpl. rewrite (H a) by now left.
  destruct l as [|b l]; [simpl; lia|]. rewrite IH; [lia|discriminate|]. intros x Hx. apply H. now right.
Qed.
Lemma maxl_le l x : In x l -> (x <= maxl l)%nat.
Proof. unfold maxl. induction l as [|a l IH]; simpl; [tauto|]. intros [->|H]; [lia|]. specialize (IH H). lia. Qed.

Lemma loose_depth (t : tr) : length (snd (ragged_loose t)) = depth t.
Proof.
  induction t as [a|l IH] using tree_rect'; [reflexivity|]. cbn [ragged_loose depth].
  assert (E : map (@length Z) (map snd (map ragged_loose l)) = map depth l).
  { rewrite !map_map. apply map_ext_in. rewrite Forall_forall in IH. auto. }
  destruct (map snd (map ragged_loose l)) as [|s ss]; [simpl in E; destruct l; [reflexivity|discriminate]|].
  set (SS := s :: ss) in *. rewrite <- E. destruct (same_ndim SS) eqn:Q; cbn [snd length]; rewrite common_length; f_equal.
  - symmetry. apply maxl_same; [discriminate|]. intros x Hx. apply in_map_iff in Hx as (y & <- & Hy). now apply same_ndim_spec.
  - apply max_ndim_map.
Qed.

Lemma even_lift j : forall D (t : tr), even D t -> even (j + D) (lift j t).
Proof.
  induction j; intros D t H; [exact H|]. rewrite lift_S. cbn [plus even]. split; [constructor; auto|discriminate].
Qed.

Lemma has_shape_lift j : forall (t : tr) s, has_shape t s -> has_shape (lift j t) (repeat 1 j ++ s).
Proof.
  induction j; intros t s H; [exact H|]. rewrite lift_S. cbn [repeat app]. specialize (IHj t s H).
  set (s' := repeat 1 j ++ s) in *. replace (1 :: s') with (len [lift j t] :: common [s'] (length s')) by now rewrite common_single.
  apply has_shape_node; [discriminate|reflexivity|].
  intros [|[|i]] c s0 Hc Hs; try discriminate. injection Hc as <-. injection Hs as <-. auto.
Qed.

Lemma even_loose D : forall t : tr, even D t -> ragged_loose t = (t, ragged_shape t).
Proof.
  induction D as [|D IH]; intros [a|l] H; try contradiction; [reflexivity|]. pose proof H as [F N]. cbn [ragged_loose].
  destruct l as [|c l]; [reflexivity|]. rewrite Forall_forall in F.
  assert (E : map ragged_loose (c :: l) = map (fun u => (u, ragged_shape u)) (c :: l)).
  { apply map_ext_in. intros u Hu. apply IH, F, Hu. }
  assert (E2 : map snd (map ragged_loose (c :: l)) = map ragged_shape (c :: l)) by (rewrite E, map_map; reflexivity).
  rewrite E2. rewrite ragged_node. cbv zeta. set (ss := map ragged_shape (c :: l)) in *.
  assert (S : same_ndim ss = true).
  { apply (same_ndim_intro ss D). intros s Hs. apply in_map_iff in Hs as (u & <- & Hu).
    pose proof (loose_depth u) as Q. rewrite (IH u (F u Hu)) in Q. cbn [snd] in Q. rewrite Q. apply even_depth, F, Hu. }
  rewrite S. reflexivity.
Qed.

(** One level of levelling. *)
Theorem loose_node (l : list tr) : l <> [] ->
  Forall (fun c => even (depth c) (fst (ragged_loose c)) /\ has_shape (fst (ragged_loose c)) (snd (ragged_loose c))) l ->
  (exists c c', In c l /\ In c' l /\ depth c <> depth c') \/ Forall (fun c => even (depth c) c) l ->
  even (depth (Node l)) (fst (ragged_loose (Node l))) /\ has_shape (fst (ragged_loose (Node l))) (snd (ragged_loose (Node l))).
Proof.
  intros Hl F H. cbn [ragged_loose].
  assert (E : map (@length Z) (map snd (map ragged_loose l)) = map depth l).
  { rewrite !map_map. apply map_ext. intros c. apply loose_depth. }
  destruct (map snd (map ragged_loose l)) as [|s0 ss] eqn:Q; [destruct l; [congruence|discriminate]|].
  rewrite <- Q in *. clear s0 ss Q. set (SS := map snd (map ragged_loose l)) in *.
  rewrite Forall_forall in F.
  assert (Hin : forall c, In c l -> In (snd (ragged_loose c)) SS).
  { intros c Hc. unfold SS. apply in_map, in_map, Hc. }
  destruct (same_ndim SS) eqn:S; cbn [fst snd].
  - assert (Sd : forall c, In c l -> depth c = head_ndim SS).
    { intros c Hc. rewrite <- loose_depth. now apply same_ndim_spec; auto. }
    destruct H as [(c & c' & Hc & Hc' & Ne)|H]; [exfalso; apply Ne; rewrite (Sd c), (Sd c'); auto|].
    rewrite Forall_forall in H. split.
    + cbn [depth even]. rewrite (maxl_same (map depth l) (head_ndim SS)).
      * split; [|intros; auto]. apply Forall_forall. intros c Hc. rewrite <- (Sd c Hc). auto.
      * destruct l; [congruence|discriminate].
      * intros x Hx. apply in_map_iff in Hx as (c & <- & Hc). auto.
    + apply has_shape_node; [auto|unfold SS; now rewrite !map_length|].
      intros i c s Hc Hs. unfold SS in Hs. rewrite !nth_error_map, Hc in Hs. injection Hs as <-.
      pose proof (nth_error_In _ _ Hc) as Hc'. destruct (F c Hc') as [_ X].
      rewrite (even_loose (depth c) c (H c Hc')) in X |- *. cbn [fst snd] in *. split; auto.
      pose proof (loose_depth c) as Lc. rewrite (even_loose (depth c) c (H c Hc')) in Lc. cbn [snd] in Lc. rewrite Lc, (Sd c Hc'). lia.
  - assert (M : max_ndim SS = maxl (map depth l)) by (rewrite max_ndim_map; now rewrite E).
    set (nd := max_ndim SS) in *. split.
    + cbn [depth even]. rewrite <- M. split.
      * apply Forall_forall. intros x Hx. apply in_map_iff in Hx as (r & <- & Hr). apply in_map_iff in Hr as (c & <- & Hc).
        rewrite loose_depth. assert (depth c <= nd)%nat by (rewrite M; apply maxl_le, in_map, Hc).
        replace nd with ((nd - depth c) + depth c)%nat at 1 by lia. apply even_lift. apply F, Hc.
      * intros _. destruct l; [congruence|discriminate].
    + rewrite map_map.
      replace (len l) with (len (map (fun x => lift (nd - length (snd (ragged_loose x))) (fst (ragged_loose x))) l)) by (unfold len; now rewrite map_length).
      apply has_shape_node; [destruct l; [congruence|discriminate]|unfold SS; now rewrite !map_length|].
      intros i c s Hc Hs. unfold SS in Hs. rewrite !nth_error_map in Hs. rewrite nth_error_map in Hc.
      destruct (nth_error l i) as [u|] eqn:Eu; [|discriminate]. cbn [option_map] in Hc, Hs. injection Hc as <-. injection Hs as <-.
      pose proof (nth_error_In _ _ Eu) as Hu. split; [apply has_shape_lift, F, Hu|].
      rewrite app_length, repeat_length. lia.
Qed.

(** A list of evenly nested items of any depths is levelled. *)
Theorem loose_even_items (l : list tr) : l <> [] -> Forall (fun c => even (depth c) c) l ->
  even (depth (Node l)) (fst (ragged_loose (Node l))) /\ has_shape (fst (ragged_loose (Node l))) (snd (ragged_loose (Node l))).
Proof.
  intros Hl F. apply loose_node; auto. apply Forall_forall. intros c Hc. rewrite Forall_forall in F.
  rewrite (even_loose (depth c)) by auto. cbn [fst snd]. split; auto. apply ragged_has_shape.
Qed.
End L.
