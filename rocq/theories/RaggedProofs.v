(** Shape inference and expansion of nested lists. *)
From Verif Require Export NdSpecModel BaseLemmas.
Open Scope Z_scope.

Fixpoint tree_rect' {A} (P : tree A -> Prop) (HL : forall a, P (Leaf a)) (HN : forall l, Forall P l -> P (Node l)) (t : tree A) : P t :=
  match t with
  | Leaf a => HL a
  | Node l => HN l ((fix go l := match l return Forall P l with
                                 | [] => Forall_nil P
                                 | u :: r => Forall_cons u (tree_rect' P HL HN u) (go r)
                                 end) l)
  end.

(** * What a shape means *)

(** Subtrees at depth k. *)
Fixpoint nodes_at {A} (k : nat) (t : tree A) : list (tree A) :=
  match k with
  | O => [t]
  | S k' => match t with Leaf _ => [] | Node l => flat_map (nodes_at k') l end
  end.
(** All subtrees at depth k are lists, of length n; when n is -1 they do not all have the same length. *)
Definition lengths_at {A} (k : nat) (t : tree A) (n : Z) : Prop :=
  (forall u, In u (nodes_at k t) -> exists l, u = Node l /\ (n <> -1 -> len l = n)) /\
  (n = -1 -> exists l l', In (Node l) (nodes_at k t) /\ In (Node l') (nodes_at k t) /\ len l <> len l').
Definition has_shape {A} (t : tree A) (s : list Z) : Prop :=
  forall k, (k < length s)%nat -> nodes_at k t <> [] /\ lengths_at k t (nth k s 0).

Lemma len_nonneg {A} (l : list A) : 0 <= len l. Proof. unfold len. lia. Qed.

Lemma agree_all ss i v : ss <> [] -> (forall s, In s ss -> nth i s 0 = v) -> agree ss i = v.
Proof.
  destruct ss as [|s r]; [congruence|]. intros _ H. unfold agree.
  replace (forallb _ r) with true; [apply H; now left|]. symmetry. apply forallb_forall. intros s' Hs.
  rewrite (H s'), (H s) by (simpl; auto). apply Z.eqb_refl.
Qed.
Lemma agree_cases ss i : ss <> [] ->
  (forall s, In s ss -> nth i s 0 = agree ss i) \/
  (agree ss i = -1 /\ exists s s', In s ss /\ In s' ss /\ nth i s 0 <> nth i s' 0).
Proof.
  destruct ss as [|s r]; [congruence|]. intros _. unfold agree. destruct (forallb _ r) eqn:E.
  - left. rewrite forallb_forall in E. intros s' [<-|Hs]; auto. apply Z.eqb_eq, E, Hs.
  - right. split; auto. assert (X : exists s', In s' r /\ (nth i s' 0 =? nth i s 0) = false).
    { clear - E. induction r as [|a r IH]; [discriminate|]. simpl in E. apply andb_false_iff in E. destruct E as [E|E].
      - exists a. simpl; auto. - destruct (IH E) as (s' & H1 & H2). exists s'. simpl; auto. }
    destruct X as (s' & H1 & H2). apply Z.eqb_neq in H2. exists s', s. simpl; auto.
Qed.

Section S.
Context {A : Type}.
Notation tr := (tree A).

Lemma in_nodes k (l : list tr) u : In u (nodes_at (S k) (Node l)) <-> exists c, In c l /\ In u (nodes_at k c).
Proof. simpl. rewrite in_flat_map. reflexivity. Qed.

(** Combining the shapes of the items. *)
Lemma combine_shapes k (l : list tr) ss :
  l <> [] -> Forall2 (fun c s => nodes_at k c <> [] /\ lengths_at k c (nth k s 0)) l ss ->
  nodes_at (S k) (Node l) <> [] /\ lengths_at (S k) (Node l) (agree ss k).
Proof.
  intros Hl F.
  assert (Hss : ss <> []) by (destruct F; congruence).
  assert (G : forall c, In c l -> exists s, In s ss /\ nodes_at k c <> [] /\ lengths_at k c (nth k s 0)).
  { clear Hl Hss. induction F as [|c s l ss H F IH]; simpl; [tauto|]. intros c' [<-|Hc]; [exists s; auto|].
    destruct (IH c' Hc) as (s' & H1 & H2). eauto. }
  assert (G' : forall s, In s ss -> exists c, In c l /\ nodes_at k c <> [] /\ lengths_at k c (nth k s 0)).
  { clear Hl Hss G. induction F as [|c s l ss H F IH]; simpl; [tauto|]. intros s' [<-|Hc]; [exists c; auto|].
    destruct (IH s' Hc) as (c' & H1 & H2). eauto. }
  assert (NE : nodes_at (S k) (Node l) <> []).
  { destruct l as [|c l]; [congruence|]. destruct (G c) as (s & _ & H & _); [now left|]. intros E.
    simpl in E. apply app_eq_nil in E. tauto. }
  split; auto. destruct (agree_cases ss k Hss) as [Eq|[Em (s & s' & Hs & Hs' & Ne)]].
  - split.
    + intros u Hu. apply in_nodes in Hu as (c & Hc & Hu). destruct (G c Hc) as (s & Hs & _ & [L _]).
      rewrite (Eq s Hs) in L. apply L, Hu.
    + intros E. destruct l as [|c l]; [congruence|]. destruct (G c) as (s & Hs & _ & [_ L]); [now left|].
      rewrite (Eq s Hs) in L. destruct (L E) as (a & b & Ha & Hb & Hab). exists a, b.
      split; [apply in_nodes; exists c; simpl; auto|]. split; [apply in_nodes; exists c; simpl; auto|auto].
  - rewrite Em. split.
    + intros u Hu. apply in_nodes in Hu as (c & Hc & Hu). destruct (G c Hc) as (s0 & Hs0 & _ & [L _]).
      destruct (L u Hu) as (x & -> & _). exists x. split; auto. congruence.
    + intros _. destruct (G' s Hs) as (c & Hc & Nc & Lc). destruct (G' s' Hs') as (c' & Hc' & Nc' & Lc').
      (* one of the two already has different lengths, or take a node of each *)
      destruct (Z.eq_dec (nth k s 0) (-1)) as [E|E].
      { destruct (proj2 Lc E) as (a & b & Ha & Hb & Hab). exists a, b.
        split; [apply in_nodes; eauto|]. split; [apply in_nodes; eauto|auto]. }
      destruct (Z.eq_dec (nth k s' 0) (-1)) as [E'|E'].
      { destruct (proj2 Lc' E') as (a & b & Ha & Hb & Hab). exists a, b.
        split; [apply in_nodes; eauto|]. split; [apply in_nodes; eauto|auto]. }
      destruct (nodes_at k c) as [|u us] eqn:Eu; [congruence|]. destruct (nodes_at k c') as [|v vs] eqn:Ev; [congruence|].
      destruct Lc as [Lc _], Lc' as [Lc' _].
      destruct (Lc u) as (a & -> & Ha); [rewrite Eu; now left|]. destruct (Lc' v) as (b & -> & Hb); [rewrite Ev; now left|].
      exists a, b. split; [apply in_nodes; exists c; rewrite Eu; simpl; auto|].
      split; [apply in_nodes; exists c'; rewrite Ev; simpl; auto|]. rewrite Ha, Hb by auto. auto.
Qed.

Lemma common_length ss nd : length (common ss nd) = nd.
Proof. unfold common. now rewrite map_length, seq_length. Qed.
Lemma common_nth ss nd k : (k < nd)%nat -> nth k (common ss nd) 0 = agree ss k.
Proof.
  intros H. unfold common. rewrite (nth_indep _ 0 (agree ss 0)) by (rewrite map_length, seq_length; auto).
  rewrite map_nth, seq_nth by auto. reflexivity.
Qed.
Lemma same_ndim_spec ss s : same_ndim ss = true -> In s ss -> length s = head_ndim ss.
Proof.
  destruct ss as [|a r]; simpl; [tauto|]. intros H [<-|Hs]; auto. rewrite forallb_forall in H. apply Nat.eqb_eq, H, Hs.
Qed.
Lemma same_ndim_intro ss n : (forall s, In s ss -> length s = n) -> same_ndim ss = true.
Proof.
  destruct ss as [|a r]; simpl; auto. intros H. apply forallb_forall. intros s Hs. apply Nat.eqb_eq.
  rewrite (H s), (H a); auto.
Qed.

(** ragged_shape, one step *)
Lemma ragged_node (c : tr) l : let ss := map ragged_shape (c :: l) in
  ragged_shape (Node (c :: l)) = len (c :: l) :: common ss (if same_ndim ss then head_ndim ss else 0).
Proof. reflexivity. Qed.

Lemma has_shape_node (l : list tr) ss nd : l <> [] -> length ss = length l ->
  (forall i c s, nth_error l i = Some c -> nth_error ss i = Some s -> has_shape c s /\ (nd <= length s)%nat) ->
  has_shape (Node l) (len l :: common ss nd).
Proof.
  intros Hl Hlen H k Hk. cbn [length] in Hk. rewrite common_length in Hk. destruct k as [|k].
  - cbn [nth]. split; [discriminate|]. split.
    + intros u [<-|[]]. exists l. auto.
    + pose proof (len_nonneg l). lia.
  - cbn [nth]. rewrite common_nth by lia. apply combine_shapes; auto.
    assert (Hk' : (k < nd)%nat) by lia. clear Hl Hk.
    revert ss Hlen H. induction l as [|c l IH]; intros [|s ss]; simpl; try discriminate; intros Hlen H; constructor.
    + destruct (H 0%nat c s eq_refl eq_refl) as [H1 H2]. apply H1. lia.
    + apply IH; [lia|]. intros i. apply (H (S i)).
Qed.

Lemma ragged_has_shape (t : tr) : has_shape t (ragged_shape t).
Proof.
  induction t as [a|l IH] using tree_rect'.
  - intros k Hk. simpl in Hk. lia.
  - destruct l as [|c l].
    + intros k Hk. simpl in Hk. replace k with 0%nat by lia. simpl. split; [discriminate|]. split.
      * intros u [<-|[]]. exists []. auto. * lia.
    + rewrite ragged_node. cbv zeta. set (ss := map ragged_shape (c :: l)).
      apply has_shape_node; [discriminate|unfold ss; now rewrite map_length|].
      intros i c' s Hc Hs. unfold ss in Hs. rewrite nth_error_map, Hc in Hs. injection Hs as <-.
      pose proof (nth_error_In _ _ Hc) as Hin. split; [rewrite Forall_forall in IH; auto|].
      destruct (same_ndim ss) eqn:E; [|lia]. rewrite (same_ndim_spec ss (ragged_shape c') E); auto.
      unfold ss. now apply in_map.
Qed.

(** The reported depth: items of different depths count as leaves. *)
Lemma ragged_depth_node (c : tr) l :
  ((forall u, In u (c :: l) -> length (ragged_shape u) = length (ragged_shape c)) ->
     length (ragged_shape (Node (c :: l))) = S (length (ragged_shape c))) /\
  ((exists u, In u (c :: l) /\ length (ragged_shape u) <> length (ragged_shape c)) -> length (ragged_shape (Node (c :: l))) = 1%nat).
Proof.
  rewrite ragged_node. cbv zeta. cbn [length]. rewrite common_length. split.
  - intros H. rewrite (same_ndim_intro _ (length (ragged_shape c))); auto.
    intros s Hs. apply in_map_iff in Hs as (u & <- & Hu). auto.
  - intros (u & Hu & Ne). destruct (same_ndim _) eqn:E; auto. exfalso. apply Ne.
    now rewrite (same_ndim_spec _ (ragged_shape u) E) by (now apply in_map).
Qed.
End S.

Lemma has_shape_unique {A} (t : tree A) s s' : has_shape t s -> has_shape t s' -> length s = length s' -> s = s'.
Proof.
  intros H H' L. apply nth_ext with (d := 0) (d' := 0); auto. intros k Hk.
  destruct (H k Hk) as [N [L1 L2]]. destruct (H' k ltac:(lia)) as [_ [L1' L2']].
  destruct (nodes_at k t) as [|u us]; [congruence|].
  assert (X : forall n n' : Z,
     (forall v, In v (u :: us) -> exists l, v = Node l /\ (n <> -1 -> len l = n)) ->
     (forall v, In v (u :: us) -> exists l, v = Node l /\ (n' <> -1 -> len l = n')) ->
     (n = -1 -> exists l l', In (Node l) (u :: us) /\ In (Node l') (u :: us) /\ len l <> len l') ->
     (n' = -1 -> exists l l', In (Node l) (u :: us) /\ In (Node l') (u :: us) /\ len l <> len l') -> n = n').
  { intros n n' A1 A2 A3 A4. destruct (A1 u) as (l & -> & E1); [now left|]. destruct (A2 (Node l)) as (l' & E & E2); [now left|].
    injection E as <-. destruct (Z.eq_dec n (-1)) as [Q|Q], (Z.eq_dec n' (-1)) as [Q'|Q']; try congruence.
    - destruct (A3 Q) as (x & y & Hx & Hy & Nxy). destruct (A2 _ Hx) as (x' & Ex & Fx). destruct (A2 _ Hy) as (y' & Ey & Fy).
      injection Ex as <-. injection Ey as <-. exfalso. apply Nxy. rewrite Fx, Fy; auto.
    - destruct (A4 Q') as (x & y & Hx & Hy & Nxy). destruct (A1 _ Hx) as (x' & Ex & Fx). destruct (A1 _ Hy) as (y' & Ey & Fy).
      injection Ex as <-. injection Ey as <-. exfalso. apply Nxy. rewrite Fx, Fy; auto.
    - rewrite <- E1, <- E2; auto. }
  apply X; auto.
Qed.

(** * Expansion *)

Lemma mapM_const_ok {A B} (f : A -> res B) (g : A -> B) l : Forall (fun a => f a = Ok (g a)) l -> mapM f l = Ok (map g l).
Proof. intros H. apply mapM_ok. rewrite Forall_forall in H. auto. Qed.

Lemma forallb_map' {A B} (f : B -> bool) (g : A -> B) l : forallb f (map g l) = forallb (fun a => f (g a)) l.
Proof. induction l; simpl; congruence. Qed.

Lemma nth_firstn_lt {A} (d : A) : forall n k l, (k < n)%nat -> nth k (firstn n l) d = nth k l d.
Proof. induction n; intros k l H; [lia|]. destruct l; [reflexivity|]. destruct k; [reflexivity|]. simpl. apply IHn. lia. Qed.

Section E.
Context {A : Type}.
Notation tr := (tree A).

(** A target that asks for nothing else than what is there returns the data and their shape. *)
Lemma recursive_expand_id : forall ts (t : tr), length ts = length (ragged_shape t) ->
  (forall k, (k < length ts)%nat -> nth k ts 0 = -1 \/ nth k ts 0 = nth k (ragged_shape t) 0) ->
  recursive_expand ts t = Ok (t, ragged_shape t, false).
Proof.
  induction ts as [|n ts IH]; intros t L H; cbn [recursive_expand].
  - destruct (ragged_shape t); [reflexivity|discriminate].
  - destruct t as [a|[|c l]]; [discriminate|reflexivity|].
    rewrite ragged_node in L, H |- *. cbv zeta in L, H |- *. set (ss := map ragged_shape (c :: l)) in *.
    cbn [length] in L. rewrite common_length in L. apply eq_add_S in L.
    (* the items *)
    assert (G : Forall (fun u => recursive_expand ts u = Ok (u, firstn (length ts) (ragged_shape u), false)) (c :: l)).
    { apply Forall_forall. intros u Hu. destruct ts as [|n' ts].
      - reflexivity.
      - destruct (same_ndim ss) eqn:E; [|discriminate].
        assert (Lu : length (n' :: ts) = length (ragged_shape u)).
        { rewrite (same_ndim_spec ss (ragged_shape u) E); auto. unfold ss. now apply in_map. }
        rewrite IH; auto.
        + rewrite firstn_all2; auto. lia.
        + intros k Hk. specialize (H (S k) ltac:(cbn [length] in *; lia)).
          change (nth (S k) (n :: n' :: ts) 0) with (nth k (n' :: ts) 0) in H. cbn [nth] in H. rewrite common_nth in H by lia.
          destruct H as [H|H]; [now left|].
          assert (Ss : ss <> []) by discriminate.
          destruct (agree_cases ss k Ss) as [Eq|[Em _]].
          * right. rewrite (Eq (ragged_shape u)); auto. unfold ss. now apply in_map.
          * left. etransitivity; [exact H|exact Em]. }
    rewrite (mapM_const_ok _ _ _ G). cbn [bind]. rewrite !map_map. cbn [fst snd].
    rewrite map_id.
    replace (existsb snd (map (fun u => (u, firstn (length ts) (ragged_shape u), false)) (c :: l))) with false
      by (clear; induction (c :: l); simpl; auto).
    set (ss' := map (fun x => firstn (length ts) (ragged_shape x)) (c :: l)).
    assert (N' : forall s, In s ss' -> length s = length ts).
    { intros s Hs. apply in_map_iff in Hs as (u & <- & Hu). rewrite firstn_length.
      destruct ts as [|n' ts]; [reflexivity|]. destruct (same_ndim ss) eqn:E; [|discriminate].
      rewrite (same_ndim_spec ss (ragged_shape u) E) by (unfold ss; now apply in_map). lia. }
    rewrite (same_ndim_intro ss' (length ts) N'). cbn [assertb bind].
    replace (head_ndim ss') with (length ts).
    2:{ symmetry. apply (N' (firstn (length ts) (ragged_shape c))). now left. }
    assert (C : common ss' (length ts) = common ss (if same_ndim ss then head_ndim ss else 0)).
    { rewrite <- L. unfold common. apply map_ext_in. intros k Hk. apply in_seq in Hk.
      unfold agree, ss', ss. cbn [map]. rewrite forallb_map', forallb_map'.
      assert (Hn : forall u : tr, nth k (firstn (length ts) (ragged_shape u)) 0 = nth k (ragged_shape u) 0).
      { intros u. apply nth_firstn_lt. lia. }
      rewrite Hn. replace (forallb _ l) with (forallb (fun x => nth k (ragged_shape x) 0 =? nth k (ragged_shape c) 0) l); auto.
      clear - Hn. induction l; simpl; auto. now rewrite Hn, IHl. }
    rewrite C.
    destruct (H 0%nat) as [H0|H0]; [cbn [length]; lia| |].
    + cbn [nth] in H0. rewrite H0. reflexivity.
    + cbn [nth] in H0. rewrite H0, Z.eqb_refl. rewrite orb_true_r. reflexivity.
Qed.
End E.
