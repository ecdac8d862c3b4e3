(** Expansion of nested lists to a target shape. *)
From Verif Require Export RaggedProofs.
Open Scope Z_scope.

Section X.
Context {A : Type}.
Notation tr := (tree A).

(** All subtrees at depth less than D are non-empty lists. *)
Definition deep (D : nat) (t : tr) : Prop :=
  forall k u, (k < D)%nat -> In u (nodes_at k t) -> exists l, u = Node l /\ l <> [].
(** Every list down to the depth of the target has the asked length, or length one, or is left as it is. *)
Definition fits (ts : list Z) (t : tr) : Prop :=
  forall k l, (k < length ts)%nat -> In (Node l) (nodes_at k t) -> nth k ts 0 = -1 \/ nth k ts 0 = len l \/ len l = 1.

(** Subtree at a path, and the same where lists of length one answer every index. *)
Fixpoint get (p : list nat) (t : tr) : option tr :=
  match p with
  | [] => Some t
  | i :: p' => match t with
               | Leaf _ => None
               | Node l => match nth_error l i with Some c => get p' c | None => None end
               end
  end.
Fixpoint bget (p : list nat) (t : tr) : option tr :=
  match p with
  | [] => Some t
  | i :: p' => match t with
               | Leaf _ => None
               | Node [c] => bget p' c
               | Node l => match nth_error l i with Some c => bget p' c | None => None end
               end
  end.

Lemma deep_S D t : deep (S D) t <-> exists c l, t = Node (c :: l) /\ Forall (deep D) (c :: l).
Proof.
  split.
  - intros H. destruct (H 0%nat t) as (l & -> & Nl); [lia|simpl; auto|]. destruct l as [|c l]; [congruence|].
    exists c, l. split; auto. apply Forall_forall. intros d Hd k u Hk Hu. apply (H (S k) u); [lia|].
    apply in_nodes. eauto.
  - intros (c & l & -> & F) k u Hk Hu. destruct k as [|k].
    + destruct Hu as [<-|[]]. exists (c :: l). split; [auto|discriminate].
    + apply in_nodes in Hu as (d & Hd & Hu). rewrite Forall_forall in F. apply (F d Hd k u); auto. lia.
Qed.

Lemma fits_cons n ts l : fits (n :: ts) (Node l) <-> (n = -1 \/ n = len l \/ len l = 1) /\ Forall (fits ts) l.
Proof.
  split.
  - intros H. split.
    + apply (H 0%nat l); simpl; [lia|auto].
    + apply Forall_forall. intros c Hc k u Hk Hu. apply (H (S k) u); [simpl; lia|]. apply in_nodes. eauto.
  - intros [H F] k u Hk Hu. destruct k as [|k].
    + destruct Hu as [E|[]]. injection E as <-. exact H.
    + apply in_nodes in Hu as (c & Hc & Hu). rewrite Forall_forall in F. apply (F c Hc k u); auto. simpl in Hk. lia.
Qed.

Definition target_ok (n : Z) : Prop := n = -1 \/ 1 <= n.

(** What a successful expansion guarantees. *)
Definition expanded (ts : list Z) (t r : tr) (s : list Z) : Prop :=
  length s = length ts /\ has_shape r s /\ deep (length ts) r /\
  (forall k, (k < length ts)%nat -> nth k ts 0 <> -1 -> nth k s 0 = nth k ts 0) /\
  (forall p u, length p = length ts -> get p r = Some u -> bget p t = Some u) /\
  (forall p u, (length p < length ts)%nat -> get p r = Some u ->
     exists l l', bget p t = Some (Node l) /\ u = Node l' /\ (nth (length p) ts 0 = -1 -> length l' = length l)).

Lemma mapM_cases {B C} (f : B -> res C) (l : list B) :
  match mapM f l with
  | Ok r => Forall2 (fun a b => f a = Ok b) l r
  | Err e => exists a, In a l /\ f a = Err e
  end.
Proof.
  induction l as [|a l IH]; simpl; [constructor|]. destruct (f a) as [b|e] eqn:E; simpl; [|exists a; auto].
  destruct (mapM f l) as [r|e]; simpl; [constructor; auto|]. destruct IH as (x & Hx & Ex). eauto.
Qed.

Lemma Forall2_length {B C} (P : B -> C -> Prop) l r : Forall2 P l r -> length l = length r.
Proof. induction 1; simpl; congruence. Qed.
Lemma Forall2_nth {B C} (P : B -> C -> Prop) l r : Forall2 P l r ->
  forall i b, nth_error r i = Some b -> exists a, nth_error l i = Some a /\ P a b.
Proof. induction 1; intros [|i] b'; simpl; try discriminate; intros E; [injection E as <-; eauto|auto]. Qed.

Lemma Forall2_In_r {B C} (P : B -> C -> Prop) l r : Forall2 P l r -> forall b, In b r -> exists a, In a l /\ P a b.
Proof. induction 1; simpl; [tauto|]. intros b' [<-|Hb]; [eauto|]. destruct (IHForall2 b' Hb) as (a & Ha & Pa). eauto. Qed.
Lemma Forall2_In_l {B C} (P : B -> C -> Prop) l r : Forall2 P l r -> forall a, In a l -> exists b, In b r /\ P a b.
Proof. induction 1; simpl; [tauto|]. intros b' [<-|Hb]; [eauto|]. destruct (IHForall2 b' Hb) as (a & Ha & Pa). eauto. Qed.

Lemma nth_repeat_in {B} (b : B) n i x : nth_error (repeat b n) i = Some x -> x = b.
Proof. intros H. apply nth_error_In in H. now apply repeat_spec in H. Qed.

Lemma expanded_nil t : expanded [] t t [].
Proof.
  split; [reflexivity|]. split; [intros k Hk; simpl in Hk; lia|]. split; [intros k u Hk; simpl in Hk; lia|].
  split; [intros k Hk; simpl in Hk; lia|]. split.
  - intros [|i p] u Hp; [auto|discriminate].
  - intros p u Hp. simpl in Hp. lia.
Qed.

(** Items in place: same length. *)
Lemma expanded_keep n ts l rs ss : l <> [] -> n = -1 \/ n = len l ->
  Forall2 (fun c r => exists s, In s ss /\ expanded ts c r s) l rs ->
  Forall2 (fun r s => has_shape r s /\ length s = length ts) rs ss ->
  expanded (n :: ts) (Node l) (Node rs) (len rs :: common ss (length ts)).
Proof.
  intros Hl Hn F G.
  assert (Ll : length rs = length l) by (symmetry; eapply Forall2_length; eauto).
  assert (Hr : rs <> []) by (destruct rs; [destruct l; [congruence|discriminate]|discriminate]).
  assert (Hs : ss <> []) by (destruct G; congruence).
  split; [cbn [length]; now rewrite common_length|]. split; [|split; [|split; [|split]]].
  - apply has_shape_node; auto. { symmetry. eapply Forall2_length; eauto. }
    intros i c s Hc Hs'. destruct (Forall2_nth _ _ _ G i s Hs') as (c' & Hc' & H1 & H2).
    rewrite Hc in Hc'. injection Hc' as <-. split; auto. lia.
  - cbn [length]. destruct rs as [|r0 rs]; [congruence|]. apply deep_S. exists r0, rs. split; auto.
    apply Forall_forall. intros r Hrin. destruct (Forall2_In_r _ _ _ F r Hrin) as (c & _ & s & _ & X). apply X.
  - intros k Hk Hne. destruct k as [|k]; cbn [nth length] in *.
    + destruct Hn as [Hn|Hn]; [congruence|]. unfold len in *. congruence.
    + rewrite common_nth by lia. apply agree_all; auto. intros s Hsin.
      destruct (Forall2_In_r _ _ _ G s Hsin) as (r & Hrin & Hrs & Ls).
      destruct (Forall2_In_r _ _ _ F r Hrin) as (c & _ & s' & _ & X).
      assert (s = s') as ->. { apply (has_shape_unique r); auto; [apply X|]. rewrite Ls. symmetry. apply X. }
      apply X; auto. lia.
  - intros [|i p] u Lp; [discriminate|]. cbn [get]. destruct (nth_error rs i) as [r|] eqn:Ei; [|discriminate].
    intros Hu. destruct (Forall2_nth _ _ _ F i r Ei) as (c & Ec & s & _ & X).
    assert (Y : bget p c = Some u) by (apply X; auto; injection Lp; auto).
    cbn [bget]. destruct l as [|c0 [|c1 l]]; [congruence| |now rewrite Ec].
    destruct i as [|[|i]]; try discriminate. injection Ec as ->. exact Y.
  - intros [|i p] u Lp.
    + cbn [get bget]. intros E. injection E as <-. exists l, rs. auto.
    + cbn [get]. destruct (nth_error rs i) as [r|] eqn:Ei; [|discriminate].
      intros Hu. destruct (Forall2_nth _ _ _ F i r Ei) as (c & Ec & s & _ & X). cbn [length] in Lp.
      destruct X as (_ & _ & _ & _ & _ & X). destruct (X p u) as (x & x' & Hx & Hx' & Hl'); auto; [lia|].
      exists x, x'. split; [|split; auto].
      cbn [bget]. destruct l as [|c0 [|c1 l]]; [congruence| |now rewrite Ec].
      destruct i as [|[|i]]; try discriminate. injection Ec as ->. exact Hx.
Qed.

(** A single item repeated. *)
Lemma expanded_repeat n ts c r s : 1 <= n -> expanded ts c r s ->
  expanded (n :: ts) (Node [c]) (Node (repeat r (Z.to_nat n))) (n :: common [s] (length s)).
Proof.
  intros Hn (Ls & Hs & D & E & G & G').
  assert (Rep : repeat r (Z.to_nat n) <> []) by (destruct (Z.to_nat n) eqn:Q; [lia|discriminate]).
  assert (Lr : len (repeat r (Z.to_nat n)) = n) by (unfold len; rewrite repeat_length; lia).
  split; [cbn [length]; rewrite common_length; lia|]. split; [|split; [|split; [|split]]].
  - replace (n :: common [s] (length s)) with (len (repeat r (Z.to_nat n)) :: common (repeat s (Z.to_nat n)) (length s)).
    + apply has_shape_node; auto; [now rewrite !repeat_length|].
      intros i c' s' Hc Hs'. apply nth_repeat_in in Hc, Hs'. subst. auto.
    + rewrite Lr. f_equal. unfold common. apply map_ext. intros i. rewrite !(agree_all _ i (nth i s 0)); auto.
      * discriminate. * intros s' [<-|[]]; auto.
      * destruct (Z.to_nat n) eqn:Q; [lia|discriminate].
      * intros s' Hs'. apply repeat_spec in Hs'. now subst.
  - cbn [length]. destruct (repeat r (Z.to_nat n)) as [|r0 rs] eqn:Q; [congruence|]. apply deep_S. exists r0, rs. split; auto.
    apply Forall_forall. intros x Hx. rewrite <- Q in Hx. apply repeat_spec in Hx. now subst.
  - intros k Hk Hne. destruct k as [|k]; cbn [nth length] in *; auto. rewrite common_nth by lia.
    apply agree_all; [discriminate|]. intros s' [<-|[]]. apply E; auto. lia.
  - intros [|i p] u Lp; [discriminate|]. cbn [get bget]. destruct (nth_error _ i) as [x|] eqn:Ei; [|discriminate].
    apply nth_repeat_in in Ei. subst x. apply G. injection Lp; auto.
  - intros [|i p] u Lp.
    + cbn [get bget]. intros Q. injection Q as <-. exists [c], (repeat r (Z.to_nat n)). split; auto. split; auto. cbn [nth length]. lia.
    + cbn [get bget]. destruct (nth_error _ i) as [x|] eqn:Ei; [|discriminate].
      apply nth_repeat_in in Ei. subst x. intros Hu. cbn [length] in Lp. destruct (G' p u) as (x & x' & Hx); auto; [lia|].
      exists x, x'. exact Hx.
Qed.

Lemma expand_spec : forall ts t, Forall target_ok ts -> deep (length ts) t ->
  match recursive_expand ts t with
  | Ok (r, s, m) => fits ts t /\ expanded ts t r s /\ (m = false -> r = t)
  | Err e => e = ValueError /\ ~ fits ts t
  end.
Proof.
  induction ts as [|n ts IH]; intros t Ht Hd; cbn [recursive_expand].
  { split; [intros k l Hk; simpl in Hk; lia|]. split; [apply expanded_nil|auto]. }
  inversion Ht as [|n' ts' Hn Hts]; subst n' ts'. cbn [length] in Hd. apply deep_S in Hd as (c & l & -> & F).
  rewrite Forall_forall in F.
  pose proof (mapM_cases (recursive_expand ts) (c :: l)) as M.
  destruct (mapM (recursive_expand ts) (c :: l)) as [rs|e]; cbn [bind].
  2:{ destruct M as (u & Hu & Eu). specialize (IH u Hts (F u Hu)). rewrite Eu in IH. destruct IH as [-> Nf].
      split; auto. intros H. apply fits_cons in H as [_ H]. rewrite Forall_forall in H. auto. }
  set (ss := map (fun r => snd (fst r)) rs).
  assert (P : forall u r, recursive_expand ts u = Ok r -> In u (c :: l) ->
     fits ts u /\ expanded ts u (fst (fst r)) (snd (fst r)) /\ (snd r = false -> fst (fst r) = u)).
  { intros u [[r s] m] Eu Hu. specialize (IH u Hts (F u Hu)). now rewrite Eu in IH. }
  (* the array is the list of items *)
  assert (Arr : (if existsb snd rs then map (fun r => fst (fst r)) rs else c :: l) = map (fun r => fst (fst r)) rs).
  { destruct (existsb snd rs) eqn:E; auto. clear - M P E. revert rs M P E. induction (c :: l) as [|u us IH']; intros rs M P E.
    - inversion M; auto. - inversion M as [|? r ? rs' H1 H2]; subst. cbn [existsb map] in *. apply orb_false_iff in E as [E1 E2].
      f_equal. + symmetry. apply P; simpl; auto. + apply IH'; auto. intros v r' Hv Hin. apply P; simpl; auto. }
  rewrite Arr. set (items := map (fun r => fst (fst r)) rs).
  assert (Li : length items = length (c :: l)).
  { unfold items. rewrite map_length. symmetry. eapply Forall2_length; eauto. }
  assert (Fits : Forall (fits ts) (c :: l)).
  { apply Forall_forall. intros u Hu. destruct (Forall2_In_l _ _ _ M u Hu) as (r & _ & Er). apply (P u r Er Hu). }
  assert (Ssl : forall s, In s ss -> length s = length ts).
  { intros s Hs. apply in_map_iff in Hs as (r & <- & Hr). destruct (Forall2_In_r _ _ _ M r Hr) as (u & Hu & Er).
    apply (P u r Er Hu). }
  rewrite (same_ndim_intro ss (length ts) Ssl). cbn [assertb bind].
  assert (Hh : head_ndim ss = length ts).
  { destruct rs as [|r rs]; [inversion M|]. apply Ssl. now left. }
  assert (F2 : Forall2 (fun c r => exists s, In s ss /\ expanded ts c r s) (c :: l) items).
  { unfold items, ss. assert (Q : forall rs', incl rs' rs -> forall us, incl us (c :: l) -> Forall2 (fun a b => recursive_expand ts a = Ok b) us rs' ->
      Forall2 (fun c r => exists s, In s (map (fun r => snd (fst r)) rs) /\ expanded ts c r s) us (map (fun r => fst (fst r)) rs')).
    { induction rs' as [|r rs' IH']; intros Hi us Hu H; inversion H as [|? ? ? ? H2 H3]; subst; simpl; constructor.
      - exists (snd (fst r)). split; [apply in_map_iff; exists r; split; auto; apply Hi; now left|].
        destruct (P _ _ H2 (Hu _ ltac:(now left))) as [_ [X _]]. exact X.
      - apply IH'; auto; intros z Hz; [apply Hi|apply Hu]; now right. }
    apply Q; auto; intros z; auto. }
  assert (G2 : Forall2 (fun r s => has_shape r s /\ length s = length ts) items ss).
  { unfold items, ss. clear - M P. assert (Q : forall r, In r rs -> has_shape (fst (fst r)) (snd (fst r)) /\ length (snd (fst r)) = length ts).
    { intros r Hr. destruct (Forall2_In_r _ _ _ M r Hr) as (u & Hu & Er). destruct (P u r Er Hu) as (_ & X & _). split; apply X. }
    clear M P. induction rs as [|r rs IH']; simpl; constructor; [apply Q; now left|]. apply IH'. intros; apply Q; now right. }
  assert (Keep : forall m', n = -1 \/ n = len (c :: l) -> (m' = false -> items = c :: l) ->
    fits (n :: ts) (Node (c :: l)) /\ expanded (n :: ts) (Node (c :: l)) (Node items) (len items :: common ss (length ts)) /\
    (m' = false -> Node items = Node (c :: l))).
  { intros m' Hn' Hm. split; [apply fits_cons; split; [tauto|auto]|]. split; [|intros; f_equal; auto].
    apply expanded_keep; auto. discriminate. }
  assert (Lz : len items = len (c :: l)) by (unfold len; congruence).
  rewrite Lz, Hh. destruct ((n =? -1) || (n =? len (c :: l))) eqn:E.
  - rewrite <- Lz. apply Keep.
    + apply orb_true_iff in E as [E|E]; apply Z.eqb_eq in E; auto.
    + intros E'. unfold items. rewrite <- Arr. now rewrite E'.
  - apply orb_false_iff in E as [E1 E2]. apply Z.eqb_neq in E1, E2.
    destruct Hn as [Hn|Hn]; [congruence|]. replace (n =? 0) with false by (symmetry; apply Z.eqb_neq; lia).
    assert (Single : (exists x, items = [x] /\ l = [] ) \/ (exists x y z, items = x :: y :: z /\ l <> [])).
    { destruct items as [|x [|y z]], l as [|a l']; try discriminate; [left; eauto|right; exists x, y, z; split; [auto|discriminate]]. }
    destruct Single as [(x & Ei & ->)|(x & y & z & Ei & Hl)]; rewrite Ei.
    + split; [apply fits_cons; split; [right; right; reflexivity|auto]|]. split; [|discriminate].
      rewrite Ei in F2, G2. inversion F2 as [|? ? ? ? [s [Hs X]] _]; subst.
      inversion G2 as [|? s' ? ss' [X1 X2] Hnil]; subst. inversion Hnil; subst.
      assert (Hs' : In s [s']) by congruence. destruct Hs' as [<-|[]]. rewrite <- X2. apply expanded_repeat; auto.
    + split; [auto|]. intros Hf. apply fits_cons in Hf as [Hf _].
      destruct Hf as [Hf|[Hf|Hf]]; try congruence. apply Hl. destruct l; [auto|]. unfold len in Hf. simpl in Hf. lia.
Qed.
End X.
