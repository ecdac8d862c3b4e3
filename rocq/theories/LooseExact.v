(** get_ragged_ndarray with strict=False: exactly which data come back levelled (C34). *)
From Verif Require Export NdPropLemmas.
Open Scope Z_scope.

Section LE.
Context {A : Type}.
Notation tr := (tree A).

(** Items of one depth at every node. *)
Definition alike (l : list tr) : Prop := forall c c', In c l -> In c' l -> depth c = depth c'.
(** A node whose items have one depth although its leaves do not, below nodes whose items differ in depth. *)
Inductive stuck : tr -> Prop :=
| stuck_here l : alike l -> ~ levelled (depth (Node l)) (Node l) -> stuck (Node l)
| stuck_below l c c' d : In c l -> In c' l -> depth c <> depth c' -> In d l -> stuck d -> stuck (Node l).

Fixpoint lev (D : nat) (t : tr) : Prop :=
  match D, t with O, Leaf _ => True | S D', Node l => Forall (lev D') l | _, _ => False end.
Lemma lev_levelled D : forall t, lev D t <-> levelled D t.
Proof.
  induction D as [|D IH]; intros [a|l]; cbn [lev].
  - split; auto. intros _. split; [intros u [<-|[]]; eauto|intros; lia].
  - split; [tauto|]. intros [H _]. destruct (H (Node l)) as [a E]; [now left|discriminate].
  - split; [tauto|]. intros [_ H]. destruct (H O (Leaf a)) as [u E]; [lia|now left|discriminate].
  - rewrite Forall_forall. split.
    + intros F. split.
      * intros u Hu. apply in_nodes in Hu as (c & Hc & Hu). destruct (proj1 (IH c) (F c Hc)) as [H _]. auto.
      * intros [|k] u Hk Hu; [destruct Hu as [<-|[]]; eauto|]. apply in_nodes in Hu as (c & Hc & Hu).
        destruct (proj1 (IH c) (F c Hc)) as [_ H]. apply (H k u); [lia|auto].
    + intros [H1 H2] c Hc. apply IH. split.
      * intros u Hu. apply H1. apply in_nodes. eauto.
      * intros k u Hk Hu. apply (H2 (S k)); [lia|]. apply in_nodes. eauto.
Qed.
Lemma lev_dec D : forall t, lev D t \/ ~ lev D t.
Proof.
  induction D as [|D IH]; intros [a|l]; cbn [lev]; auto.
  induction l as [|c l IHl]; [left; constructor|]. destruct (IH c) as [H|H].
  - destruct IHl as [G|G]; [left; now constructor|right; intros X; inversion X; auto].
  - right. intros X. inversion X; auto.
Qed.
Lemma lev_lift j : forall D t, lev (j + D) (lift j t) <-> lev D t.
Proof.
  induction j as [|j IH]; intros D t; [reflexivity|]. rewrite lift_S. cbn [Nat.add lev]. rewrite <- (IH D t).
  split; [intros H; now inversion H|intros H; constructor; auto].
Qed.
Lemma alike_spec (l : list tr) : same_ndim (map snd (map ragged_loose l)) = true <-> alike l.
Proof.
  assert (E : forall c : tr, In c l -> In (snd (ragged_loose c)) (map snd (map ragged_loose l))).
  { intros c Hc. apply in_map, in_map, Hc. }
  split.
  - intros S c c' Hc Hc'. rewrite <- !loose_depth. rewrite (same_ndim_spec _ _ S (E c Hc)), (same_ndim_spec _ _ S (E c' Hc')). reflexivity.
  - intros H. unfold same_ndim. destruct l as [|c0 l0]; [reflexivity|]. apply forallb_forall. intros s Hs.
    apply in_map_iff in Hs as (r & <- & Hr). apply in_map_iff in Hr as (c & <- & Hc). apply Nat.eqb_eq. cbn [map head_ndim].
    rewrite !loose_depth. apply H; [now right|now left].
Qed.

Theorem loose_exact (t : tr) : levelled (depth t) (fst (ragged_loose t)) <-> ~ stuck t.
Proof.
  rewrite <- lev_levelled. induction t as [a|l IH] using tree_rect'.
  { cbn. split; auto. intros _ X. inversion X. }
  rewrite Forall_forall in IH. destruct l as [|c0 l0].
  { cbn. split; [intros _ X; inversion X as [l0 _ N|? ? ? ? H]; subst; [|destruct H]|intros _; constructor].
    apply N. apply lev_levelled. cbn. constructor. }
  set (l := c0 :: l0) in *. assert (Ne : l <> []) by discriminate. clearbody l. clear c0 l0. cbn [ragged_loose].
  destruct (map snd (map ragged_loose l)) as [|s ss] eqn:Q; [destruct l; [congruence|discriminate]|]. rewrite <- Q in *.
  destruct (same_ndim (map snd (map ragged_loose l))) eqn:S; cbn [fst].
  - apply alike_spec in S. split.
    + intros H X. inversion X as [? _ N|? c c' d Hc Hc' D]; subst; [apply N; now apply lev_levelled|]. apply D. auto.
    + intros H. destruct (lev_dec (depth (Node l)) (Node l)) as [G|G]; auto. exfalso. apply H. constructor; auto.
      intros X. apply G. now apply lev_levelled.
  - assert (D : exists c c', In c l /\ In c' l /\ depth c <> depth c').
    { assert (N : ~ alike l) by (intros X; apply alike_spec in X; congruence). destruct l as [|c0 l0]; [congruence|].
      assert (forall l1 : list tr, (forall c, In c l1 -> depth c = depth c0) \/ exists c, In c l1 /\ depth c <> depth c0) as Dec.
      { induction l1 as [|c l1 IHl]; [left; intros ? []|]. destruct (Nat.eq_dec (depth c) (depth c0)) as [E|E].
        - destruct IHl as [G|[c1 [G1 G2]]]; [left; intros ? [<-|X]; auto|right; exists c1; split; [now right|auto]].
        - right. exists c. split; [now left|auto]. }
      destruct (Dec (c0 :: l0)) as [G|[c [G1 G2]]].
      - exfalso. apply N. intros c c' Hc Hc'. rewrite (G c Hc), (G c' Hc'). reflexivity.
      - exists c, c0. split; auto. split; [now left|auto]. }
    cbn [depth]. cbn [lev]. rewrite max_ndim_map.
    assert (E : map (@length Z) (map snd (map ragged_loose l)) = map depth l).
    { rewrite !map_map. apply map_ext. intros c. apply loose_depth. }
    rewrite E. set (nd := maxl (map depth l)).
    assert (L : forall c, In c l -> (lev nd (lift (nd - length (snd (ragged_loose c))) (fst (ragged_loose c))) <-> ~ stuck c)).
    { intros c Hc. rewrite loose_depth. assert (depth c <= nd)%nat by (apply maxl_le, in_map, Hc).
      replace nd with ((nd - depth c) + depth c)%nat at 1 by lia. rewrite lev_lift. auto. }
    rewrite Forall_forall. split.
    + intros H X. inversion X as [? Al _|? c c' d Hc Hc' _ Hd Sd]; subst.
      * destruct D as (c & c' & Hc & Hc' & Nd). apply Nd. auto.
      * revert Sd. apply L; auto. apply H. rewrite map_map. apply in_map_iff. exists d. auto.
    + intros H u Hu. rewrite map_map in Hu. apply in_map_iff in Hu as (c & <- & Hc). apply L; auto. intros X. apply H.
      destruct D as (c1 & c2 & H1 & H2 & Nd). exact (stuck_below l c1 c2 c H1 H2 Nd Hc X).
Qed.
End LE.

(** NdSpec.apply on arguments whose common index shape has a ragged axis (C31). *)
Theorem apply_ragged {A B} (f : list (tree A) -> res (tree B)) args s n : agrees (map nd_index_shape args) s -> In n s -> n < 0 ->
  nd_apply f args = Err ValueError.
Proof.
  intros G Hn Neg. unfold nd_apply. apply agg_shape_ok in G. rewrite G. cbn [bind]. destruct s as [|a s]; [destruct Hn|].
  assert (E : existsb (fun n => n <? 0) (a :: s) = true) by (apply existsb_exists; exists n; split; [auto|now apply Z.ltb_lt]).
  now rewrite E.
Qed.
(** NdSpec.agg_index_len in every case (C31). *)
Theorem agg_len_spec {A} (args : list (ndspec A)) allowed :
  (forall al a, allowed = Some al -> In a args -> ~ In (nd_pos a) al -> nd_agg_len args allowed = Err AssertionError) /\
  ((forall al a, allowed = Some al -> In a args -> In (nd_pos a) al) ->
    (forall s, agrees (map nd_index_shape args) s -> nd_agg_len args allowed = Ok (hd 0 s)) /\
    ((forall s, ~ agrees (map nd_index_shape args) s) -> nd_agg_len args allowed = Err ValueError)).
Proof.
  unfold nd_agg_len. split.
  - intros al a -> Ha N. assert (E : forallb (fun a => existsb (Nat.eqb (nd_pos a)) al) args = false).
    { destruct forallb eqn:Q; auto. rewrite forallb_forall in Q. specialize (Q a Ha). apply existsb_exists in Q as (k & Hk & E).
      apply Nat.eqb_eq in E. subst. contradiction. }
    now rewrite E.
  - intros H. assert (E : match allowed with None => Ok tt | Some al => assertb (forallb (fun a => existsb (Nat.eqb (nd_pos a)) al) args) end = Ok tt).
    { destruct allowed as [al|]; auto. assert (Q : forallb (fun a => existsb (Nat.eqb (nd_pos a)) al) args = true); [|now rewrite Q].
      apply forallb_forall. intros a Ha. apply existsb_exists. exists (nd_pos a). split; [eauto|apply Nat.eqb_refl]. }
    rewrite E. cbn [bind]. split.
    + intros s G. apply agg_shape_ok in G. rewrite G. now destruct s.
    + intros G. rewrite (agg_shape_no _ G). reflexivity.
Qed.
