(** Padding works item by item along the axes it leaves alone. *)
From Verif Require Export PadFlip.
Open Scope Z_scope.

(** x' has n items along axis d: its item k is item g k of x (a selection, a reordering, a repetition). *)
Definition picked {F : ofield} (d : nat) (g : Z -> Z) (n : Z) (x x' : tensor F) : Prop :=
  shp x' = upd d n (shp x) /\ (forall k, 0 <= k < n -> 0 <= g k < nth d (shp x) 0) /\
  forall i, valid (shp x') i -> at_ x' i = at_ x (upd d (g (nth d i 0)) i).

Section Pick.
Variable F : ofield.
Notation T := (tensor F).
Variables (d : nat) (g : Z -> Z) (n : Z).

Lemma pick_valid (x x' : T) i : picked d g n x x' -> valid (shp x') i -> valid (shp x) (upd d (g (nth d i 0)) i).
Proof.
  intros [S [G _]] V. destruct (Nat.lt_ge_cases d (length (shp x))) as [H|H].
  - rewrite S in V. pose proof (valid_nth _ _ d V) as B. rewrite upd_length, nth_upd_eq in B by auto.
    replace (shp x) with (upd d (nth d (shp x) 0) (upd d n (shp x))) by (rewrite upd_upd; apply upd_nth). apply valid_upd; auto.
  - rewrite S in V. rewrite upd_over in V by lia. pose proof (valid_length _ _ V). rewrite upd_over by lia. exact V.
Qed.

Lemma pad1_pick (q : axis_params F) e c pb pa (x x' : T) : (c < length (shp x))%nat -> (d < length (shp x))%nat -> c <> d -> picked d g n x x' ->
  mode_ext (ap_mode q) (ap_before q) (ap_after q) (ap_const q) (ap_end q) (ap_stat q) = Some e ->
  1 <= nth c (shp x) 0 \/ ap_mode q = MConstant -> picked d g n (pad1 e c pb pa x) (pad1 e c pb pa x').
Proof.
  intros Hc Hd N [S1 [G E]] He Hn. unfold pad1, picked. cbn [shp at_]. rewrite S1. rewrite (nth_upd_ne d c) by auto.
  split; [now rewrite upd_comm by auto|]. split; [intros k Hk; rewrite nth_upd_ne by auto; now apply G|].
  intros j V. rewrite (nth_upd_ne d c) by auto.
  apply (mode_ext_extl F _ _ _ _ _ _ _ _ He).
  { destruct Hn as [Hn|Hn]; auto. right. now rewrite Hn. }
  intros u Hu. rewrite E.
  - rewrite (nth_upd_ne c d) by auto. now rewrite upd_comm by auto.
  - rewrite S1. eapply valid_upd_back; [exact V|]. now rewrite nth_upd_ne by auto.
Qed.
Lemma spec_axis_like (q : axis_params F) a (x x' s : T) : spec_axis q a x = Some s -> nth a (shp x') 0 = nth a (shp x) 0 ->
  (s = x /\ spec_axis q a x' = Some x') \/
  exists e pa, mode_ext (ap_mode q) (ap_before q) (ap_after q) (ap_const q) (ap_end q) (ap_stat q) = Some e /\
    (1 <= nth a (shp x) 0 \/ ap_mode q = MConstant) /\
    s = pad1 e a (ap_before q) pa x /\ spec_axis q a x' = Some (pad1 e a (ap_before q) pa x').
Proof.
  intros H Hy. unfold spec_axis in *. rewrite Hy. destruct (negb _) eqn:E0; [discriminate|]. bdestr.
  destruct ((ap_before q =? 0) && (ap_after q =? 0)) eqn:Ez; [inv H; left; auto|].
  destruct ((nth a (shp x) 0 <=? 0) && negb (empty_ok (ap_mode q))) eqn:En; [discriminate|].
  assert (Hn : 1 <= nth a (shp x) 0 \/ empty_ok (ap_mode q) = true).
  { apply andb_false_iff in En. destruct En as [En|En].
    - left. apply Z.leb_gt in En. lia.
    - right. now apply negb_false_iff in En. }
  destruct (ap_mode q) eqn:Em; try discriminate.
  all: cbn [mode_ext] in *; try discriminate.
  all: try (injection H as <-; right; eexists; eexists; split; [reflexivity|]; split; [|split; reflexivity];
    solve [destruct Hn as [Hn|Hn]; [now left|discriminate] | now right]).
  inv H. left. auto.
Qed.
Lemma spec_axes_pick (p : padder F) : forall rest (x x' s : T), NoDup rest ->
  (forall c, In c rest -> (c < length (shp x))%nat /\ c <> d) -> (d < length (shp x))%nat ->
  picked d g n x x' -> spec_axes p x rest = Some s ->
  exists s', spec_axes p x' rest = Some s' /\ picked d g n s s'.
Proof.
  induction rest as [|c rest IH]; intros x x' s Hn Hl Hd P Hs; cbn [spec_axes] in *.
  - inv Hs. eauto.
  - inv Hn. destruct (params p (length rest)) as [q|] eqn:Hq; [|discriminate].
    destruct (spec_axis q c x) as [x1|] eqn:Hx; [|discriminate].
    destruct (Hl c (or_introl eq_refl)) as [Hc Hcd].
    assert (St : exists x1', spec_axis q c x' = Some x1' /\ picked d g n x1 x1').
    { destruct (spec_axis_like q c x x' x1 Hx) as [[-> G]|[e [pa [He [Hn' [-> G]]]]]].
      - destruct P as [-> _]. now rewrite nth_upd_ne by auto.
      - exists x'. auto.
      - eexists. split; [exact G|]. eapply pad1_pick; eauto. }
    destruct St as (x1' & E1 & P1). rewrite E1.
    apply (IH x1 x1'); auto.
    + intros b Hb. rewrite (spec_axis_length F _ _ _ _ Hx). apply Hl. now right.
    + rewrite (spec_axis_length F _ _ _ _ Hx). auto.
Qed.

Theorem padding_pick fuel junk fuel' junk' (p : padder F) (x x' : T) ax al : pad_call fuel p x ax al -> pad_call fuel' p x' ax al -> all_fine F p x al ->
  (forall b q, axis_par p (last_axes p al) b = Some q -> is_empty_mode F (ap_mode q) = false) ->
  (d < ndim x)%nat -> ~ In d al -> picked d g n x x' ->
  exists y y', padder_forward fuel junk p x ax = Ok y /\ padder_forward fuel' junk' p x' ax = Ok y' /\ picked d g n y y'.
Proof.
  intros PC PC' AF NE Hd Nd P.
  destruct (pad_spec_some F p x al (pc_nodup _ _ _ _ _ PC) AF) as [s Hs].
  assert (ND : NoDup (last_axes p al)) by (apply last_axes_nodup, (pc_nodup _ _ _ _ _ PC)).
  destruct (spec_axes_pick p (last_axes p al) x x' s) as [s' [Hs' P']]; auto.
  { intros b Hb. apply last_axes_in in Hb. split; [now apply (pc_lt _ _ _ _ _ PC)|]. intros ->. auto. }
  assert (NE1 : no_empty_mode F p al) by (apply no_empty_by_par; auto; intros b q _ Hq; eapply NE; eauto).
  destruct (forward_call F fuel junk p x s ax al PC Hs) as [y [Y1 [_ [_ Y2]]]].
  assert (Hs2 : pad_spec p x' al = Some s') by exact Hs'.
  destruct (forward_call F fuel' junk' p x' s' ax al PC' Hs2) as [y' [Z1 [_ [_ Z2]]]].
  exists y, y'. split; [auto|]. split; [auto|]. destruct (Y2 NE1) as [A1 A2], (Z2 NE1) as [B1 B2]. pose proof P' as (E1 & E2 & E3).
  split; [congruence|]. split; [rewrite A1; auto|]. intros i V. rewrite B2 by auto. rewrite B1 in V. rewrite E3 by auto. symmetry. apply A2. rewrite A1.
  eapply pick_valid; eauto.
Qed.
End Pick.
