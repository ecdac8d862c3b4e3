(** The padding theorems in the form in which PropsPad.v states them. *)
From Verif Require Export PadderMore PadUtilProofs.

(** A call that pads the single axis a with parameters q. *)
Record one_axis {F : ofield} (fuel : nat) (p : padder F) (x : tensor F) (ax : axes_arg)
    (a : nat) (q : axis_params F) : Prop := {
  oa_shape : forall d, (d < ndim x)%nat -> 0 <= nth d (shp x) 0;
  oa_axes : check_axes (Z.of_nat (ndim x)) ax = Ok [Z.of_nat a];
  oa_lt : (a < ndim x)%nat;
  oa_par : params p 0 = Some q;
  oa_before : 0 <= ap_before q;
  oa_after : 0 <= ap_after q;
  oa_len : 1 <= nth a (shp x) 0 \/ empty_ok (ap_mode q) = true;
  oa_fuel : forall d, (d < ndim x)%nat -> nth d (shp x) 0 + ap_before q + ap_after q + 1 <= Z.of_nat fuel }.

(** Every padded axis has nonnegative widths and parameters satisfying P. *)
Definition all_axes {F : ofield} (p : padder F) (x : tensor F) (al : list nat)
    (P : axis_params F -> Z -> Prop) : Prop :=
  forall a, In a (last_axes p al) -> exists q, axis_par p (last_axes p al) a = Some q /\
    0 <= ap_before q /\ 0 <= ap_after q /\ P q (nth a (shp x) 0).

(** Shape with before + n + after on the padded axes. *)
Definition grown {F : ofield} (p : padder F) (al : list nat) (sh : list Z) : list Z :=
  map (fun d => match axis_par p (last_axes p al) d with
                | Some q => ap_before q + nth d sh 0 + ap_after q
                | None => nth d sh 0 end) (seq 0 (length sh)).
(** Index whose coordinates on the padded axes are c n (j_d - before). *)
Definition from {F : ofield} (c : Z -> Z -> Z) (p : padder F) (al : list nat) (sh j : list Z) : list Z :=
  map (fun d => match axis_par p (last_axes p al) d with
                | Some q => c (nth d sh 0) (nth d j 0 - ap_before q)
                | None => nth d j 0 end) (seq 0 (length sh)).

Section L.
Variable F : ofield.
Add Field Fpl : (f_field F).
Notation T := (tensor F).

Lemma nth_map_seq (f : nat -> Z) n d : (d < n)%nat -> nth d (map f (seq 0 n)) 0 = f d.
Proof.
  intros Hd. rewrite nth_indep with (d' := f 0%nat) by (now rewrite map_length, seq_length).
  rewrite map_nth. now rewrite seq_nth.
Qed.

Lemma out_shape_grown (p : padder F) (x : T) al : NoDup al ->
  (forall a q, axis_par p (last_axes p al) a = Some q -> ap_mode q <> MPeriodize) ->
  out_shape p (shp x) al = grown p al (shp x).
Proof.
  intros Hn H. apply list_ext with (d := 0).
  - unfold grown. now rewrite out_shape_length, map_length, seq_length.
  - rewrite out_shape_length. intros d Hd. unfold grown. rewrite nth_map_seq by auto.
    rewrite out_shape_par by auto. destruct (axis_par p (last_axes p al) d) as [q|] eqn:E; auto.
    unfold step_after. destruct ((ap_before q =? 0) && (ap_after q =? 0)) eqn:Ez; [bdestr; lia|].
    specialize (H d q E). destruct (ap_mode q); simpl; try lia. congruence.
Qed.

Lemma axis_par_some_in (p : padder F) rest a q : axis_par p rest a = Some q -> In a rest.
Proof.
  induction rest as [|b r IH]; simpl; [discriminate|]. destruct (Nat.eqb_spec a b); [subst; auto|]. auto.
Qed.

(** Modes that copy: one coordinate map for all the padded axes. *)
Theorem copy_mode fuel junk p (x : T) ax al (m : mode F) (c : Z -> Z -> Z) :
  m <> MPeriodize ->
  (forall n t, 1 <= n -> src_coord m n t = Some (c n t)) -> (forall n t, 0 <= t < n -> c n t = t) ->
  copies F m ->
  pad_call fuel p x ax al -> all_axes p x al (fun q n => ap_mode q = m /\ 1 <= n) ->
  exists y, padder_forward fuel junk p x ax = Ok y /\ shp y = grown p al (shp x) /\
    forall j, valid (shp y) j -> at_ y j = at_ x (from c p al (shp x) j).
Proof.
  intros Hm Hc Hid Hcp PC H.
  assert (Hq : forall a q, axis_par p (last_axes p al) a = Some q -> ap_mode q = m /\ 1 <= nth a (shp x) 0).
  { intros a q E. destruct (H a) as [q' [E' [_ [_ ?]]]]; [eapply axis_par_some_in; eauto|].
    assert (q = q') by congruence. now subst. }
  destruct (forward_copy F fuel junk p x ax al PC) as [y [Hy [Sy Ay]]].
  { intros a Ha. destruct (H a Ha) as [q [E [H1 [H2 [H3 H4]]]]]. exists q. rewrite H3. auto. }
  exists y. split; auto.
  assert (Eg : out_shape p (shp x) al = grown p al (shp x)).
  { apply out_shape_grown; [apply (pc_nodup _ _ _ _ _ PC)|]. intros a q E. destruct (Hq a q E). congruence. }
  rewrite <- Eg. split; auto. intros j V. rewrite Ay by auto. f_equal.
  unfold src_index, from. apply map_ext_in. intros d Hd. apply in_seq in Hd.
  destruct (axis_par p (last_axes p al) d) as [q|] eqn:E; auto. destruct (Hq d q E) as [Em Hn].
  unfold src_axis. rewrite Em, Hc by auto.
  destruct ((ap_before q =? 0) && (ap_after q =? 0)) eqn:Ez; auto. bdestr.
  rewrite Hid; [lia|]. rewrite Sy in V.
  assert (Hd' : (d < length (out_shape p (shp x) al))%nat) by (rewrite out_shape_length; lia).
  pose proof (valid_nth _ _ d V Hd') as Vd.
  rewrite Eg in Vd. unfold grown in Vd. rewrite nth_map_seq, E in Vd by lia. lia.
Qed.

Definition c_circular n t := t mod n.
Definition c_symmetric n t := let k := t mod (2 * n) in if k <? n then k else 2 * n - 1 - k.
Definition c_reflect n t := if n =? 1 then 0 else let k := t mod (2 * n - 2) in if k <? n then k else 2 * n - 2 - k.
Definition c_replicate n t := Z.max 0 (Z.min (n - 1) t).

Lemma circular_copy fuel junk p (x : T) ax al : pad_call fuel p x ax al ->
  all_axes p x al (fun q n => ap_mode q = MCircular /\ 1 <= n) ->
  exists y, padder_forward fuel junk p x ax = Ok y /\ shp y = grown p al (shp x) /\
    forall j, valid (shp y) j -> at_ y j = at_ x (from c_circular p al (shp x) j).
Proof.
  apply copy_mode; try discriminate; auto.
  - intros. unfold c_circular. now apply Z.mod_small.
Qed.
Lemma symmetric_copy fuel junk p (x : T) ax al : pad_call fuel p x ax al ->
  all_axes p x al (fun q n => ap_mode q = MSymmetric /\ 1 <= n) ->
  exists y, padder_forward fuel junk p x ax = Ok y /\ shp y = grown p al (shp x) /\
    forall j, valid (shp y) j -> at_ y j = at_ x (from c_symmetric p al (shp x) j).
Proof.
  apply copy_mode; try discriminate; auto.
  - intros. unfold c_symmetric. cbv zeta. rewrite Z.mod_small by lia. destruct (Z.ltb_spec t n); lia.
Qed.
Lemma reflect_copy fuel junk p (x : T) ax al : pad_call fuel p x ax al ->
  all_axes p x al (fun q n => ap_mode q = MReflect /\ 1 <= n) ->
  exists y, padder_forward fuel junk p x ax = Ok y /\ shp y = grown p al (shp x) /\
    forall j, valid (shp y) j -> at_ y j = at_ x (from c_reflect p al (shp x) j).
Proof.
  apply copy_mode; try discriminate; auto.
  - intros. unfold c_reflect. simpl. destruct (n =? 1); auto.
  - intros. unfold c_reflect. cbv zeta. destruct (Z.eqb_spec n 1); [lia|].
    rewrite Z.mod_small by lia. destruct (Z.ltb_spec t n); lia.
  - intros n t. simpl. destruct (n =? 1); discriminate.
Qed.
Lemma replicate_copy fuel junk p (x : T) ax al : pad_call fuel p x ax al ->
  all_axes p x al (fun q n => ap_mode q = MReplicate /\ 1 <= n) ->
  exists y, padder_forward fuel junk p x ax = Ok y /\ shp y = grown p al (shp x) /\
    forall j, valid (shp y) j -> at_ y j = at_ x (from c_replicate p al (shp x) j).
Proof.
  apply copy_mode; try discriminate; auto.
  - intros. unfold c_replicate. lia.
Qed.

(** One padded axis, any extension mode but periodize. *)
Theorem one_axis_ext fuel junk p (x : T) ax a q e : one_axis fuel p x ax a q ->
  ap_mode q <> MPeriodize ->
  mode_ext (ap_mode q) (ap_before q) (ap_after q) (ap_const q) (ap_end q) (ap_stat q) = Some e ->
  exists y, padder_forward fuel junk p x ax = Ok y /\
    shp y = upd a (ap_before q + nth a (shp x) 0 + ap_after q) (shp x) /\
    forall j, valid (shp y) j ->
      at_ y j = e (nth a (shp x) 0) (fun u => at_ x (upd a u j)) (nth a j 0 - ap_before q).
Proof.
  intros [H1 H2 H3 H4 H5 H6 H7 H8] Hm He.
  assert (Es : step_after F q (nth a (shp x) 0) = ap_after q).
  { unfold step_after. destruct ((ap_before q =? 0) && (ap_after q =? 0)) eqn:Ez; [bdestr; auto|].
    destruct (ap_mode q); simpl; try lia. congruence. }
  destruct (forward_axis F fuel junk p x ax a q e) as [y [Hy [Sy Ay]]]; auto.
  { unfold ndim in *; lia. }
  { intros d Hd. rewrite Es. specialize (H8 d Hd). destruct (Nat.eq_dec a d).
    - subst d. rewrite nth_upd_eq by auto. lia.
    - rewrite nth_upd_ne by auto. lia. }
  rewrite Es in Sy. eauto.
Qed.

Lemma mode_of q (x : T) fuel p ax a m e junk : one_axis fuel p x ax a q -> ap_mode q = m -> m <> MPeriodize ->
  mode_ext m (ap_before q) (ap_after q) (ap_const q) (ap_end q) (ap_stat q) = Some e ->
  exists y, padder_forward fuel junk p x ax = Ok y /\
    shp y = upd a (ap_before q + nth a (shp x) 0 + ap_after q) (shp x) /\
    forall j, valid (shp y) j ->
      at_ y j = e (nth a (shp x) 0) (fun u => at_ x (upd a u j)) (nth a j 0 - ap_before q).
Proof. intros. apply (one_axis_ext fuel junk p x ax a q e); auto; congruence. Qed.

(** The smooth extension in the three regions. *)
Lemma smooth_axis fuel junk p (x : T) ax a q : one_axis fuel p x ax a q -> ap_mode q = MSmooth ->
  exists y, padder_forward fuel junk p x ax = Ok y /\
    shp y = upd a (ap_before q + nth a (shp x) 0 + ap_after q) (shp x) /\
    forall j, valid (shp y) j ->
      let n := nth a (shp x) 0 in let t := nth a j 0 - ap_before q in let f u := at_ x (upd a u j) in
      (0 <= t < n -> at_ y j = f t) /\
      (n = 1 -> at_ y j = f 0) /\
      (forall d, 2 <= n -> 1 <= d -> t = - d -> at_ y j = (f 0%Z - fofZ d * (f 1%Z - f 0%Z))%F) /\
      (forall d, 2 <= n -> 1 <= d -> t = n - 1 + d ->
         at_ y j = (f (n - 1)%Z + fofZ d * (f (n - 1)%Z - f (n - 2)%Z))%F).
Proof.
  intros H Hm. destruct (mode_of q x fuel p ax a _ _ junk H Hm ltac:(discriminate) eq_refl) as [y [Hy [Sy Ay]]].
  exists y. split; auto. split; auto. intros j V n t f. specialize (Ay j V). fold n t in Ay.
  change (fun u => at_ x (upd a u j)) with f in Ay. rewrite Ay. unfold ext_smooth.
  split; [|split; [|split]].
  - intros. destruct (Z.eqb_spec n 1); [f_equal; lia|]. destruct (Z.ltb_spec t 0); [lia|]. destruct (Z.ltb_spec t n); [auto|lia].
  - intros ->. reflexivity.
  - intros d H1 H2 ->. destruct (Z.eqb_spec n 1); [lia|]. destruct (Z.ltb_spec (- d) 0); [|lia].
    rewrite fofZ_opp. ring.
  - intros d H1 H2 ->. destruct (Z.eqb_spec n 1); [lia|]. destruct (Z.ltb_spec (n - 1 + d) 0); [lia|].
    destruct (Z.ltb_spec (n - 1 + d) n); [lia|]. replace (n - 1 + d - (n - 1)) with d by lia. reflexivity.
Qed.

(** The ramp: equal steps, exact end value. *)
Lemma ramp_axis fuel junk p (x : T) ax a q : one_axis fuel p x ax a q -> ap_mode q = MLinearRamp ->
  exists y, padder_forward fuel junk p x ax = Ok y /\
    shp y = upd a (ap_before q + nth a (shp x) 0 + ap_after q) (shp x) /\
    forall j, valid (shp y) j ->
      let n := nth a (shp x) 0 in let t := nth a j 0 - ap_before q in let f u := at_ x (upd a u j) in
      let wb := ap_before q in let wa := ap_after q in
      let '(eb, ea) := ap_end q in
      (0 <= t < n -> at_ y j = f t) /\
      (forall d, 1 <= d -> t = - d -> at_ y j = (f 0%Z + fofZ d * ((eb - f 0%Z) / fofZ wb))%F) /\
      (forall d, 1 <= d -> t = n - 1 + d -> at_ y j = (f (n - 1)%Z + fofZ d * ((ea - f (n - 1)%Z) / fofZ wa))%F) /\
      (t = - wb -> 1 <= wb -> at_ y j = eb) /\
      (t = n - 1 + wa -> 1 <= wa -> at_ y j = ea).
Proof.
  intros H Hm. destruct (mode_of q x fuel p ax a _ _ junk H Hm ltac:(discriminate) eq_refl) as [y [Hy [Sy Ay]]].
  exists y. split; auto. split; auto. intros j V n t f wb wa. specialize (Ay j V). fold n t in Ay.
  change (fun u => at_ x (upd a u j)) with f in Ay. destruct (ap_end q) as [eb ea]. rewrite Ay. cbn [fst snd].
  fold wb wa. pose proof (oa_before _ _ _ _ _ _ H) as Hb. pose proof (oa_after _ _ _ _ _ _ H) as Ha. fold wb in Hb. fold wa in Ha.
  assert (Hn : 1 <= n). { destruct (oa_len _ _ _ _ _ _ H) as [E|E]; auto. rewrite Hm in E. discriminate. }
  pose proof (oa_lt _ _ _ _ _ _ H) as Hlt.
  assert (Ht : - wb <= t < n + wa).
  { pose proof (valid_nth _ _ a V) as Va. rewrite Sy in Va. rewrite upd_length, nth_upd_eq in Va by auto.
    specialize (Va Hlt). fold n wb wa in Va. unfold t. fold wb. lia. }
  assert (B : forall d, 1 <= d -> t = - d -> ext_linear_ramp wb wa eb ea n f t = (f 0%Z + fofZ d * ((eb - f 0%Z) / fofZ wb))%F).
  { intros d H1 H2. unfold ext_linear_ramp. destruct (Z.ltb_spec t 0); [|lia].
    replace (- t) with d by lia. field. apply fofZ_neq0. lia. }
  assert (A : forall d, 1 <= d -> t = n - 1 + d -> ext_linear_ramp wb wa eb ea n f t = (f (n - 1)%Z + fofZ d * ((ea - f (n - 1)%Z) / fofZ wa))%F).
  { intros d H1 H2. unfold ext_linear_ramp. destruct (Z.ltb_spec t 0); [lia|]. destruct (Z.ltb_spec t n); [lia|].
    replace (t - (n - 1)) with d by lia. field. apply fofZ_neq0. lia. }
  split; [|split; [|split; [|split]]]; auto.
  - intros. unfold ext_linear_ramp. destruct (Z.ltb_spec t 0); [lia|]. destruct (Z.ltb_spec t n); [auto|lia].
  - intros H1 H2. rewrite (B wb) by auto. field. apply fofZ_neq0. lia.
  - intros H1 H2. rewrite (A wa) by auto. field. apply fofZ_neq0. lia.
Qed.

(** Statistics. *)
Lemma clip_window_pos n w : 1 <= n -> 1 <= clip_window n w <= n.
Proof. unfold clip_window. destruct w; lia. Qed.
Definition first_window n w (f : Z -> F) : list F := map f (zrange (clip_window n w)).
Definition last_window n w (f : Z -> F) : list F := map (fun k => f (n - clip_window n w + k)) (zrange (clip_window n w)).
Lemma window_nonempty (g : Z -> F) m : 1 <= m -> map g (zrange m) <> [].
Proof. intros H E. apply map_eq_nil in E. assert (In 0 (zrange m)) by (apply In_zrange; lia). rewrite E in H0. destruct H0. Qed.

Lemma stat_axis fuel junk p (x : T) ax a q s : one_axis fuel p x ax a q -> ap_mode q = MStat s ->
  exists y, padder_forward fuel junk p x ax = Ok y /\
    shp y = upd a (ap_before q + nth a (shp x) 0 + ap_after q) (shp x) /\
    forall j, valid (shp y) j ->
      let n := nth a (shp x) 0 in let t := nth a j 0 - ap_before q in let f u := at_ x (upd a u j) in
      (0 <= t < n -> at_ y j = f t) /\
      (t < 0 -> stat_rel F s (first_window n (fst (ap_stat q)) f) (at_ y j)) /\
      (n <= t -> stat_rel F s (last_window n (snd (ap_stat q)) f) (at_ y j)).
Proof.
  intros H Hm. destruct (mode_of q x fuel p ax a _ _ junk H Hm ltac:(discriminate) eq_refl) as [y [Hy [Sy Ay]]].
  exists y. split; auto. split; auto. intros j V n t f. specialize (Ay j V). fold n t in Ay.
  change (fun u => at_ x (upd a u j)) with f in Ay. rewrite Ay.
  assert (Hn : 1 <= n). { destruct (oa_len _ _ _ _ _ _ H) as [E|E]; auto. rewrite Hm in E. discriminate. }
  unfold ext_stat. split; [|split].
  - intros. destruct (Z.ltb_spec t 0); [lia|]. destruct (Z.ltb_spec t n); [auto|lia].
  - intros. destruct (Z.ltb_spec t 0); [|lia]. apply stat_fun_rel, window_nonempty, clip_window_pos. auto.
  - intros. destruct (Z.ltb_spec t 0); [lia|]. destruct (Z.ltb_spec t n); [lia|].
    apply stat_fun_rel, window_nonempty, clip_window_pos. auto.
Qed.
(** Relational statistics determine their value. *)
Lemma stat_bounds s (l : list F) v : l <> [] -> stat_rel F s l v ->
  (exists lo, is_min l lo /\ fle lo v) /\ (exists hi, is_max l hi /\ fle v hi).
Proof. apply stat_rel_bounds. Qed.

Lemma constant_axis fuel junk p (x : T) ax a q : one_axis fuel p x ax a q -> ap_mode q = MConstant ->
  exists y, padder_forward fuel junk p x ax = Ok y /\
    shp y = upd a (ap_before q + nth a (shp x) 0 + ap_after q) (shp x) /\
    forall j, valid (shp y) j ->
      let n := nth a (shp x) 0 in let t := nth a j 0 - ap_before q in
      (t < 0 -> at_ y j = fst (ap_const q)) /\
      (0 <= t < n -> at_ y j = at_ x (upd a t j)) /\
      (n <= t -> at_ y j = snd (ap_const q)).
Proof.
  intros H Hm. destruct (mode_of q x fuel p ax a _ _ junk H Hm ltac:(discriminate) eq_refl) as [y [Hy [Sy Ay]]].
  exists y. split; auto. split; auto. intros j V n t. specialize (Ay j V). fold n t in Ay. rewrite Ay.
  unfold ext_constant. pose proof (oa_shape _ _ _ _ _ _ H a (oa_lt _ _ _ _ _ _ H)) as H0. fold n in H0.
  split; [|split]; intros; destruct (Z.ltb_spec t 0); try lia; auto; destruct (Z.ltb_spec t n); try lia; auto.
Qed.

(** Constant padding of several axes: the last padded axis that j leaves decides. *)
Fixpoint const_at (p : padder F) (sh : list Z) (rest : list nat) (j : list Z) (inner : F) : F :=
  match rest with
  | [] => inner
  | a :: r =>
    const_at p sh r j
      match params p (length r) with
      | None => inner
      | Some q => let t := nth a j 0 - ap_before q in
                  if t <? 0 then fst (ap_const q) else if t <? nth a sh 0 then inner else snd (ap_const q)
      end
  end.

Lemma spec_axes_constant (p : padder F) : forall rest (x s : T), NoDup rest ->
  (forall a, In a rest -> (a < length (shp x))%nat) ->
  (forall a q, axis_par p rest a = Some q -> ap_mode q = MConstant) ->
  spec_axes p x rest = Some s ->
  forall j, valid (shp s) j ->
  at_ s j = const_at p (shp x) rest j (at_ x (map (fun d => match axis_par p rest d with Some q => nth d j 0 - ap_before q | None => nth d j 0 end) (seq 0 (length (shp x))))).
Proof.
  induction rest as [|a r IH]; intros x s Hn Hlt Hm Hs j V.
  - simpl in *. inv Hs. f_equal. apply list_ext with (d := 0).
    + rewrite map_length, seq_length. symmetry. symmetry. apply valid_length in V. auto.
    + intros d Hd. rewrite nth_map_seq; auto. apply valid_length in V. lia.
  - simpl in Hs. inv Hn. destruct (params p (length r)) as [q|] eqn:Hq; [|discriminate].
    destruct (spec_axis q a x) as [x1|] eqn:Hx1; [|discriminate].
    assert (Hqm : ap_mode q = MConstant).
    { apply (Hm a). simpl. now rewrite Nat.eqb_refl. }
    assert (Ha : (a < length (shp x))%nat) by (apply Hlt; now left).
    pose proof (spec_axis_length F q a x x1 Hx1) as L1.
    assert (Hm' : forall b q', axis_par p r b = Some q' -> ap_mode q' = MConstant).
    { intros b q' E. apply (Hm b). simpl. destruct (Nat.eqb_spec b a); auto. subst b.
      exfalso. apply H1. eapply axis_par_some_in; eauto. }
    assert (Hsame : forall d, d <> a -> nth d (shp x1) 0 = nth d (shp x) 0) by (intros; eapply spec_axis_shape; eauto).
    rewrite (IH x1 s); auto; [|intros; rewrite L1; apply Hlt; now right].
    cbn [const_at]. rewrite Hq. rewrite L1.
    assert (Cst : forall l (v : F), ~ In a l -> const_at p (shp x1) l j v = const_at p (shp x) l j v).
    { clear - Hsame. induction l as [|b l IHl]; simpl; intros; auto.
      rewrite IHl by tauto. f_equal. rewrite Hsame; auto. }
    rewrite Cst by auto. f_equal.
    set (k := map (fun d => match axis_par p r d with Some q => nth d j 0 - ap_before q | None => nth d j 0 end) (seq 0 (length (shp x)))).
    assert (Nk : nth a k 0 = nth a j 0).
    { unfold k. rewrite nth_map_seq by auto. now rewrite axis_par_notin. }
    assert (Ek : map (fun d => match axis_par p (a :: r) d with Some q => nth d j 0 - ap_before q | None => nth d j 0 end) (seq 0 (length (shp x)))
        = upd a (nth a j 0 - ap_before q) k).
    { apply list_ext with (d := 0).
      - unfold k. rewrite upd_length, !map_length, !seq_length. auto.
      - rewrite map_length, seq_length. intros d Hd. rewrite nth_map_seq by auto. simpl.
        destruct (Nat.eqb_spec d a).
        + subst d. rewrite Hq, nth_upd_eq; auto. unfold k. now rewrite map_length, seq_length.
        + rewrite nth_upd_ne by auto. unfold k. now rewrite nth_map_seq. }
    rewrite Ek. clear Ek.
    unfold spec_axis in Hx1. rewrite Hqm in Hx1.
    destruct ((0 <=? ap_before q) && (0 <=? ap_after q)) eqn:Ep; [|discriminate]. cbn [negb] in Hx1. bdestr.
    destruct ((ap_before q =? 0) && (ap_after q =? 0)) eqn:Ez.
    + injection Hx1 as <-. bdestr.
      assert (Va : 0 <= nth a j 0 < nth a (shp x) 0).
      { assert (Es : nth a (shp s) 0 = nth a (shp x) 0 /\ length (shp s) = length (shp x)).
        { clear - Hs H1. revert x Hs. induction r as [|b r IHr]; simpl; intros x Hs; [inv Hs; auto|].
          destruct (params p (length r)) as [q'|]; [|discriminate]. destruct (spec_axis q' b x) as [x2|] eqn:E; [|discriminate].
          destruct (IHr ltac:(simpl in H1; tauto) x2 Hs) as [E1 E2]. rewrite E1, E2.
          split; [eapply spec_axis_shape; eauto; simpl in H1; intros ->; tauto|eapply spec_axis_length; eauto]. }
        destruct Es as [Es Ls]. rewrite <- Es. apply (valid_nth _ _ a V). lia. }
      rewrite H3, Z.sub_0_r. destruct (Z.ltb_spec (nth a j 0) 0); [lia|]. destruct (Z.ltb_spec (nth a j 0) (nth a (shp x) 0)); [|lia].
      f_equal. rewrite <- Nk. now rewrite upd_nth.
    + cbn [empty_ok negb] in Hx1. rewrite andb_false_r in Hx1. cbn [mode_ext] in Hx1. injection Hx1 as <-. unfold pad1. cbn [at_].
      unfold ext_constant. rewrite Nk. reflexivity.
Qed.

Theorem constant_nd fuel junk p (x : T) ax al : pad_call fuel p x ax al ->
  all_axes p x al (fun q _ => ap_mode q = MConstant) ->
  exists y, padder_forward fuel junk p x ax = Ok y /\ shp y = grown p al (shp x) /\
    forall j, valid (shp y) j ->
      at_ y j = const_at p (shp x) (last_axes p al) j (at_ x (from (fun _ t => t) p al (shp x) j)).
Proof.
  intros PC H.
  assert (Hq : forall a q, axis_par p (last_axes p al) a = Some q -> ap_mode q = MConstant).
  { intros a q E. destruct (H a) as [q' [E' [_ [_ ?]]]]; [eapply axis_par_some_in; eauto|].
    assert (q = q') by congruence. now subst. }
  assert (Hf : all_fine F p x al).
  { intros a Ha. destruct (H a Ha) as [q [E [H1 [H2 H3]]]]. exists q. split; auto.
    split; auto. split; auto. right. right. rewrite H3. simpl. eauto. }
  destruct (pad_spec_some F p x al (pc_nodup _ _ _ _ _ PC) Hf) as [s Hs].
  destruct (forward_call F fuel junk p x s ax al PC Hs) as [y [Hy [Sy [_ Ht]]]].
  exists y. split; auto.
  assert (Eg : out_shape p (shp x) al = grown p al (shp x)).
  { apply out_shape_grown; [apply (pc_nodup _ _ _ _ _ PC)|]. intros a q E. rewrite (Hq a q E). discriminate. }
  split; [congruence|]. intros j V.
  destruct Ht as [Es At].
  { apply no_empty_by_par; [apply last_axes_nodup, (pc_nodup _ _ _ _ _ PC)|]. intros a q Ha E. rewrite (Hq a q E). reflexivity. }
  rewrite At by auto. unfold from. rewrite (spec_axes_constant p (last_axes p al) x s); auto.
  - apply last_axes_nodup, (pc_nodup _ _ _ _ _ PC).
  - intros a Ha. apply (pc_lt _ _ _ _ _ PC). eapply last_axes_in; eauto.
  - now rewrite <- Es.
Qed.

(** Periodize with a nonzero width. *)
Lemma periodize_axis fuel junk p (x : T) ax a q : one_axis fuel p x ax a q -> ap_mode q = MPeriodize ->
  (ap_before q, ap_after q) <> (0, 0) ->
  let n := nth a (shp x) 0 in let n' := n + n mod 2 in
  exists y, padder_forward fuel junk p x ax = Ok y /\
    shp y = upd a (ap_before q + n' + ap_after q) (shp x) /\
    forall j, valid (shp y) j ->
      let t := nth a j 0 - ap_before q in
      at_ y j = at_ x (upd a (Z.min (n - 1) (t mod n')) j).
Proof.
  intros [H1 H2 H3 H4 H5 H6 H7 H8] Hm Hw n n'.
  assert (Hn : 1 <= n). { destruct H7 as [E|E]; auto. rewrite Hm in E. discriminate. }
  assert (Hmod : 0 <= n mod 2 < 2) by (apply Z.mod_pos_bound; lia).
  assert (Es : step_after F q n = ap_after q + n mod 2).
  { unfold step_after. destruct ((ap_before q =? 0) && (ap_after q =? 0)) eqn:Ez; [bdestr; congruence|].
    rewrite Hm. reflexivity. }
  destruct (forward_axis F fuel junk p x ax a q ext_periodize) as [y [Hy [Sy Ay]]]; auto.
  { unfold ndim in *; lia. } { now rewrite Hm. }
  { intros d Hd. fold n. rewrite Es. specialize (H8 d Hd). destruct (Nat.eq_dec a d).
    - subst d. rewrite nth_upd_eq by auto. fold n in H8. lia.
    - rewrite nth_upd_ne by auto. lia. }
  fold n in Sy. rewrite Es in Sy.
  exists y. split; auto. split. { rewrite Sy. f_equal. unfold n'. lia. }
  intros j V t. rewrite Ay by auto. fold n. unfold ext_periodize, ext_circular. fold n'. fold t.
  assert (0 <= t mod n' < n') by (apply Z.mod_pos_bound; unfold n'; lia).
  destruct (Z.ltb_spec (t mod n') n); f_equal; f_equal; unfold n' in *; lia.
Qed.

(** Width (0,0): the tensor is returned as it is, also when its length is odd. *)
Lemma zero_width_refuted : exists (x : tensor QcF) p,
  params p 0 = Some (mkAP 0 0 MPeriodize (f0, f0) (f0, f0) (None, None)) /\ shp x = [3] /\
  forall fuel junk, padder_forward fuel junk p x AxNone = Ok x.
Proof.
  exists (mkT [3] (fun _ => f0)), (simple_padder QcF 0 0 MPeriodize).
  split; [reflexivity|]. split; [reflexivity|]. intros. reflexivity.
Qed.
End L.
