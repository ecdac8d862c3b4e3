(** Padding several axes is the same as padding them one after the other
    with Padder.forward itself; remaining theorems in stated form. *)
From Verif Require Export PadPropLemmas.

(** Pad the axes [rest] one at a time, each by its own call of Padder.forward
    with a padder that has only the parameters of that axis. *)
Fixpoint one_by_one {F : ofield} (fuel : nat) (junk : list Z -> F) (p : padder F) (x : tensor F) (rest : list nat)
  : res (tensor F) :=
  match rest with
  | [] => Ok x
  | a :: r =>
    match params p (length r) with
    | None => Err IndexError
    | Some q => y <- padder_forward fuel junk (only F q) x (AxInt (Z.of_nat a)) ;; one_by_one fuel junk p y r
    end
  end.

(** Output shape for all modes: periodize adds one to an odd length. *)
Definition full_shape {F : ofield} (p : padder F) (al : list nat) (sh : list Z) : list Z :=
  map (fun d => let n := nth d sh 0 in
         match axis_par p (last_axes p al) d with
         | None => n
         | Some q =>
           if (ap_before q =? 0) && (ap_after q =? 0) then n
           else ap_before q + n + ap_after q + (if is_periodize (ap_mode q) then n mod 2 else 0)
         end) (seq 0 (length sh)).

Section S.
Variable F : ofield.
Add Field Fseq : (f_field F).
Notation T := (tensor F).

Lemma valid_upd_back s j n v m : valid (upd n m s) j -> 0 <= v < nth n s 0 -> valid s (upd n v j).
Proof.
  intros V H. pose proof (valid_upd _ _ n v (nth n s 0) V H) as W. now rewrite upd_upd, upd_nth in W.
Qed.
Lemma spec_axis_teq (q : axis_params F) a (x x' s : T) : (a < length (shp x))%nat -> teq x x' ->
  spec_axis q a x = Some s -> exists s', spec_axis q a x' = Some s' /\ teq s s'.
Proof.
  intros Ha [Es E] H. unfold spec_axis in *. rewrite <- Es.
  destruct (negb _); [discriminate|].
  destruct ((ap_before q =? 0) && (ap_after q =? 0)); [inv H; exists x'; split; auto; split; auto|].
  destruct ((nth a (shp x) 0 <=? 0) && negb (empty_ok (ap_mode q))) eqn:En; [discriminate|].
  assert (Hn : 1 <= nth a (shp x) 0 \/ empty_ok (ap_mode q) = true).
  { apply andb_false_iff in En. destruct En as [En|En].
    - left. apply Z.leb_gt in En. lia.
    - right. now apply negb_false_iff in En. }
  assert (G : forall e pa, mode_ext (ap_mode q) (ap_before q) (ap_after q) (ap_const q) (ap_end q) (ap_stat q) = Some e ->
     teq (pad1 e a (ap_before q) pa x) (pad1 e a (ap_before q) pa x')).
  { intros e pa He. unfold pad1. rewrite <- Es. split; auto. cbn [at_ shp]. intros j V.
    apply (mode_ext_extl F _ _ _ _ _ _ _ _ He Hn). intros u Hu. apply E. eapply valid_upd_back; eauto. }
  revert H G. clear - Es E. destruct (ap_mode q); intros; try discriminate;
    try (match goal with H : context [mode_ext ?m ?a ?b ?c ?d ?e] |- _ => destruct (mode_ext m a b c d e) as [ee|] eqn:He; [|discriminate] end;
         inv H; eexists; split; [reflexivity|]; now apply G).
  inv H. exists x'. split; auto. split; auto.
Qed.
Lemma spec_axes_teq (p : padder F) : forall rest (x x' s : T), (forall a, In a rest -> (a < length (shp x))%nat) ->
  teq x x' -> spec_axes p x rest = Some s -> exists s', spec_axes p x' rest = Some s' /\ teq s s'.
Proof.
  induction rest as [|a r IH]; intros x x' s Hlt E H; simpl in *.
  - inv H. eauto.
  - destruct (params p (length r)) as [q|]; [|discriminate].
    destruct (spec_axis q a x) as [y|] eqn:Hy; [|discriminate].
    destruct (spec_axis_teq q a x x' y (Hlt a (or_introl eq_refl)) E Hy) as [y' [Hy' E']].
    rewrite Hy'. apply (IH y y' s); auto. intros b Hb. rewrite (spec_axis_length F _ _ _ _ Hy). auto.
Qed.

Lemma check_axes_int_nat nd a : (a < nd)%nat -> check_axes (Z.of_nat nd) (AxInt (Z.of_nat a)) = Ok (map Z.of_nat [a]).
Proof. intros. simpl. destruct (Z.leb_spec 0 (Z.of_nat a)); [|lia]. reflexivity. Qed.

Lemma spec_axis_nonneg (q : axis_params F) a (x s : T) : (a < length (shp x))%nat -> spec_axis q a x = Some s ->
  (forall d, (d < length (shp x))%nat -> 0 <= nth d (shp x) 0) ->
  forall d, (d < length (shp s))%nat -> 0 <= nth d (shp s) 0.
Proof.
  intros Ha H Hx d Hd. pose proof (spec_axis_length F _ _ _ _ H) as L. rewrite L in Hd.
  destruct (Nat.eq_dec d a).
  - subst d. pose proof (spec_axis_pos F _ _ _ _ H) as [P1 P2]. specialize (Hx a Ha).
    unfold spec_axis in H. destruct (negb _); [discriminate|]. destruct (_ && _); [now inv H|].
    destruct (_ && _); [discriminate|].
    assert (M : forall (m : mode F), 0 <= parity_slot m (nth a (shp x) 0)).
    { intros m. destruct m; simpl; try lia. apply Z.mod_pos_bound. lia. }
    revert H M. clear - Ha P1 P2 Hx.
    destruct (ap_mode q); simpl mode_ext; intros; inv H; auto;
      unfold pad1; cbn [shp]; rewrite nth_upd_eq by auto; pose proof (M MPeriodize); cbn [parity_slot] in *; lia.
  - rewrite (spec_axis_shape F _ _ _ _ d H) by auto. auto.
Qed.

(** Lengths only grow. *)
Lemma spec_axis_grows (q : axis_params F) a (x s : T) : (a < length (shp x))%nat -> spec_axis q a x = Some s ->
  forall d, nth d (shp x) 0 <= nth d (shp s) 0.
Proof.
  intros Ha H d. destruct (Nat.eq_dec d a).
  - subst d. pose proof (spec_axis_pos F _ _ _ _ H) as [P1 P2].
    unfold spec_axis in H. destruct (negb _); [discriminate|]. destruct (_ && _); [inv H; lia|].
    destruct (_ && _); [discriminate|].
    assert (M : forall (m : mode F), 0 <= parity_slot m (nth a (shp x) 0)).
    { intros m. destruct m; simpl; try lia. apply Z.mod_pos_bound. lia. }
    revert H M. clear - Ha P1 P2.
    destruct (ap_mode q); simpl mode_ext; intros; inv H; try lia;
      unfold pad1; cbn [shp]; rewrite nth_upd_eq by auto; pose proof (M MPeriodize); cbn [parity_slot] in *; lia.
  - rewrite (spec_axis_shape F _ _ _ _ d H) by auto. lia.
Qed.
Lemma spec_axes_grows (p : padder F) : forall rest (x s : T), (forall a, In a rest -> (a < length (shp x))%nat) ->
  spec_axes p x rest = Some s -> forall d, nth d (shp x) 0 <= nth d (shp s) 0.
Proof.
  induction rest as [|a r IH]; intros x s Hlt H d; simpl in *; [inv H; lia|].
  destruct (params p (length r)) as [q|]; [|discriminate].
  destruct (spec_axis q a x) as [y|] eqn:Hy; [|discriminate].
  pose proof (spec_axis_grows q a x y (Hlt a (or_introl eq_refl)) Hy d).
  assert (nth d (shp y) 0 <= nth d (shp s) 0); [|lia]. apply IH; auto.
  intros b Hb. rewrite (spec_axis_length F _ _ _ _ Hy). auto.
Qed.

Lemma pad_spec_only (q : axis_params F) a (x s : T) : spec_axis q a x = Some s -> pad_spec (only F q) x [a] = Some s.
Proof.
  intros H. unfold pad_spec. rewrite last_axes_single. cbn [spec_axes length]. rewrite params_only, H. reflexivity.
Qed.
Lemma no_empty_only (q : axis_params F) a : is_empty_mode F (ap_mode q) = false -> no_empty_mode F (only F q) [a].
Proof.
  intros H. unfold no_empty_mode. rewrite last_axes_single. simpl. split; auto. intros q' E. rewrite params_only in E. congruence.
Qed.

Lemma one_by_one_spec fuel junk (p : padder F) : forall rest (x x' s : T), NoDup rest ->
  (forall a, In a rest -> (a < length (shp x))%nat) ->
  (forall d, (d < length (shp x))%nat -> 0 <= nth d (shp x) 0) ->
  (forall a q, axis_par p rest a = Some q -> is_empty_mode F (ap_mode q) = false) ->
  teq x x' -> spec_axes p x rest = Some s ->
  (forall d, (d < length (shp x))%nat -> nth d (shp s) 0 <= Z.of_nat fuel) ->
  exists y, one_by_one fuel junk p x' rest = Ok y /\ teq y s.
Proof.
  induction rest as [|a r IH]; intros x x' s Hn Hlt Hx Hem E Hs Hfuel; simpl in *.
  - inv Hs. exists x'. split; auto. now apply teq_sym.
  - destruct (params p (length r)) as [q|] eqn:Hq; [|discriminate].
    destruct (spec_axis q a x) as [x1|] eqn:Hx1; [|discriminate].
    assert (Ha : (a < length (shp x))%nat) by auto. inv Hn.
    pose proof (spec_axis_length F _ _ _ _ Hx1) as L1.
    destruct (spec_axis_teq q a x x' x1 Ha E Hx1) as [x1' [Hx1' E1]].
    pose proof E as [Es _]. pose proof E1 as [Es1 _].
    assert (Hemq : is_empty_mode F (ap_mode q) = false).
    { apply (Hem a). now rewrite Nat.eqb_refl. }
    destruct (forward_correct F fuel junk (only F q) x' x1' (AxInt (Z.of_nat a)) [a]) as [y1 [Hy1 [Sy1 [_ T1]]]].
    + unfold ndim. rewrite <- Es. lia.
    + unfold ndim. rewrite <- Es. auto.
    + apply check_axes_int_nat. unfold ndim. rewrite <- Es. auto.
    + intros b [<-|[]]. unfold ndim. rewrite <- Es. auto.
    + constructor; [simpl; tauto|constructor].
    + now apply pad_spec_only.
    + intros d Hd.
      assert (Eo : nth d (out_shape (only F q) (shp x') [a]) 0 = nth d (shp x1') 0).
      { unfold ndim in Hd. rewrite (out_shape_single F (only F q) (shp x') a q); [|now rewrite <- Es|apply params_only].
        destruct (Nat.eq_dec d a).
        - subst d. rewrite nth_upd_eq by (now rewrite <- Es). unfold spec_axis in Hx1'. unfold step_after.
          destruct (negb _); [discriminate|]. destruct ((ap_before q =? 0) && (ap_after q =? 0)) eqn:Ez; [bdestr; inv Hx1'; lia|].
          destruct ((nth a (shp x') 0 <=? 0) && negb (empty_ok (ap_mode q))); [discriminate|].
          assert (Ha' : (a < length (shp x'))%nat) by (now rewrite <- Es).
          revert Hx1' Hemq. clear - Ha'. destruct (ap_mode q); simpl mode_ext; intros; try discriminate; injection Hx1' as <-;
            unfold pad1; cbn [shp]; rewrite nth_upd_eq by auto; cbn [parity_slot]; lia.
        - rewrite nth_upd_ne by auto. symmetry. eapply spec_axis_shape; eauto. }
      rewrite Eo, <- Es1. unfold ndim in Hd. rewrite <- Es in Hd.
      assert (nth d (shp x1) 0 <= nth d (shp s) 0).
      { eapply spec_axes_grows; [|exact Hs]. intros b Hb. rewrite L1. auto. }
      specialize (Hfuel d Hd). lia.
    + rewrite Hy1. cbn [bind]. apply (IH x1 y1 s); auto.
      * intros b Hb. rewrite L1. auto.
      * apply (spec_axis_nonneg q a x x1); auto.
      * intros b q' E'. apply (Hem b). destruct (Nat.eqb_spec b a); auto. subst b.
        exfalso. apply H1. eapply axis_par_some_in; eauto.
      * eapply teq_trans; [exact E1|]. apply teq_sym. apply T1. now apply no_empty_only.
      * intros d Hd. apply Hfuel. now rewrite <- L1.
Qed.

Theorem forward_one_by_one fuel junk junk' p (x : T) ax al : pad_call fuel p x ax al -> all_fine F p x al ->
  (forall a q, axis_par p (last_axes p al) a = Some q -> is_empty_mode F (ap_mode q) = false) ->
  exists y y', padder_forward fuel junk p x ax = Ok y /\
    one_by_one fuel junk' p x (last_axes p al) = Ok y' /\ teq y y'.
Proof.
  intros PC Hf Hem. destruct (pad_spec_some F p x al (pc_nodup _ _ _ _ _ PC) Hf) as [s Hs].
  destruct (forward_call F fuel junk p x s ax al PC Hs) as [y [Hy [Sy [_ Ht]]]].
  assert (Hne : no_empty_mode F p al).
  { apply no_empty_by_par; [apply last_axes_nodup, (pc_nodup _ _ _ _ _ PC)|]. intros a q _. apply Hem. }
  pose proof (Ht Hne) as [Es E].
  destruct (one_by_one_spec fuel junk' p (last_axes p al) x x s) as [y' [Hy' E']]; auto.
  - apply last_axes_nodup, (pc_nodup _ _ _ _ _ PC).
  - intros a Ha. apply (pc_lt _ _ _ _ _ PC). eapply last_axes_in; eauto.
  - apply (pc_shape _ _ _ _ _ PC).
  - split; auto.
  - intros d Hd. rewrite <- Es, Sy. now apply (pc_fuel _ _ _ _ _ PC).
  - exists y, y'. split; auto. split; auto. eapply teq_trans; [exact (Ht Hne)|]. now apply teq_sym.
Qed.

(** *** Shape and block *)
Lemma out_shape_full (p : padder F) (x : T) al : NoDup al -> out_shape p (shp x) al = full_shape p al (shp x).
Proof.
  intros Hn. apply list_ext with (d := 0).
  - unfold full_shape. now rewrite out_shape_length, map_length, seq_length.
  - rewrite out_shape_length. intros d Hd. unfold full_shape. rewrite nth_map_seq by auto.
    rewrite out_shape_par by auto. destruct (axis_par p (last_axes p al) d) as [q|] eqn:E; auto.
    unfold step_after. destruct ((ap_before q =? 0) && (ap_after q =? 0)) eqn:Ez; [bdestr; lia|].
    destruct (ap_mode q); simpl; lia.
Qed.
Theorem forward_keeps fuel junk p (x : T) ax al : pad_call fuel p x ax al -> all_fine F p x al ->
  exists y, padder_forward fuel junk p x ax = Ok y /\ shp y = full_shape p al (shp x) /\
    forall i, valid (shp x) i ->
      at_ y (map (fun d => nth d i 0 + match axis_par p (last_axes p al) d with Some q => ap_before q | None => 0 end)
                 (seq 0 (ndim x))) = at_ x i.
Proof.
  intros PC Hf. destruct (pad_spec_some F p x al (pc_nodup _ _ _ _ _ PC) Hf) as [s Hs].
  destruct (forward_block F fuel junk p x s ax al PC Hs) as [y [Hy [Sy Ay]]].
  exists y. split; auto. split; auto. rewrite Sy. apply out_shape_full, (pc_nodup _ _ _ _ _ PC).
Qed.

(** *** Point reflections *)
Lemma odd_reflect_axis fuel junk p (x : T) ax a q : one_axis fuel p x ax a q -> ap_mode q = MOddReflect ->
  exists y, padder_forward fuel junk p x ax = Ok y /\
    shp y = upd a (ap_before q + nth a (shp x) 0 + ap_after q) (shp x) /\
    forall i, exists g : Z -> F,
      let n := nth a (shp x) 0 in let f u := at_ x (upd a u i) in
      (forall t, valid (shp y) (upd a (t + ap_before q) i) -> at_ y (upd a (t + ap_before q) i) = g t) /\
      (forall t, 0 <= t < n -> g t = f t) /\
      (forall t, g (- t) = (fofZ 2 * f 0%Z - g t)%F) /\
      (forall t, g (t + 2 * (n - 1)) = (g t + fofZ 2 * (f (n - 1)%Z - f 0%Z))%F) /\
      (n = 1 -> forall t, g t = f 0).
Proof.
  intros H Hm. destruct (mode_of F q x fuel p ax a _ _ junk H Hm ltac:(discriminate) eq_refl) as [y [Hy [Sy Ay]]].
  exists y. split; auto. split; auto. intros i.
  exists (ext_odd_reflect (nth a (shp x) 0) (fun u => at_ x (upd a u i))). cbv zeta.
  assert (Hn : 1 <= nth a (shp x) 0). { destruct (oa_len _ _ _ _ _ _ H) as [E|E]; auto. rewrite Hm in E. discriminate. }
  split; [|split; [|split; [|split]]].
  - intros t V. rewrite Ay by auto. pose proof (valid_length _ _ V) as L. rewrite Sy, !upd_length in L.
    rewrite nth_upd_eq by (rewrite L; apply (oa_lt _ _ _ _ _ _ H)). replace (t + ap_before q - ap_before q) with t by lia.
    apply odd_reflect_extl; auto. intros u _. now rewrite upd_upd.
  - intros. now apply ext_odd_reflect_orig.
  - intros. now apply ext_odd_reflect_mirror.
  - intros. now apply ext_odd_reflect_shift.
  - intros E t. rewrite E. reflexivity.
Qed.
Lemma odd_symmetric_axis fuel junk p (x : T) ax a q : one_axis fuel p x ax a q -> ap_mode q = MOddSymmetric ->
  exists y, padder_forward fuel junk p x ax = Ok y /\
    shp y = upd a (ap_before q + nth a (shp x) 0 + ap_after q) (shp x) /\
    forall i, exists g : Z -> F,
      let n := nth a (shp x) 0 in let f u := at_ x (upd a u i) in
      (forall t, valid (shp y) (upd a (t + ap_before q) i) -> at_ y (upd a (t + ap_before q) i) = g t) /\
      (forall t, 0 <= t < n -> g t = f t) /\
      (forall t, g (- 1 - t) = (fofZ 2 * f 0%Z - g t)%F) /\
      (forall t, g (t + 2 * n) = (g t + fofZ 2 * (f (n - 1)%Z - f 0%Z))%F).
Proof.
  intros H Hm. destruct (mode_of F q x fuel p ax a _ _ junk H Hm ltac:(discriminate) eq_refl) as [y [Hy [Sy Ay]]].
  exists y. split; auto. split; auto. intros i.
  exists (ext_odd_symmetric (nth a (shp x) 0) (fun u => at_ x (upd a u i))). cbv zeta.
  assert (Hn : 1 <= nth a (shp x) 0). { destruct (oa_len _ _ _ _ _ _ H) as [E|E]; auto. rewrite Hm in E. discriminate. }
  split; [|split; [|split]].
  - intros t V. rewrite Ay by auto. pose proof (valid_length _ _ V) as L. rewrite Sy, !upd_length in L.
    rewrite nth_upd_eq by (rewrite L; apply (oa_lt _ _ _ _ _ _ H)). replace (t + ap_before q - ap_before q) with t by lia.
    apply odd_symmetric_extl; auto. intros u _. now rewrite upd_upd.
  - intros. now apply ext_odd_symmetric_orig.
  - intros. now apply ext_odd_symmetric_mirror.
  - intros. now apply ext_odd_symmetric_shift.
Qed.
Lemma antisymmetric_axis fuel junk p (x : T) ax a q : one_axis fuel p x ax a q -> ap_mode q = MAntisymmetric ->
  exists y, padder_forward fuel junk p x ax = Ok y /\
    shp y = upd a (ap_before q + nth a (shp x) 0 + ap_after q) (shp x) /\
    forall j, valid (shp y) j ->
      let n := nth a (shp x) 0 in let m := (nth a j 0 - ap_before q) mod (2 * n) in let f u := at_ x (upd a u j) in
      at_ y j = if m <? n then f m else (- f (2 * n - 1 - m)%Z)%F.
Proof. intros H Hm. exact (mode_of F q x fuel p ax a _ _ junk H Hm ltac:(discriminate) eq_refl). Qed.

(** *** periodize without padding: pad_axis does not agree with forward *)
Lemma pad_axis_periodize_refuted : exists (x : tensor QcF) p,
  shp x = [3] /\ at_item QcF p 0 (mkAP 1 0 MPeriodize (f0, f0) (f0, f0) (None, None)) /\
  forall junk, exists y, padder_forward 10 junk p x (AxInt 0) = Ok y /\ shp y = [5] /\
    (forall z, pad_axis 10 junk p x 0 (AxInt 0) = Ok z -> shp z <> shp y).
Proof.
  exists (mkT [3] (fun _ => f0)), (simple_padder QcF 1 0 MPeriodize).
  split; [reflexivity|]. split; [repeat split|]. intros junk.
  assert (O : one_axis 10 (simple_padder QcF 1 0 MPeriodize) (mkT [3] (fun _ => f0)) (AxInt 0) 0
     (mkAP 1 0 MPeriodize (f0, f0) (f0, f0) (None, None))).
  { split; try reflexivity; unfold ndim; cbn; try lia; intros d Hd; destruct d as [|d]; try lia; cbn; lia. }
  destruct (periodize_axis QcF 10 junk _ _ _ _ _ O eq_refl ltac:(discriminate)) as [y [Hy [Sy _]]].
  exists y. split; auto. split; [exact Sy|].
  intros z Hz Es. rewrite Sy in Es. revert Hz. lazy. intros Hz. inv Hz.
  all: try discriminate.
Qed.
End S.
