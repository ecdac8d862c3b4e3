(** Consequences of [forward_correct]: single-axis padding, closed forms for
    the modes that only copy elements, original block in place, no dependence
    on uninitialised memory. *)
From Verif Require Export PadderProofs FieldLemmas.
From Coq Require Import Permutation Sorted.

(** A legal call of Padder.forward: the axes argument denotes the distinct
    axes al, and there is enough fuel for the longest output axis. *)
Record pad_call {F : ofield} (fuel : nat) (p : padder F) (x : tensor F) (ax : axes_arg) (al : list nat) : Prop := {
  pc_nd : (0 < ndim x)%nat;
  pc_shape : forall d, (d < ndim x)%nat -> 0 <= nth d (shp x) 0;
  pc_axes : check_axes (Z.of_nat (ndim x)) ax = Ok (map Z.of_nat al);
  pc_lt : forall a, In a al -> (a < ndim x)%nat;
  pc_nodup : NoDup al;
  pc_fuel : forall d, (d < ndim x)%nat -> nth d (out_shape p (shp x) al) 0 <= Z.of_nat fuel }.

(** Parameters applied to axis a when the axes are [rest]. *)
Fixpoint axis_par {F : ofield} (p : padder F) (rest : list nat) (a : nat) : option (axis_params F) :=
  match rest with
  | [] => None
  | b :: r => if Nat.eqb a b then params p (length r) else axis_par p r a
  end.

(** Modes that copy elements: coordinate to copy from, given the axis length n
    and the offset t from the start of the original. *)
Definition src_coord {F : ofield} (m : mode F) (n t : Z) : option Z :=
  match m with
  | MCircular => Some (t mod n)
  | MSymmetric => let k := t mod (2 * n) in Some (if k <? n then k else 2 * n - 1 - k)
  | MReflect => if n =? 1 then Some 0
                else let k := t mod (2 * n - 2) in Some (if k <? n then k else 2 * n - 2 - k)
  | MReplicate => Some (Z.max 0 (Z.min (n - 1) t))
  | MPeriodize => let k := t mod (n + n mod 2) in Some (if k <? n then k else n - 1)
  | _ => None
  end.
Definition src_axis {F : ofield} (q : option (axis_params F)) (n k : Z) : Z :=
  match q with
  | None => k
  | Some q =>
    if (ap_before q =? 0) && (ap_after q =? 0) then k
    else match src_coord (ap_mode q) n (k - ap_before q) with Some c => c | None => k end
  end.
(** Source index of output index j. *)
Definition src_index {F : ofield} (p : padder F) (rest : list nat) (sh j : list Z) : list Z :=
  map (fun d => src_axis (axis_par p rest d) (nth d sh 0) (nth d j 0)) (seq 0 (length sh)).

Section Cor.
Variable F : ofield.
Notation T := (tensor F).

Lemma axis_par_notin (p : padder F) rest a : ~ In a rest -> axis_par p rest a = None.
Proof.
  induction rest as [|b r IH]; simpl; auto. intros H. destruct (Nat.eqb_spec a b); [subst; tauto|]. tauto.
Qed.
Lemma axis_par_in (p : padder F) l1 a l2 : ~ In a l1 -> axis_par p (l1 ++ a :: l2) a = params p (length l2).
Proof.
  induction l1 as [|b r IH]; simpl; intros H.
  - now rewrite Nat.eqb_refl.
  - destruct (Nat.eqb_spec a b); [subst; tauto|]. tauto.
Qed.

(** *** When does the specification give a result? *)
Definition axis_fine (q : axis_params F) (n : Z) : Prop :=
  0 <= ap_before q /\ 0 <= ap_after q /\
  ((ap_before q =? 0) && (ap_after q =? 0) = true \/ is_empty_mode F (ap_mode q) = true \/
   ((1 <= n \/ empty_ok (ap_mode q) = true) /\
   exists e, mode_ext (ap_mode q) (ap_before q) (ap_after q) (ap_const q) (ap_end q) (ap_stat q) = Some e)).

Lemma spec_axis_shape (q : axis_params F) a (x y : T) d : spec_axis q a x = Some y -> d <> a ->
  nth d (shp y) 0 = nth d (shp x) 0.
Proof.
  unfold spec_axis. intros H Hd. destruct (negb _); [discriminate|]. destruct (_ && _); [inv H; auto|].
  destruct (_ && _); [discriminate|].
  assert (G : forall e w, nth d (shp (@pad1 F e a (ap_before q) w x)) 0 = nth d (shp x) 0).
  { intros. simpl. apply nth_upd_ne. auto. }
  destruct (ap_mode q); simpl mode_ext in H; inv H; auto; apply G.
Qed.
Lemma spec_axis_some (q : axis_params F) a (x : T) : axis_fine q (nth a (shp x) 0) -> exists y, spec_axis q a x = Some y.
Proof.
  intros [H1 [H2 H3]]. unfold spec_axis.
  destruct (Z.leb_spec 0 (ap_before q)); [|lia]. destruct (Z.leb_spec 0 (ap_after q)); [|lia]. cbn [andb negb].
  destruct ((ap_before q =? 0) && (ap_after q =? 0)) eqn:Ez; [eauto|].
  destruct H3 as [H3|[H3|[H3 [e He]]]]; [discriminate| |].
  - assert (E : empty_ok (ap_mode q) = true) by (destruct (ap_mode q); auto; discriminate).
    rewrite E, andb_false_r. destruct (ap_mode q); try discriminate. eauto.
  - assert (E : (nth a (shp x) 0 <=? 0) && negb (empty_ok (ap_mode q)) = false).
    { destruct H3 as [H3|H3]; [|rewrite H3; apply andb_false_r]. destruct (Z.leb_spec (nth a (shp x) 0) 0); auto. lia. }
    rewrite E. destruct (ap_mode q); simpl in *; try discriminate; eauto.
Qed.
Lemma spec_axes_some (p : padder F) : forall rest (x : T), NoDup rest ->
  (forall a, In a rest -> exists q, axis_par p rest a = Some q /\ axis_fine q (nth a (shp x) 0)) ->
  exists s, spec_axes p x rest = Some s.
Proof.
  induction rest as [|a rest IH]; intros x Hn H; [simpl; eauto|]. inv Hn.
  destruct (H a (or_introl eq_refl)) as [q [Hq Hf]]. simpl in Hq. rewrite Nat.eqb_refl in Hq.
  cbn [spec_axes]. rewrite Hq. destruct (spec_axis_some q a x Hf) as [y Hy]. rewrite Hy.
  apply IH; auto. intros b Hb. assert (b <> a) by congruence.
  destruct (H b (or_intror Hb)) as [q' [Hq' Hf']]. simpl in Hq'.
  destruct (Nat.eqb_spec b a); [contradiction|]. exists q'. split; auto.
  rewrite (spec_axis_shape _ _ _ _ b Hy) by auto. auto.
Qed.

Lemma last_axes_suffix (p : padder F) al : exists pre, al = pre ++ last_axes p al.
Proof.
  unfold last_axes. destruct (0 <? p_ndim p); [apply skipn_last_app|exists []; auto].
Qed.
Lemma last_axes_in (p : padder F) al a : In a (last_axes p al) -> In a al.
Proof. intros H. destruct (last_axes_suffix p al) as [pre ->]. apply in_app_iff. now right. Qed.
Lemma last_axes_nodup (p : padder F) al : NoDup al -> NoDup (last_axes p al).
Proof. intros H. destruct (last_axes_suffix p al) as [pre E]. rewrite E in H. eapply NoDup_app_r; eauto. Qed.

(** All padded axes have usable parameters. *)
Definition all_fine (p : padder F) (x : T) al : Prop :=
  forall a, In a (last_axes p al) ->
    exists q, axis_par p (last_axes p al) a = Some q /\ axis_fine q (nth a (shp x) 0).

Lemma pad_spec_some p (x : T) al : NoDup al -> all_fine p x al -> exists s, pad_spec p x al = Some s.
Proof. intros. apply spec_axes_some; auto. now apply last_axes_nodup. Qed.

Lemma forward_call fuel junk p (x s : T) ax al : pad_call fuel p x ax al ->
  pad_spec p x al = Some s ->
  exists y, padder_forward fuel junk p x ax = Ok y /\ shp y = out_shape p (shp x) al /\
    (forall j, valid (shp s) j ->
       at_ y (map2 Z.add j (off p (last_axes p al) (repeat 0 (ndim x)))) = at_ s j) /\
    (no_empty_mode F p al -> teq y s).
Proof. intros [] H. eapply forward_correct; eauto. Qed.

Lemma no_empty_by_par (p : padder F) : forall rest, NoDup rest ->
  (forall a q, In a rest -> axis_par p rest a = Some q -> is_empty_mode F (ap_mode q) = false) -> no_empty F p rest.
Proof.
  induction rest as [|a rest IH]; intros Hn H; simpl; auto. inv Hn. split.
  - intros q Hq _. apply (H a); [now left|]. simpl. now rewrite Nat.eqb_refl.
  - apply IH; auto. intros b q Hb Hq. apply (H b); [now right|]. simpl.
    destruct (Nat.eqb_spec b a); [subst; contradiction|auto].
Qed.

(** *** Shape, axis by axis *)
Lemma out_shape_length (p : padder F) sh al : length (out_shape p sh al) = length sh.
Proof.
  unfold out_shape. rewrite map2_length_eq; rewrite map2_length_eq; rewrite ?widths_before_length, ?widths_after_length, ?repeat_length; auto.
Qed.
Lemma nth_out_shape (p : padder F) sh al d : (d < length sh)%nat ->
  nth d (out_shape p sh al) 0 =
  nth d (widths_before p (last_axes p al) (repeat 0 (length sh))) 0 + nth d sh 0 +
  nth d (widths_after p sh (last_axes p al) (repeat 0 (length sh))) 0.
Proof.
  intros. unfold out_shape. rewrite nth_map2 with (da := 0) (db := 0).
  - rewrite nth_map2 with (da := 0) (db := 0); auto. rewrite widths_before_length, repeat_length; auto.
  - rewrite map2_length_eq; rewrite widths_before_length, repeat_length; auto.
  - rewrite widths_after_length, repeat_length; auto.
Qed.
Lemma out_shape_par (p : padder F) sh al d : (d < length sh)%nat -> NoDup al ->
  nth d (out_shape p sh al) 0 =
  match axis_par p (last_axes p al) d with
  | None => nth d sh 0
  | Some q => ap_before q + nth d sh 0 + step_after F q (nth d sh 0)
  end.
Proof.
  intros Hd Hn. rewrite nth_out_shape by auto. pose proof (last_axes_nodup p al Hn) as Hn'.
  set (rest := last_axes p al) in *.
  destruct (in_dec Nat.eq_dec d rest) as [Hi|Hi].
  - apply in_split in Hi. destruct Hi as [l1 [l2 E]]. rewrite E in *.
    assert (H1 : ~ In d l1).
    { apply NoDup_remove_2 in Hn'. rewrite in_app_iff in Hn'. tauto. }
    rewrite axis_par_in by auto. destruct (params p (length l2)) as [q|] eqn:Hq.
    + rewrite (widths_in F p l1 d l2 _ q), (widths_after_in F p sh l1 d l2 _ q), nth_repeat;
        auto; rewrite ?repeat_length; auto.
    + assert (G1 : nth d (widths_before p (l1 ++ d :: l2) (repeat 0 (length sh))) 0 = 0).
      { clear - Hn' Hq. assert (X : forall l1 v, NoDup (l1 ++ d :: l2) -> nth d v 0 = 0 ->
            nth d (@widths_before F p (l1 ++ d :: l2) v) 0 = 0).
        { induction l0 as [|b l0 IH]; simpl; intros v Hn0 Hv; inv Hn0.
          - rewrite Hq. now rewrite widths_before_notin.
          - apply IH; auto. destruct (params p (length (l0 ++ d :: l2))); auto. rewrite nth_upd_ne; auto. intros ->.
            apply H1. apply in_app_iff. right. now left. }
        apply X; auto. apply nth_repeat. }
      assert (G2 : nth d (widths_after p sh (l1 ++ d :: l2) (repeat 0 (length sh))) 0 = 0).
      { clear - Hn' Hq. assert (X : forall l1 v, NoDup (l1 ++ d :: l2) -> nth d v 0 = 0 ->
            nth d (@widths_after F p sh (l1 ++ d :: l2) v) 0 = 0).
        { induction l0 as [|b l0 IH]; simpl; intros v Hn0 Hv; inv Hn0.
          - rewrite Hq. now rewrite widths_after_notin.
          - apply IH; auto. destruct (params p (length (l0 ++ d :: l2))); auto. destruct (_ && _); auto. rewrite nth_upd_ne; auto. intros ->.
            apply H1. apply in_app_iff. right. now left. }
        apply X; auto. apply nth_repeat. }
      lia.
  - rewrite axis_par_notin, widths_before_notin, widths_after_notin, !nth_repeat by auto. lia.
Qed.

(** *** One axis *)
Lemma last_axes_single (p : padder F) a : last_axes p [a] = [a].
Proof.
  unfold last_axes. destruct (Z.ltb_spec 0 (p_ndim p)); auto. simpl length.
  replace (1 - Z.to_nat (p_ndim p))%nat with 0%nat by lia. reflexivity.
Qed.
Lemma out_shape_single (p : padder F) sh a q : (a < length sh)%nat -> params p 0 = Some q ->
  out_shape p sh [a] = upd a (ap_before q + nth a sh 0 + step_after F q (nth a sh 0)) sh.
Proof.
  intros Ha Hq. apply list_ext with (d := 0); rewrite out_shape_length, ?upd_length; auto.
  intros d Hd. rewrite out_shape_par, last_axes_single; auto using NoDup_cons, NoDup_nil.
  simpl. destruct (Nat.eqb_spec d a).
  - subst d. rewrite Hq, nth_upd_eq by auto. auto.
  - rewrite nth_upd_ne; auto.
Qed.

Theorem forward_axis fuel junk p (x : T) ax a q e :
  (0 < ndim x)%nat -> (forall d, (d < ndim x)%nat -> 0 <= nth d (shp x) 0) ->
  check_axes (Z.of_nat (ndim x)) ax = Ok [Z.of_nat a] -> (a < ndim x)%nat ->
  params p 0 = Some q ->
  mode_ext (ap_mode q) (ap_before q) (ap_after q) (ap_const q) (ap_end q) (ap_stat q) = Some e ->
  0 <= ap_before q -> 0 <= ap_after q ->
  1 <= nth a (shp x) 0 \/ empty_ok (ap_mode q) = true ->
  (forall d, (d < ndim x)%nat ->
     nth d (upd a (ap_before q + nth a (shp x) 0 + step_after F q (nth a (shp x) 0)) (shp x)) 0 <= Z.of_nat fuel) ->
  exists y, padder_forward fuel junk p x ax = Ok y /\
    shp y = upd a (ap_before q + nth a (shp x) 0 + step_after F q (nth a (shp x) 0)) (shp x) /\
    forall j, valid (shp y) j ->
      at_ y j = e (nth a (shp x) 0) (fun u => at_ x (upd a u j)) (nth a j 0 - ap_before q).
Proof.
  intros Hnd Hsh Hax Ha Hq He Hb Haf Hn Hfuel.
  assert (Hemp : is_empty_mode F (ap_mode q) = false) by (destruct (ap_mode q); auto; discriminate).
  assert (ES := out_shape_single p (shp x) a q Ha Hq).
  assert (PC : pad_call fuel p x ax [a]).
  { split; auto.
    - intros b [->|[]]. auto.
    - constructor; [simpl; tauto|constructor].
    - intros d Hd. rewrite ES. auto. }
  assert (Hfine : axis_fine q (nth a (shp x) 0)) by (split; auto; split; auto; right; right; eauto).
  destruct (spec_axis_some q a x Hfine) as [s Hs].
  assert (HS : pad_spec p x [a] = Some s).
  { unfold pad_spec. rewrite last_axes_single. simpl. rewrite Hq, Hs. auto. }
  destruct (forward_call fuel junk p x s ax [a] PC HS) as [y [Hy [Sy [_ Ht]]]].
  exists y. split; auto. split; [now rewrite Sy|].
  assert (Hne : no_empty_mode F p [a]).
  { unfold no_empty_mode. rewrite last_axes_single. simpl. split; auto. intros q' Hq'. congruence. }
  destruct (Ht Hne) as [Es At]. intros j V. rewrite At by auto.
  unfold spec_axis in Hs. destruct (Z.leb_spec 0 (ap_before q)); [|lia].
  destruct (Z.leb_spec 0 (ap_after q)); [|lia]. cbn [andb negb] in Hs.
  destruct ((ap_before q =? 0) && (ap_after q =? 0)) eqn:Ez.
  - inv Hs. rewrite Es in V. pose proof (valid_nth _ _ a V) as Vj. unfold ndim in Ha. specialize (Vj Ha).
    bdestr. rewrite (mode_ext_core F _ _ _ _ _ _ _ He) by lia.
    replace (nth a j 0 - ap_before q) with (nth a j 0) by lia. now rewrite upd_nth.
  - assert (E : (nth a (shp x) 0 <=? 0) && negb (empty_ok (ap_mode q)) = false).
    { destruct Hn as [H3|H3]; [|rewrite H3; apply andb_false_r]. destruct (Z.leb_spec (nth a (shp x) 0) 0); auto. lia. }
    rewrite E in Hs.
    assert (s = pad1 e a (ap_before q) (ap_after q + parity_slot (ap_mode q) (nth a (shp x) 0)) x).
    { revert Hs He Hemp. clear. destruct (ap_mode q); intros; try discriminate; rewrite He in Hs; congruence. }
    subst s. reflexivity.
Qed.

(** *** Closed form for copying modes, any number of axes *)
Lemma src_coord_ext (m : mode F) pb pa cv ev sl e n f t c : mode_ext m pb pa cv ev sl = Some e ->
  src_coord m n t = Some c -> e n f t = f c.
Proof.
  destruct m; simpl; intros He Hc; try discriminate; inv He; inv Hc.
  - reflexivity.
  - reflexivity.
  - unfold ext_periodize, ext_circular. destruct (_ <? _); reflexivity.
  - unfold ext_symmetric. cbv zeta. destruct (_ <? _); reflexivity.
  - unfold ext_reflect. destruct (_ =? _); inv H0; auto. cbv zeta. destruct (_ <? _); reflexivity.
Qed.
Definition copies (m : mode F) : Prop := forall n t, src_coord m n t <> None.

Lemma spec_axis_copy (q : axis_params F) a (x y : T) : (a < length (shp x))%nat -> copies (ap_mode q) ->
  spec_axis q a x = Some y ->
  length (shp y) = length (shp x) /\
  forall j, at_ y j = at_ x (upd a (src_axis (Some q) (nth a (shp x) 0) (nth a j 0)) j).
Proof.
  intros Ha Hc H. unfold spec_axis in H. unfold src_axis. destruct (negb _); [discriminate|].
  destruct ((ap_before q =? 0) && (ap_after q =? 0)); [inv H; split; auto; intros; now rewrite upd_nth|].
  destruct (_ && _); [discriminate|].
  assert (G : exists e, mode_ext (ap_mode q) (ap_before q) (ap_after q) (ap_const q) (ap_end q) (ap_stat q) = Some e /\
     y = pad1 e a (ap_before q) (ap_after q + parity_slot (ap_mode q) (nth a (shp x) 0)) x).
  { destruct (ap_mode q); try (exfalso; apply (Hc 0 0); reflexivity); simpl in *; inv H; eauto. }
  destruct G as [e [He ->]]. split; [simpl; now rewrite upd_length|]. intros j. unfold pad1. cbn [at_].
  destruct (src_coord (ap_mode q) (nth a (shp x) 0) (nth a j 0 - ap_before q)) as [c|] eqn:Ec.
  - exact (src_coord_ext _ _ _ _ _ _ _ _ _ _ _ He Ec).
  - exfalso. eapply Hc; eauto.
Qed.

Lemma src_index_length (p : padder F) rest sh j : length (src_index p rest sh j) = length sh.
Proof. unfold src_index. now rewrite map_length, seq_length. Qed.
Lemma nth_src_index (p : padder F) rest sh j d : (d < length sh)%nat ->
  nth d (src_index p rest sh j) 0 = src_axis (axis_par p rest d) (nth d sh 0) (nth d j 0).
Proof.
  intros. unfold src_index.
  rewrite nth_indep with (d' := (fun d => src_axis (axis_par p rest d) (nth d sh 0) (nth d j 0)) 0%nat)
    by (now rewrite map_length, seq_length).
  rewrite map_nth with (f := fun d => src_axis (axis_par p rest d) (nth d sh 0) (nth d j 0)).
  now rewrite seq_nth.
Qed.

Lemma spec_axes_copy (p : padder F) : forall rest (x s : T), NoDup rest ->
  (forall a, In a rest -> (a < length (shp x))%nat) ->
  (forall a q, In a rest -> axis_par p rest a = Some q -> copies (ap_mode q)) ->
  spec_axes p x rest = Some s ->
  forall j, length j = length (shp x) -> at_ s j = at_ x (src_index p rest (shp x) j).
Proof.
  induction rest as [|a rest IH]; intros x s Hn Hlt Hc H j Lj.
  - inv H. f_equal. apply list_ext with (d := 0); [rewrite src_index_length; auto|].
    intros d Hd. rewrite nth_src_index by lia. reflexivity.
  - inv Hn. cbn [spec_axes] in H. destruct (params p (length rest)) as [q|] eqn:Hq; [|discriminate].
    destruct (spec_axis q a x) as [y|] eqn:Hy; [|discriminate].
    pose proof (Hlt a (or_introl eq_refl)) as Ha.
    destruct (spec_axis_copy q a x y) as [Ly Ay]; auto.
    { apply (Hc a q); [now left|]. simpl. now rewrite Nat.eqb_refl. }
    rewrite (IH y s); auto.
    + rewrite Ay. f_equal. apply list_ext with (d := 0); [rewrite upd_length, !src_index_length; auto|].
      rewrite upd_length, src_index_length. intros d Hd. rewrite Ly in Hd.
      rewrite (nth_src_index p (a :: rest)) by auto. cbn [axis_par].
      destruct (Nat.eqb_spec d a).
      * subst d. rewrite nth_upd_eq by (rewrite src_index_length; lia). rewrite Hq.
        rewrite nth_src_index by lia. rewrite axis_par_notin by auto. reflexivity.
      * rewrite nth_upd_ne by auto. rewrite nth_src_index by lia.
        rewrite (spec_axis_shape _ _ _ _ d Hy) by auto. reflexivity.
    + intros b Hb. rewrite Ly. apply Hlt. now right.
    + intros b q' Hb Hq'. apply (Hc b q'); [now right|]. simpl.
      destruct (Nat.eqb_spec b a); [subst; contradiction|auto].
    + lia.
Qed.

Lemma copies_ext (m : mode F) pb pa cv ev sl : copies m -> exists e, mode_ext m pb pa cv ev sl = Some e.
Proof. intros H. destruct m; try (exfalso; apply (H 0 0); reflexivity); simpl; eauto. Qed.
Lemma copies_nonempty (m : mode F) : copies m -> is_empty_mode F m = false.
Proof. intros H. destruct m; auto. exfalso; apply (H 0 0); reflexivity. Qed.

Theorem forward_copy fuel junk p (x : T) ax al : pad_call fuel p x ax al ->
  (forall a, In a (last_axes p al) -> exists q, axis_par p (last_axes p al) a = Some q /\
     copies (ap_mode q) /\ 0 <= ap_before q /\ 0 <= ap_after q /\ 1 <= nth a (shp x) 0) ->
  exists y, padder_forward fuel junk p x ax = Ok y /\
    shp y = out_shape p (shp x) al /\
    forall j, valid (shp y) j -> at_ y j = at_ x (src_index p (last_axes p al) (shp x) j).
Proof.
  intros PC H. pose proof (last_axes_nodup p al (pc_nodup _ _ _ _ _ PC)) as Hn.
  assert (Hf : all_fine p x al).
  { intros a Ha. destruct (H a Ha) as [q [Hq [Hc [H1 [H2 H3]]]]]. exists q. split; auto.
    split; auto. split; auto. right. right. split; auto. now apply copies_ext. }
  destruct (pad_spec_some p x al (pc_nodup _ _ _ _ _ PC) Hf) as [s Hs].
  destruct (forward_call fuel junk p x s ax al PC Hs) as [y [Hy [Sy [_ Ht]]]].
  exists y. split; auto. split; auto. intros j V.
  destruct Ht as [Es At].
  { apply no_empty_by_par; auto. intros a q Ha Hq. destruct (H a Ha) as [q' [Hq' [Hc _]]].
    apply copies_nonempty. congruence. }
  rewrite At by auto. apply (spec_axes_copy p (last_axes p al)); auto.
  - intros a Ha. apply (pc_lt _ _ _ _ _ PC). eapply last_axes_in; eauto.
  - intros a q Ha Hq. destruct (H a Ha) as [q' [Hq' [Hc _]]]. congruence.
  - apply valid_length in V. rewrite V, Sy, out_shape_length. auto.
Qed.

(** *** The original block stays in place *)
Fixpoint inner (p : padder F) (rest : list nat) (d : nat) : Z :=
  match rest with
  | [] => 0
  | a :: r => if Nat.eqb d a then match params p (length r) with
                | Some q => if is_empty_mode F (ap_mode q) then 0 else ap_before q | None => 0 end
              else inner p r d
  end.
Lemma inner_notin p rest d : ~ In d rest -> inner p rest d = 0.
Proof.
  induction rest as [|b r IH]; simpl; auto. intros H. destruct (Nat.eqb_spec d b); [subst; tauto|]. tauto.
Qed.

Lemma spec_axis_core (q : axis_params F) a (x y : T) i : (a < length (shp x))%nat -> spec_axis q a x = Some y ->
  valid (shp x) i ->
  let i' := upd a (nth a i 0 + (if is_empty_mode F (ap_mode q) then 0 else ap_before q)) i in
  valid (shp y) i' /\ at_ y i' = at_ x i.
Proof.
  intros Ha H V. cbv zeta. destruct (spec_axis_pos F q a x y H) as [P1 P2].
  pose proof (valid_nth _ _ a V Ha) as Va. pose proof (valid_length _ _ V) as Li.
  destruct (is_empty_mode F (ap_mode q)) eqn:Em.
  - apply (spec_axis_empty F q a x y) in H; auto. subst y. rewrite Z.add_0_r, upd_nth. auto.
  - unfold spec_axis in H. destruct (negb _); [discriminate|].
    destruct ((ap_before q =? 0) && (ap_after q =? 0)) eqn:Ez.
    { inv H. bdestr. rewrite H, Z.add_0_r, upd_nth. auto. }
    destruct ((nth a (shp x) 0 <=? 0) && negb (empty_ok (ap_mode q))); [discriminate|].
    assert (G : exists e, mode_ext (ap_mode q) (ap_before q) (ap_after q) (ap_const q) (ap_end q) (ap_stat q) = Some e /\
       y = pad1 e a (ap_before q) (ap_after q + parity_slot (ap_mode q) (nth a (shp x) 0)) x).
    { revert H Em. clear. destruct (ap_mode q); simpl; intros H Em; try discriminate; injection H as <-; eauto. }
    destruct G as [e [He ->]].
    assert (Hpar : 0 <= parity_slot (ap_mode q) (nth a (shp x) 0)).
    { destruct (ap_mode q); simpl; try lia. pose proof (Z.mod_pos_bound (nth a (shp x) 0) 2). lia. }
    split.
    + unfold pad1. cbn [shp]. apply valid_iff. rewrite !upd_length. split; auto. intros d Hd.
      destruct (Nat.eq_dec a d).
      * subst d. rewrite !nth_upd_eq by lia. lia.
      * rewrite !nth_upd_ne by auto. now apply valid_nth.
    + unfold pad1. cbn [at_]. rewrite nth_upd_eq by lia.
      rewrite (mode_ext_core F _ _ _ _ _ _ _ He) by lia. rewrite upd_upd.
      replace (nth a i 0 + ap_before q - ap_before q) with (nth a i 0) by lia. now rewrite upd_nth.
Qed.

Lemma spec_axis_length (q : axis_params F) a (x y : T) : spec_axis q a x = Some y -> length (shp y) = length (shp x).
Proof.
  unfold spec_axis. intros H. destruct (negb _); [discriminate|]. destruct (_ && _); [inv H; auto|].
  destruct (_ && _); [discriminate|].
  destruct (ap_mode q); simpl mode_ext in H; inv H; auto; simpl; now rewrite upd_length.
Qed.

Lemma spec_axes_core (p : padder F) : forall rest (x s : T), NoDup rest ->
  (forall a, In a rest -> (a < length (shp x))%nat) -> spec_axes p x rest = Some s ->
  forall i k, valid (shp x) i -> length k = length (shp x) ->
  (forall d, (d < length (shp x))%nat -> nth d k 0 = nth d i 0 + inner p rest d) ->
  valid (shp s) k /\ at_ s k = at_ x i.
Proof.
  induction rest as [|a rest IH]; intros x s Hn Hlt H i k V Lk Hk.
  - inv H. pose proof (valid_length _ _ V). assert (k = i).
    { apply list_ext with (d := 0); [lia|]. intros d Hd. rewrite Hk by lia. simpl. lia. }
    subst k. auto.
  - inv Hn. cbn [spec_axes] in H. destruct (params p (length rest)) as [q|] eqn:Hq; [|discriminate].
    destruct (spec_axis q a x) as [y|] eqn:Hy; [|discriminate].
    pose proof (Hlt a (or_introl eq_refl)) as Ha.
    destruct (spec_axis_core q a x y i Ha Hy V) as [V' A']. rewrite <- A'.
    pose proof (spec_axis_length _ _ _ _ Hy) as Ly. pose proof (valid_length _ _ V).
    apply (IH y s); auto; try lia.
    + intros b Hb. rewrite Ly. apply Hlt. now right.
    + intros d Hd. rewrite Ly in Hd. rewrite Hk by auto. simpl. destruct (Nat.eqb_spec d a).
      * subst d. rewrite nth_upd_eq by lia. rewrite Hq, inner_notin by auto. lia.
      * rewrite nth_upd_ne by auto. auto.
Qed.

Lemma off_inner (p : padder F) : forall rest v d, NoDup rest -> (d < length v)%nat ->
  (forall a, In a rest -> nth a v 0 = 0) -> (forall r, (r < length rest)%nat -> params p r <> None) ->
  nth d (off p rest v) 0 + inner p rest d = nth d v 0 + (nth d (widths_before p rest v) 0 - nth d v 0).
Proof.
  induction rest as [|a rest IH]; intros v d Hn Hd Hv Hp; simpl; [lia|]. inv Hn.
  destruct (params p (length rest)) as [q|] eqn:Hq; [|exfalso; eapply (Hp (length rest)); simpl; auto].
  assert (Hp' : forall r, (r < length rest)%nat -> params p r <> None) by (intros; apply Hp; simpl; lia).
  assert (E : match q with {| ap_before := b; ap_mode := MEmpty |} => upd a b v | _ => v end =
          if is_empty_mode F (ap_mode q) then upd a (ap_before q) v else v).
  { destruct q as [b ? m ? ? ?]. destruct m; reflexivity. }
  rewrite E. clear E.
  destruct (Nat.eqb_spec d a).
  - subst d. rewrite off_nochange, widths_before_notin, nth_upd_eq by auto. rewrite Hv by (now left).
    destruct (is_empty_mode F (ap_mode q)); [rewrite nth_upd_eq by auto|rewrite Hv by (now left)]; lia.
  - assert (G : forall w, (forall c, In c rest -> nth c w 0 = 0) -> length w = length v -> nth d w 0 = nth d v 0 ->
       forall u, (forall c, In c rest -> nth c u 0 = 0) -> length u = length v -> nth d u 0 = nth d v 0 ->
       nth d (off p rest w) 0 + inner p rest d = nth d v 0 + (nth d (widths_before p rest u) 0 - nth d v 0)).
    { intros w W1 W2 W3 u U1 U2 U3.
      assert (Eo : nth d (off p rest w) 0 = nth d (off p rest u) 0).
      { assert (L0 : length w = length u) by lia. assert (N0 : nth d w 0 = nth d u 0) by lia.
        assert (D0 : (d < length w)%nat) by lia. clear - L0 N0 D0. revert w u L0 N0 D0.
        induction rest as [|c rest IH]; simpl; intros; [lia|].
        destruct (params p (length rest)) as [[b' ? m ? ? ?]|]; [|now apply IH]. destruct m; try (now apply IH).
        apply IH; rewrite ?upd_length; auto. destruct (Nat.eq_dec c d).
        - subst. rewrite !nth_upd_eq by lia. auto.
        - rewrite !nth_upd_ne by auto. auto. }
      rewrite Eo. rewrite (IH u d); auto; try lia. }
    apply G.
    + intros c Hc. destruct (is_empty_mode F (ap_mode q)); [rewrite nth_upd_ne by congruence|]; apply Hv; now right.
    + destruct (is_empty_mode F (ap_mode q)); rewrite ?upd_length; auto.
    + destruct (is_empty_mode F (ap_mode q)); rewrite ?nth_upd_ne; auto.
    + intros c Hc. rewrite nth_upd_ne by congruence. apply Hv. now right.
    + now rewrite upd_length.
    + rewrite nth_upd_ne; auto.
Qed.

(** Offset of the original block along axis d. *)
Definition pad_before_of (p : padder F) al d : Z :=
  match axis_par p (last_axes p al) d with Some q => ap_before q | None => 0 end.

Lemma widths_before_par (p : padder F) rest d n : NoDup rest -> (d < n)%nat ->
  (forall r, (r < length rest)%nat -> params p r <> None) ->
  nth d (widths_before p rest (repeat 0 n)) 0 = match axis_par p rest d with Some q => ap_before q | None => 0 end.
Proof.
  intros Hn Hd Hp. destruct (in_dec Nat.eq_dec d rest) as [Hi|Hi].
  - apply in_split in Hi. destruct Hi as [l1 [l2 E]]. subst rest.
    assert (H1 : ~ In d l1).
    { apply NoDup_remove_2 in Hn. rewrite in_app_iff in Hn. tauto. }
    rewrite axis_par_in by auto. destruct (params p (length l2)) as [q|] eqn:Hq.
    + rewrite (widths_in F p l1 d l2 _ q), nth_repeat; auto. now rewrite repeat_length.
    + exfalso. eapply Hp; [|exact Hq]. rewrite app_length. simpl. lia.
  - rewrite axis_par_notin, widths_before_notin, nth_repeat by auto. auto.
Qed.

Theorem forward_block fuel junk p (x s : T) ax al : pad_call fuel p x ax al ->
  pad_spec p x al = Some s ->
  exists y, padder_forward fuel junk p x ax = Ok y /\ shp y = out_shape p (shp x) al /\
    forall i, valid (shp x) i ->
      at_ y (map (fun d => nth d i 0 + pad_before_of p al d) (seq 0 (ndim x))) = at_ x i.
Proof.
  intros PC Hs. destruct (forward_call fuel junk p x s ax al PC Hs) as [y [Hy [Sy [Hat _]]]].
  exists y. split; auto. split; auto. intros i V.
  pose proof (last_axes_nodup p al (pc_nodup _ _ _ _ _ PC)) as Hn.
  set (rest := last_axes p al) in *.
  assert (Hp : forall r, (r < length rest)%nat -> params p r <> None) by (eapply spec_axes_params; eauto).
  set (k := map (fun d => nth d i 0 + inner p rest d) (seq 0 (ndim x))).
  assert (Nk : forall (f : nat -> Z) d, (d < ndim x)%nat -> nth d (map f (seq 0 (ndim x))) 0 = f d).
  { intros f d Hd. rewrite nth_indep with (d' := f 0%nat) by (now rewrite map_length, seq_length).
    rewrite map_nth. now rewrite seq_nth. }
  destruct (spec_axes_core p rest x s Hn) with (i := i) (k := k) as [Vk Ak]; auto.
  { intros a Ha. apply (pc_lt _ _ _ _ _ PC). eapply last_axes_in; eauto. }
  { unfold k. now rewrite map_length, seq_length. }
  { intros d Hd. unfold k. now rewrite Nk. }
  rewrite <- Ak, <- Hat by auto. f_equal.
  apply list_ext with (d := 0).
  - rewrite map_length, seq_length, map2_length_eq; unfold k; rewrite map_length, seq_length; auto.
    fold rest. rewrite off_length, repeat_length. auto.
  - rewrite map_length, seq_length. intros d Hd. rewrite Nk by auto.
    rewrite nth_map2 with (da := 0) (db := 0).
    + unfold k. rewrite Nk by auto. fold rest.
      pose proof (off_inner p rest (repeat 0 (ndim x)) d Hn) as E.
      rewrite repeat_length in E. specialize (E Hd). rewrite nth_repeat in E.
      rewrite widths_before_par in E by auto. unfold pad_before_of. fold rest.
      rewrite <- Z.add_assoc. f_equal. rewrite Z.add_comm, E; auto; [lia|]. intros; apply nth_repeat.
    + unfold k. now rewrite map_length, seq_length.
    + fold rest. now rewrite off_length, repeat_length.
Qed.

(** *** No uninitialised memory *)
Theorem forward_no_junk fuel junk1 junk2 p (x : T) ax al : pad_call fuel p x ax al -> all_fine p x al ->
  (forall a q, In a (last_axes p al) -> axis_par p (last_axes p al) a = Some q -> is_empty_mode F (ap_mode q) = false) ->
  exists y1 y2, padder_forward fuel junk1 p x ax = Ok y1 /\ padder_forward fuel junk2 p x ax = Ok y2 /\ teq y1 y2.
Proof.
  intros PC Hf Hne. destruct (pad_spec_some p x al (pc_nodup _ _ _ _ _ PC) Hf) as [s Hs].
  destruct (forward_call fuel junk1 p x s ax al PC Hs) as [y1 [H1 [_ [_ T1]]]].
  destruct (forward_call fuel junk2 p x s ax al PC Hs) as [y2 [H2 [_ [_ T2]]]].
  exists y1, y2. split; auto. split; auto.
  assert (no_empty_mode F p al).
  { apply no_empty_by_par; auto. apply last_axes_nodup, (pc_nodup _ _ _ _ _ PC). }
  eapply teq_trans; [apply T1; auto|]. apply teq_sym. auto.
Qed.

(** *** The constructor *)
Lemma mapM_in {A B} (f : A -> res B) l r b : mapM f l = Ok r -> In b r -> exists a, In a l /\ f a = Ok b.
Proof.
  revert r. induction l as [|a l IH]; simpl; intros r H Hb.
  - inv H. destruct Hb.
  - destruct (f a) as [b0|] eqn:Ea; [|discriminate]. simpl in H.
    destruct (mapM f l) as [bs|]; [|discriminate]. simpl in H. inv H. destruct Hb as [->|Hb]; eauto.
    destruct (IH bs eq_refl Hb) as [a' [? ?]]. eauto.
Qed.
Lemma nth_error_rev_some {A} (l : list A) r : (r < length l)%nat -> exists a, nth_error (rev l) r = Some a /\ In a l.
Proof.
  intros H. destruct (nth_error (rev l) r) as [a|] eqn:E.
  - exists a. split; auto. apply nth_error_In in E. now apply in_rev.
  - apply nth_error_None in E. rewrite rev_length in E. lia.
Qed.
Lemma agg_shapes_in l n : In n (agg_shapes l) <-> In (Some n) l.
Proof.
  induction l as [|[m|] l IH]; simpl; [tauto| |].
  - destruct (existsb (Z.eqb m) (agg_shapes l)) eqn:E.
    + rewrite IH. split; [tauto|]. intros [H|H]; auto. inv H. apply existsb_exists in E.
      destruct E as [k [K1 K2]]. apply Z.eqb_eq in K2. subst k. now apply IH.
    + simpl. rewrite IH. split; intros [H|H]; auto; [left; congruence|inv H; auto].
  - rewrite IH. split; [tauto|]. intros [H|H]; [discriminate|auto].
Qed.
Lemma agg_index_len_spec l n : agg_index_len l = Ok n -> (forall m, In (Some m) l -> m = n) /\
  ((forall m, ~ In (Some m) l) -> n = 0).
Proof.
  unfold agg_index_len, agg_index_shape. intros H. destruct (agg_shapes l) as [|m [|]] eqn:E; inv H.
  - split; auto. intros m Hm. apply agg_shapes_in in Hm. rewrite E in Hm. destruct Hm.
  - split.
    + intros k Hk. apply agg_shapes_in in Hk. rewrite E in Hk. destruct Hk as [|[]]; auto.
    + intros Hno. exfalso. apply (Hno n). apply agg_shapes_in. rewrite E. now left.
Qed.

Definition nonempty_list {A} (s : nds A) : Prop := match s with NItem _ => True | NList l => l <> [] end.

(** A constructed padder has parameters for every axis it can be applied to,
    with nonnegative widths. *)
Theorem padder_init_params w m c e s p (al : list nat) :
  @padder_init F w m c e s = Ok p ->
  nonempty_list w -> nonempty_list m -> nonempty_list c -> nonempty_list e -> nonempty_list s ->
  forall r, (r < length (last_axes p al))%nat ->
  exists q, params p r = Some q /\ 0 <= ap_before q /\ 0 <= ap_after q.
Proof.
  unfold padder_init. intros H Nw Nm Nc Ne Ns r Hr.
  destruct (nds_map _ w) as [w'|] eqn:Ew; [|discriminate]. cbn [bind] in H.
  destruct (align_ndim w' m c e s) as [n|] eqn:En; [|discriminate]. cbn [bind] in H. inv H.
  unfold align_ndim in En. apply agg_index_len_spec in En. destruct En as [En _].
  assert (Hrn : 0 < n -> Z.of_nat r < n).
  { intros Hn. unfold last_axes in Hr. cbn [p_ndim] in Hr. destruct (Z.ltb_spec 0 n); [|lia].
    rewrite skipn_length in Hr. lia. }
  assert (G : forall A (u : nds A), nonempty_list u -> (forall k, nds_ishape u = Some k -> k = n) ->
     exists a, item u r = Some a /\ (u = NItem a \/ exists l, u = NList l /\ In a l)).
  { intros A [a|l] Hu Hk; [simpl; eauto|]. simpl in *. specialize (Hk _ eq_refl).
    destruct (nth_error_rev_some l r) as [a [Ha1 Ha2]]; [destruct l; [congruence|simpl in *; lia]|].
    exists a. split; auto. right. eauto. }
  assert (Nw' : nonempty_list w').
  { destruct w as [a|l]; simpl in Ew.
    - destruct (check_pad_width (fst a) (snd a)); inv Ew. exact I.
    - destruct (mapM _ l) as [bs|] eqn:Em; inv Ew. simpl. apply mapM_length in Em.
      destruct bs; [destruct l; [exact Nw|discriminate]|congruence]. }
  destruct (G _ w' Nw') as [pw [G1 G1']]. { intros k Hk. apply En. simpl. auto. }
  destruct (G _ m Nm) as [gm [G2 _]]. { intros k Hk. apply En. simpl. auto. }
  destruct (G _ c Nc) as [gc [G3 _]]. { intros k Hk. apply En. simpl. auto. }
  destruct (G _ e Ne) as [ge [G4 _]]. { intros k Hk. apply En. simpl. auto. }
  destruct (G _ s Ns) as [gs [G5 _]]. { intros k Hk. apply En. simpl. auto 6. }
  assert (Hpw : 0 <= fst pw /\ 0 <= snd pw).
  { assert (C : forall q, check_pad_width (fst q) (snd q) = Ok pw -> 0 <= fst pw /\ 0 <= snd pw).
    { intros q Hq. unfold check_pad_width in Hq.
      destruct (Z.ltb_spec (fst q) 0); [discriminate|]. destruct (Z.ltb_spec (snd q) 0); [discriminate|].
      inv Hq. simpl. lia. }
    destruct w as [a|l]; simpl in Ew.
    - destruct (check_pad_width (fst a) (snd a)) eqn:Ec; inv Ew.
      destruct G1' as [E|[l' [E _]]]; inv E. eauto.
    - destruct (mapM _ l) as [bs|] eqn:Em; inv Ew. destruct G1' as [E|[l' [E Hin]]]; inv E.
      eapply mapM_in in Em; eauto. destruct Em as [q [_ Hq]]. eauto. }
  destruct pw as [b a]. eexists. split; [unfold params; cbn [p_width p_mode p_const p_end p_stat];
    rewrite G1, G2, G3, G4, G5; reflexivity|]. simpl in *. auto.
Qed.
End Cor.
