(** How Padder.forward ends for every list of modes, and axis numbers that are not axes in padding and pooling (C127). *)
From Verif Require Export PadWrap PoolRepeat MetricErrors.
Open Scope Z_scope.

(** The first error met in the fill loop over the axes; [lost] tells whether mode "zeros" has replaced the slices by a
    function object (generic_pad.py:164). *)
Fixpoint fate {F : ofield} (p : padder F) (rest : list nat) (lost : bool) : option err :=
  match rest with
  | [] => None
  | _ :: rest' =>
    match params p (length rest') with
    | None => Some IndexError
    | Some q =>
      if (ap_before q =? 0) && (ap_after q =? 0) then fate p rest' lost
      else match ap_mode q with
           | MEmpty => fate p rest' lost
           | MZeros => fate p rest' true
           | MUnknown => Some ValueError
           | _ => if lost then Some TypeError else fate p rest' lost
           end
    end
  end.
Definition ends {A} (r : res A) (o : option err) : Prop := match o with Some e => r = Err e | None => exists y, r = Ok y end.

Section AE.
Variable F : ofield.
Notation T := (tensor F).

Lemma fate_lost fuel p axes : forall rest pre (y : T),
  axes = map Z.of_nat (pre ++ rest) -> (forall a, In a rest -> (a < ndim y)%nat) ->
  (forall r q, (r < length rest)%nat -> params p r = Some q -> no_user_fun F (ap_mode q)) ->
  (forall r, (r < length rest)%nat -> exists q, params p r = Some q) ->
  ends (fill_loop fuel p y axes (negs (length rest)) FunctionObject) (fate p rest true).
Proof.
  induction rest as [|a rest IH]; intros pre y Hax Hlt Hnf Hp; [cbn; eauto|].
  destruct (Hp (length rest)) as [q Hq]; [simpl; lia|]. pose proof (Hnf (length rest) q ltac:(simpl; lia) Hq) as Hm.
  destruct (params_get F p _ q Hq) as [G1 [G2 [G3 [G4 G5]]]]. cbn [length negs fill_loop fate].
  rewrite Hax. rewrite pyidx_app_axis. cbn [bind]. rewrite G1, Hq. cbn [bind fst snd].
  assert (Hax' : map Z.of_nat (pre ++ a :: rest) = map Z.of_nat ((pre ++ [a]) ++ rest)) by now rewrite <- app_assoc.
  assert (IH' : ends (fill_loop fuel p y (map Z.of_nat (pre ++ a :: rest)) (negs (length rest)) FunctionObject) (fate p rest true)).
  { rewrite Hax' in *. rewrite <- Hax. apply (IH (pre ++ [a])); auto.
    - intros; apply Hlt; now right. - intros r q' Hr; apply Hnf; simpl; lia. - intros; apply Hp; simpl; lia. }
  destruct ((ap_before q =? 0) && (ap_after q =? 0)) eqn:Ez; auto.
  rewrite axis_nat_ok by (apply Hlt; now left). rewrite ?of_nat_neg. cbn [bind].
  unfold fill_value_1d. rewrite G1. cbn [bind fst snd]. rewrite Ez, G2. cbn [bind].
  unfold mode_params. rewrite G3, G4, G5.
  destruct (ap_mode q); cbn [bind fst snd pad_func_of]; auto; cbn; contradiction || reflexivity.
Qed.

Lemma fate_loop NS fuel p axes : forall rest pre idx h t (s y : T),
  axes = map Z.of_nat (pre ++ rest) -> NoDup rest -> (forall a, In a rest -> (a < length NS)%nat) ->
  Inv F NS idx h t s y -> idxnow idx h t rest -> pending F NS p h t rest ->
  (forall a, In a rest -> nth a NS 0 <= Z.of_nat fuel) ->
  (forall r q, (r < length rest)%nat -> params p r = Some q -> 0 <= ap_before q /\ 0 <= ap_after q /\ no_user_fun F (ap_mode q)) ->
  (forall l1 a l2 q, rest = l1 ++ a :: l2 -> params p (length l2) = Some q -> (ap_before q = 0 /\ ap_after q = 0) \/ empty_ok (ap_mode q) = true \/ ap_mode q = MZeros \/ ap_mode q = MUnknown \/ 1 <= nth a (shp s) 0) ->
  ends (fill_loop fuel p y axes (negs (length rest)) (Idx idx)) (fate p rest false).
Proof.
  induction rest as [|a rest IH]; intros pre idx h t s y Hax Hnd Hlt I Hix Hpend Hfuel Hp Hs; [cbn; eauto|].
  inv Hnd. destruct Hpend as [[q [Hq [Hha HNa]]] Hpend].
  destruct (Hp (length rest) q) as [P1 [P2 Hnf]]; auto.
  pose proof (Hlt a (or_introl eq_refl)) as Ha. destruct (params_get _ _ _ _ Hq) as [G1 [G2 [G3 [G4 G5]]]].
  assert (Hax' : map Z.of_nat (pre ++ a :: rest) = map Z.of_nat ((pre ++ [a]) ++ rest)) by now rewrite <- app_assoc.
  pose proof I as [X [Sy [Ls [Hss Hy]]]]. pose proof X as [L [L1 [L2 Hr]]].
  cbn [negs length fill_loop fate]. rewrite pyidx_app_axis, Hq. cbn [bind]. rewrite G1. cbn [bind fst snd].
  assert (Hndim : ndim y = length NS) by (unfold ndim; now rewrite Sy).
  assert (Hlt' : forall b, In b rest -> (b < length NS)%nat) by (intros; apply Hlt; now right).
  assert (Hfuel' : forall b, In b rest -> nth b NS 0 <= Z.of_nat fuel) by (intros; apply Hfuel; now right).
  assert (Hp' : forall r q, (r < length rest)%nat -> params p r = Some q -> 0 <= ap_before q /\ 0 <= ap_after q /\ no_user_fun F (ap_mode q)).
  { intros r q' Hr' Hq'. apply (Hp r); auto. simpl; lia. }
  assert (Hs0 : forall l1 b l2 q, rest = l1 ++ b :: l2 -> params p (length l2) = Some q -> (ap_before q = 0 /\ ap_after q = 0) \/ empty_ok (ap_mode q) = true \/ ap_mode q = MZeros \/ ap_mode q = MUnknown \/ 1 <= nth b (shp s) 0).
  { intros l1 b l2 q' E. apply (Hs (a :: l1)). now rewrite E. }
  assert (Same : ends (fill_loop fuel p y (map Z.of_nat (pre ++ a :: rest)) (negs (length rest)) (Idx idx)) (fate p rest false)).
  { eapply (IH (pre ++ [a])); eauto. intros b Hb. apply Hix. now right. }
  destruct ((ap_before q =? 0) && (ap_after q =? 0)) eqn:Hz; auto.
  rewrite Hndim, axis_nat_ok by auto. rewrite ?of_nat_neg. cbn [bind].
  assert (Cases : is_empty_mode F (ap_mode q) = true \/ ap_mode q = MZeros \/ ap_mode q = MUnknown \/
     (is_empty_mode F (ap_mode q) = false /\
      exists e, mode_ext (ap_mode q) (ap_before q) (ap_after q) (ap_const q) (ap_end q) (ap_stat q) = Some e)).
  { revert Hnf. destruct (ap_mode q); simpl; intros; try tauto; right; right; right; eauto. }
  destruct Cases as [Hem|[Hmz|[Hmu|[Hem [e He]]]]].
  - rewrite (fill_value_empty F fuel p q (length rest) idx y a Hq Hem). cbn [bind fst snd]. destruct (ap_mode q); try discriminate. auto.
  - unfold fill_value_1d. rewrite G1. cbn [bind fst snd]. rewrite Hz, G2, Hmz. cbn [bind fst snd].
    eapply (fate_lost fuel p _ rest (pre ++ [a])); eauto.
    + intros b Hb. rewrite Hndim. auto.
    + intros r q' Hr' Hq'. apply (Hp' r q'); auto.
    + intros r Hr'. clear - Hpend Hr'. revert r Hr'. induction rest as [|b rest IH]; simpl; intros; [lia|].
      destruct Hpend as [[q [Hq _]] Hpend]. destruct (Nat.eq_dec r (length rest)); [subst; eauto|].
      apply IH; auto. lia.
  - unfold fill_value_1d. rewrite G1. cbn [bind fst snd]. rewrite Hz, G2, Hmu. cbn [bind fst snd mode_params pad_func_of].
    reflexivity.
  - assert (Hfine : axis_fine F q (nth a (shp s) 0)).
    { split; auto. split; auto. right. right. split; [|eauto]. destruct (Hs [] a rest q eq_refl Hq) as [[Z1 Z2]|[K|[K|[K|K]]]]; auto.
      - rewrite Z1, Z2 in Hz. discriminate.
      - rewrite K in He. discriminate. - rewrite K in He. discriminate. }
    destruct (spec_axis_some F q a s Hfine) as [s1 Hs1].
    destruct (fill_value_ok F NS fuel p q (length rest) idx h t s s1 y a) as [y1 [Hy1 I1]]; auto.
    { apply Hix. now left. } { apply Hfuel. now left. }
    rewrite Hy1. cbn [bind fst snd].
    replace (match ap_mode q with MEmpty => fate p rest false | MZeros => fate p rest true | MUnknown => Some ValueError | _ => fate p rest false end) with (fate p rest false)
      by (destruct (ap_mode q); auto; discriminate).
    eapply (IH (pre ++ [a])); eauto.
    + intros b Hb. rewrite !nth_upd_ne by congruence. apply Hix. now right.
    + apply pending_upd; auto.
    + intros l1 b l2 q' E Hq'. rewrite (spec_axis_shape F _ _ _ _ b Hs1); [eapply Hs0; eauto|].
      intros ->. apply H1. rewrite E. apply in_elt.
Qed.

(** How the call ends, for every list of modes without user functions and non-empty axes where the mode needs a sample. *)
Theorem forward_ends fuel junk p (x : T) ax al : pad_call fuel p x ax al -> params_ok F p al ->
  (forall r q, (r < length (last_axes p al))%nat -> params p r = Some q -> no_user_fun F (ap_mode q)) ->
  (forall l1 a l2 q, last_axes p al = l1 ++ a :: l2 -> params p (length l2) = Some q ->
     (ap_before q = 0 /\ ap_after q = 0) \/ empty_ok (ap_mode q) = true \/ ap_mode q = MZeros \/ ap_mode q = MUnknown \/ 1 <= nth a (shp x) 0) ->
  ends (padder_forward fuel junk p x ax) (fate p (last_axes p al) false).
Proof.
  intros [Hnd Hsh Hax Hlt Hdup Hfuel] Hpar Hnf Hlen.
  destruct (forward_setup F fuel junk p x ax al Hnd Hsh Hax Hlt Hdup Hpar)
    as [X [LNS [Ht [Hp [_ [y0 [Sy [A0 [_ Hf]]]]]]]]].
  destruct (last_axes_suffix F p al) as [pre Hpre].
  assert (Hlt' : forall a, In a (last_axes p al) -> (a < ndim x)%nat).
  { intros a Ha. apply Hlt. eapply last_axes_in; eauto. }
  pose proof X as [L [L1 [L2 _]]]. rewrite LNS in L, L1, L2.
  rewrite Hf. destruct (list_eqb _ _) eqn:Eq.
  - (* all widths are zero *)
    assert (Z0 : forall l1 a l2, last_axes p al = l1 ++ a :: l2 -> forall q, params p (length l2) = Some q -> ap_before q = 0 /\ ap_after q = 0).
    { intros l1 a l2 E q Hq.
      assert (Ha : (a < ndim x)%nat) by (apply Hlt'; rewrite E; apply in_elt).
      apply list_eqb_eq in Eq. apply (f_equal (fun l => nth a l 0)) in Eq. 
      destruct (Hpar (length l2)) as (q' & Hq' & Pb & Pa); [rewrite E, app_length; cbn; lia|]. assert (q' = q) by congruence. subst q'.
      assert (D : NoDup (last_axes p al)) by (now apply last_axes_nodup).
      unfold out_shape in Eq.
      rewrite nth_map2 with (da := 0) (db := 0) in Eq; cycle 1.
      { rewrite map2_length, widths_before_length, repeat_length. unfold ndim in Ha. lia. }
      { rewrite widths_after_length, repeat_length. exact Ha. }
      rewrite nth_map2 with (da := 0) (db := 0) in Eq; cycle 1.
      { rewrite widths_before_length, repeat_length. exact Ha. } { exact Ha. }
      rewrite E in Eq, D. fold (ndim x) in Eq.
      rewrite (widths_in F p l1 a l2 (repeat 0 (ndim x)) q) in Eq by (auto; now rewrite repeat_length).
      rewrite (widths_after_in F p (shp x) l1 a l2 (repeat 0 (ndim x)) q) in Eq by (auto; now rewrite repeat_length).
      rewrite nth_repeat in Eq. unfold step_after in Eq.
      destruct ((ap_before q =? 0) && (ap_after q =? 0)) eqn:Ez; [bdestr; auto|].
      assert (0 <= parity_slot (ap_mode q) (nth a (shp x) 0)).
      { unfold parity_slot. destruct (ap_mode q); try lia. apply Z.mod_pos_bound. lia. }
      lia. }
    assert (E : fate p (last_axes p al) false = None).
    { assert (Hpp : forall r, (r < length (last_axes p al))%nat -> exists q, params p r = Some q) by (intros r Hr; destruct (Hpar r Hr) as (q & ? & _); eauto).
      revert Z0 Hpp. generalize (last_axes p al) as l. clear. induction l as [|a l IH]; intros Z0 Hpp; [reflexivity|]. cbn [fate].
      destruct (Hpp (length l)) as [q Hq]; [cbn; lia|]. rewrite Hq. destruct (Z0 [] a l eq_refl q Hq) as [-> ->]. cbn [Z.eqb andb].
      apply IH; [intros l1 b l2 E; apply (Z0 (a :: l1) b); now rewrite E|intros r Hr; apply Hpp; cbn; lia]. }
    rewrite E. cbn. eauto.
  - apply (fate_loop (out_shape p (shp x) al) fuel p _ (last_axes p al) pre _ (heads F p x al) (tails F p x al) x); auto.
    + now rewrite <- Hpre.
    + now apply last_axes_nodup.
    + intros a Ha. rewrite LNS. auto.
    + split; auto. split; auto. split; auto. split; auto. intros d Hd. rewrite LNS in Hd. rewrite Ht by auto. lia.
    + intros a Ha. apply Hlt' in Ha. rewrite nth_map2 with (da := 0) (db := 0); auto; lia.
    + intros r q Hr Hq. destruct (Hpar r Hr) as [q' [Hq' [? ?]]]. assert (q = q') by congruence. subst q'.
      split; auto. split; auto. eapply Hnf; eauto.
Qed.

(** *** Axis numbers that are not axes *)
Lemma width_loop_off p sh axes : forall is hv pv,
  (forall i, In i is -> exists w m a, nds_get (p_width p) i = Ok w /\ nds_get (p_mode p) i = Ok m /\ pyidx axes i = Ok a) ->
  (exists i w a, In i is /\ nds_get (@p_width F p) i = Ok w /\ w <> (0, 0) /\ pyidx axes i = Ok a /\ off_range (length sh) a) ->
  width_loop p sh axes is hv pv = Err IndexError.
Proof.
  induction is as [|i is IH]; intros hv pv H (i0 & w0 & a0 & Hi & W & Wn & A & O); [destruct Hi|]. cbn [width_loop].
  destruct (H i (or_introl eq_refl)) as (w & m & a & E1 & E2 & E3). rewrite E1. cbn [bind].
  destruct ((fst w =? 0) && (snd w =? 0)) eqn:Ez.
  - apply IH; [intros; apply H; now right|]. destruct Hi as [->|Hi]; [|exists i0, w0, a0; auto].
    exfalso. apply Wn. replace w0 with w by congruence. destruct w as [u v]. cbn [fst snd] in Ez. bdestr. now f_equal.
  - rewrite E3. cbn [bind]. destruct (off_dec (length sh) a) as [Q|Q]; [now rewrite axis_nat_off|]. rewrite axis_nat_in by auto. cbn [bind].
    rewrite E2. cbn [bind]. apply IH; [intros; apply H; now right|]. destruct Hi as [->|Hi]; [|exists i0, w0, a0; auto]. exfalso. replace a0 with a in O by congruence. contradiction.
Qed.
Lemma in_negs n i : In i (negs n) <-> exists r, (r < n)%nat /\ i = - Z.of_nat (S r).
Proof.
  induction n as [|n IH]; [cbn; split; [intros []|intros (r & Hr & _); lia]|]. cbn [negs In]. rewrite IH. split.
  - intros [<-|(r & Hr & ->)]; [exists n|exists r]; split; auto.
  - intros (r & Hr & ->). destruct (Nat.eq_dec r n) as [->|N]; [now left|right; exists r; split; auto; lia].
Qed.
Lemma pyidx_right (l : list Z) r : (r < length l)%nat -> pyidx l (- Z.of_nat (S r)) = Ok (nth (length l - 1 - r) l 0).
Proof.
  intros Hr. unfold pyidx. destruct (Z.ltb_spec (- Z.of_nat (S r)) 0); [|lia]. cbv zeta.
  destruct (Z.leb_spec 0 (- Z.of_nat (S r) + Z.of_nat (length l))); [|lia]. destruct (Z.ltb_spec (- Z.of_nat (S r) + Z.of_nat (length l)) (Z.of_nat (length l))); [|lia].
  cbn [andb]. replace (Z.to_nat _) with (length l - 1 - r)%nat by lia. rewrite (nth_error_nth' l 0) by lia. reflexivity.
Qed.

(** How many axes the padder looks at. *)
Definition looked_at (p : padder F) (l : list Z) : nat :=
  if 0 <? p_ndim p then Nat.min (length l) (Z.to_nat (p_ndim p)) else length l.
Lemma looked_at_Z p l : (if 0 <? p_ndim p then Z.min (Z.of_nat (length l)) (p_ndim p) else Z.of_nat (length l)) = Z.of_nat (looked_at p l).
Proof. unfold looked_at. destruct (Z.ltb_spec 0 (p_ndim p)); lia. Qed.

Theorem pad_off_range fuel junk p (x : T) ax l : (0 < ndim x)%nat -> check_axes (Z.of_nat (ndim x)) ax = Ok l ->
  (forall r, (r < looked_at p l)%nat -> params p r <> None) ->
  (exists r q, (r < looked_at p l)%nat /\ params p r = Some q /\ (ap_before q, ap_after q) <> (0, 0) /\ off_range (ndim x) (nth (length l - 1 - r) l 0)) ->
  padder_forward fuel junk p x ax = Err IndexError.
Proof.
  intros Hnd Hc Hp (r & q & Hr & Hq & Hw & O). unfold padder_forward. unfold assertb. rewrite (proj2 (Nat.ltb_lt _ _) Hnd). cbn [bind]. rewrite Hc. cbn [bind].
  assert (Ll : (looked_at p l <= length l)%nat) by (unfold looked_at; destruct (_ <? _); lia).
  destruct l as [|a l]; [cbn [length] in Ll; lia|]. cbv zeta. rewrite looked_at_Z, neg_range_negs.
  rewrite width_loop_off; [reflexivity| |].
  - intros i Hi. apply in_negs in Hi as (k & Hk & ->). specialize (Hp k Hk). destruct (params p k) as [qk|] eqn:E; [|congruence].
    destruct (params_get F p k qk E) as (G1 & G2 & _). exists (ap_before qk, ap_after qk), (ap_mode qk). eexists. split; [exact G1|]. split; [exact G2|].
    apply pyidx_right. lia.
  - destruct (params_get F p r q Hq) as (G1 & _). exists (- Z.of_nat (S r)), (ap_before q, ap_after q). eexists. split; [apply in_negs; eauto|].
    split; [exact G1|]. split; [exact Hw|]. split; [apply pyidx_right; lia|]. exact O.
Qed.

(** *** An int below -ndim counts once more from the end *)
Lemma axis_nat_wrap nd a : - Z.of_nat nd <= a < 0 -> axis_nat nd a = axis_nat nd (a + Z.of_nat nd).
Proof.
  intros H. unfold axis_nat. destruct (Z.ltb_spec a 0); [|lia]. destruct (Z.ltb_spec (a + Z.of_nat nd) 0); [lia|]. reflexivity.
Qed.
Lemma int_axes nd a : - Z.of_nat nd <= a < 0 -> check_axes (Z.of_nat nd) (AxInt (a - Z.of_nat nd)) = Ok [a] /\ check_axes (Z.of_nat nd) (AxInt a) = Ok [a + Z.of_nat nd].
Proof.
  intros H. cbn [check_axes]. destruct (Z.leb_spec 0 (a - Z.of_nat nd)); [lia|]. destruct (Z.leb_spec 0 a); [lia|]. split; do 2 f_equal; lia.
Qed.
(** Modes whose padding function does not look at the sign of the axis number (for user functions it is not modelled). *)
Definition sign_free (m : mode F) : Prop := match m with MSmooth | MLinearRamp | MFun _ => False | _ => True end.
Lemma fill_sign fuel p (y : T) i k idx : (forall m, nds_get (p_mode p) i = Ok m -> sign_free m) ->
  fill_value_1d fuel true p y i k idx = fill_value_1d fuel false p y i k idx.
Proof.
  intros H. unfold fill_value_1d. destruct (nds_get (p_width p) i) as [w|e]; cbn [bind]; auto. destruct (_ && _); auto.
  destruct (nds_get (p_mode p) i) as [m|e]; cbn [bind]; auto. specialize (H m eq_refl). destruct m; cbn in H; try contradiction; reflexivity.
Qed.
(** Both calls, up to the filling. *)
Lemma pad_int_form fuel junk p (x : T) a : - Z.of_nat (ndim x) <= a < 0 ->
  let k := Z.to_nat (a + Z.of_nat (ndim x)) in
  let tl w m := let pv := vadd (repeat 0 (ndim x)) k (snd w) in if is_periodize m then vadd pv k (nth k (shp x) 0 mod 2) else pv in
  let h w := vadd (repeat 0 (ndim x)) k (fst w) in
  let t w := map2 Z.add (h w) (shp x) in
  let NS w m := map2 Z.add (t w) (tl w m) in
  let out neg :=
    _ <- assertb (Nat.ltb 0 (ndim x)) ;;
    w <- nds_get (p_width p) (-1) ;;
    if (fst w =? 0) && (snd w =? 0) then Ok x else
    m <- nds_get (p_mode p) (-1) ;;
    if list_eqb (shp x) (NS w m) then Ok x else
    y <- tset (tempty (NS w m) junk) (map2 srng (h w) (t w)) x ;;
    z <- fill_value_1d fuel neg p y (-1) k (Idx (map2 srng (h w) (t w))) ;; Ok (fst z) in
  padder_forward fuel junk p x (AxInt (a - Z.of_nat (ndim x))) = out true /\ padder_forward fuel junk p x (AxInt a) = out false.
Proof.
  intros H k tl h t NS out. destruct (int_axes (ndim x) a H) as [E1 E2].
  assert (K : forall c neg, axis_nat (ndim x) c = Ok k -> (c <? 0) = neg -> check_axes (Z.of_nat (ndim x)) (AxInt (if neg : bool then a - Z.of_nat (ndim x) else a)) = Ok [c] ->
    padder_forward fuel junk p x (AxInt (if neg then a - Z.of_nat (ndim x) else a)) = out neg).
  { intros c neg Hc Hneg Ec. unfold padder_forward, out. destruct (assertb _); cbn [bind]; auto. rewrite Ec. cbn [bind length].
    set (np := if 0 <? p_ndim p then _ else _). assert (En : np = Z.of_nat 1) by (unfold np; destruct (Z.ltb_spec 0 (p_ndim p)); lia).
    rewrite En, neg_range_negs. clear np En. cbn [negs width_loop fill_loop]. change (- Z.of_nat 1) with (-1). change (pyidx [c] (-1)) with (Ok c). cbn [bind].
    destruct (nds_get (p_width p) (-1)) as [w|e]; cbn [bind]; auto.
    assert (Z0 : forall b, fst w = 0 -> snd w = 0 -> b = list_eqb (shp x) (map2 Z.add (map2 Z.add (repeat 0 (ndim x)) (shp x)) (repeat 0 (ndim x))) -> b = true).
    { intros b _ _ ->. unfold list_eqb. replace (map2 Z.add (map2 Z.add (repeat 0 (ndim x)) (shp x)) (repeat 0 (ndim x))) with (shp x).
      - induction (shp x) as [|u l IH]; cbn; auto. now rewrite Z.eqb_refl.
      - unfold ndim. clear. induction (shp x) as [|u l IH]; cbn; auto. rewrite <- IH. f_equal; lia. }
    destruct ((fst w =? 0) && (snd w =? 0)) eqn:Ez.
    { apply andb_true_iff in Ez. destruct Ez as [Z1 Z2]. apply Z.eqb_eq in Z1, Z2. cbn [bind]. cbv zeta. now rewrite (Z0 _ Z1 Z2 eq_refl). }
    change (length (shp x)) with (ndim x). rewrite Hc. cbn [bind]. destruct (nds_get (p_mode p) (-1)) as [m|e]; cbn [bind]; auto. cbv zeta. fold (tl w m). fold (h w). fold (t w). fold (NS w m).
    clear Z0. destruct (list_eqb (shp x) (NS w m)); auto. destruct (tset _ _ x) as [y0|e] eqn:Ey; cbn [bind]; auto.
    assert (Ly : ndim y0 = ndim x).
    { unfold tset in Ey. repeat match type of Ey with context [if ?c then _ else _] => destruct c; try discriminate end. inv Ey. unfold ndim. cbn [shp tempty]. unfold NS, t, tl, h, ndim.
      rewrite !map2_length. unfold vadd. destruct (is_periodize m); rewrite ?upd_length, ?repeat_length; lia. }
    rewrite Ly, Hc, Hneg. cbn [bind]. destruct (fill_value_1d _ _ _ _ _ _ _); reflexivity. }
  assert (Ek : axis_nat (ndim x) (a + Z.of_nat (ndim x)) = Ok k).
  { unfold axis_nat, k. destruct (Z.ltb_spec (a + Z.of_nat (ndim x)) 0); [lia|]. destruct (Z.leb_spec 0 (a + Z.of_nat (ndim x))); [|lia].
    destruct (Z.ltb_spec (a + Z.of_nat (ndim x)) (Z.of_nat (ndim x))); [|lia]. reflexivity. }
  split; [apply (K a true)|apply (K (a + Z.of_nat (ndim x)) false)]; auto.
  - rewrite axis_nat_wrap by auto. exact Ek.
  - apply Z.ltb_lt; lia.
  - apply Z.ltb_ge; lia.
Qed.
Theorem pad_int_wraps fuel junk p (x : T) a : - Z.of_nat (ndim x) <= a < 0 -> (forall m, nds_get (p_mode p) (-1) = Ok m -> sign_free m) ->
  padder_forward fuel junk p x (AxInt (a - Z.of_nat (ndim x))) = padder_forward fuel junk p x (AxInt a).
Proof.
  intros H Hm. destruct (pad_int_form fuel junk p x a H) as [E1 E2]. rewrite E1, E2. clear E1 E2.
  destruct (assertb _); cbn [bind]; auto. destruct (nds_get (p_width p) (-1)) as [w|e]; cbn [bind]; auto. destruct (_ && _); auto.
  destruct (nds_get (p_mode p) (-1)) as [m|e] eqn:Em; cbn [bind]; auto. destruct (list_eqb _ _); auto. destruct (tset _ _ x) as [y0|e]; cbn [bind]; auto.
  rewrite fill_sign; auto. intros m' E. apply Hm. congruence.
Qed.
(** smooth and linear_ramp. *)
Lemma pads_teq f g (y : T) idx k h t e : pads F f y idx k h t e -> pads F g y idx k h t e -> exists u v, f y idx k = Ok u /\ g y idx k = Ok v /\ teq u v.
Proof.
  intros [u [Hu [Su Au]]] [v [Hv [Sv Av]]]. exists u, v. split; auto. split; auto. split; [congruence|]. rewrite Su. intros j V. rewrite Au, Av by auto. reflexivity.
Qed.
Definition sloped (m : mode F) : Prop := m = MSmooth \/ m = MLinearRamp.
Lemma sloped_fill fuel p i q (y : T) idx k n : at_item F p i q -> sloped (ap_mode q) ->
  pre F y idx k (ap_before q) (ap_before q + n) -> nth k (shp y) 0 = ap_before q + n + ap_after q -> 0 <= ap_after q -> ap_before q + ap_after q <> 0 ->
  let r neg := (z <- fill_value_1d fuel neg p y i k (Idx idx) ;; Ok (fst z)) in
  (ap_before q <= 1 /\ ap_after q <= 1 \/ ap_mode q = MSmooth /\ n = 1 -> exists u v, r true = Ok u /\ r false = Ok v /\ teq u v) /\
  (2 <= ap_before q \/ 2 <= ap_after q -> (ap_mode q = MSmooth -> 2 <= n) -> r true = Err RuntimeError).
Proof.
  intros (H1 & H2 & _ & H4 & _) Hs P N Ha Hne r. pose proof P as [W Hidx Hhead Hht Htail].
  assert (Ez : (ap_before q =? 0) && (ap_after q =? 0) = false) by (destruct (Z.eqb_spec (ap_before q) 0); destruct (Z.eqb_spec (ap_after q) 0); lia || reflexivity).
  assert (R : forall neg, r neg = match ap_mode q with MSmooth => smooth_1d neg y idx k | _ => linear_ramp_1d neg y idx k (fst (ap_end q)) (snd (ap_end q)) end).
  { intros neg. unfold r, fill_value_1d. rewrite H1. cbn [bind fst snd]. rewrite Ez, H2. cbn [bind].
    destruct Hs as [Hs|Hs]; rewrite Hs; cbn [mode_params bind pad_func_of]; rewrite ?H4; cbn [bind pad_func_of];
      [destruct (smooth_1d neg y idx k); auto|destruct (linear_ramp_1d neg y idx k _ _); auto]; cbn [bind]; rewrite (head_tail_ok _ _ _ _ _ W Hidx); reflexivity. }
  assert (En : ap_before q + n - ap_before q = n) by lia. clearbody r. split.
  - intros Hc. rewrite !R. destruct Hs as [Hs|Hs]; rewrite Hs.
    + destruct (Z.eq_dec n 1) as [N1|N1].
      * rewrite (smooth_neg_line F y idx k _ _ P) by lia. destruct (smooth_pads F y idx k _ _ P) as [u [Hu _]]. exists u, u. split; auto. split; auto. split; auto.
      * apply (pads_teq (smooth_1d true) (smooth_1d false) y idx k (ap_before q) (ap_before q + n) ext_smooth); [|now apply smooth_pads].
        apply smooth_neg_pads; auto; lia.
    + assert (Hc' : ap_before q <= 1 /\ ap_after q <= 1) by (destruct Hc as [Hc|[Hc _]]; [auto|congruence]).
      apply (pads_teq (fun x i d => linear_ramp_1d true x i d (fst (ap_end q)) (snd (ap_end q))) (fun x i d => linear_ramp_1d false x i d (fst (ap_end q)) (snd (ap_end q)))
        y idx k (ap_before q) (ap_before q + n) (ext_linear_ramp (ap_before q) (nth k (shp y) 0 - (ap_before q + n)) (fst (ap_end q)) (snd (ap_end q)))).
      * apply ramp_neg_pads; auto; lia.
      * now apply linear_ramp_pads.
  - intros Hc Hn. rewrite R. destruct Hs as [Hs|Hs]; rewrite Hs.
    + specialize (Hn Hs). destruct (Z.le_gt_cases 2 (ap_before q)).
      * apply (smooth_neg_before F y idx k (ap_before q) (ap_before q + n)); auto; lia.
      * apply (smooth_neg_after F y idx k (ap_before q) (ap_before q + n)); auto; lia.
    + destruct (Z.le_gt_cases 2 (ap_before q)).
      * apply (ramp_neg_before F y idx k (ap_before q) (ap_before q + n)); auto; lia.
      * apply (ramp_neg_after F y idx k (ap_before q) (ap_before q + n)); auto; lia.
Qed.
Theorem pad_int_sloped fuel junk p (x : T) a q : - Z.of_nat (ndim x) <= a < 0 -> (forall d, (d < ndim x)%nat -> 0 <= nth d (shp x) 0) ->
  at_item F p (-1) q -> sloped (ap_mode q) -> 0 <= ap_before q -> 0 <= ap_after q ->
  ap_before q + ap_after q <> 0 ->
  let n := nth (Z.to_nat (a + Z.of_nat (ndim x))) (shp x) 0 in 1 <= n ->
  (ap_before q <= 1 /\ ap_after q <= 1 \/ ap_mode q = MSmooth /\ n = 1 -> exists y y',
     padder_forward fuel junk p x (AxInt (a - Z.of_nat (ndim x))) = Ok y /\ padder_forward fuel junk p x (AxInt a) = Ok y' /\ teq y y') /\
  (2 <= ap_before q \/ 2 <= ap_after q -> (ap_mode q = MSmooth -> 2 <= n) ->
     padder_forward fuel junk p x (AxInt (a - Z.of_nat (ndim x))) = Err RuntimeError).
Proof.
  intros H Hsh Hat Hs Hb Ha Z0 n Hn. set (k := Z.to_nat (a + Z.of_nat (ndim x))) in *. assert (Hk : (k < ndim x)%nat) by lia.
  set (h := vadd (repeat 0 (ndim x)) k (ap_before q)). set (t := map2 Z.add h (shp x)).
  set (pv := vadd (repeat 0 (ndim x)) k (ap_after q)). set (NS := map2 Z.add t pv).
  assert (Lh : length h = ndim x) by (unfold h, vadd; now rewrite upd_length, repeat_length).
  assert (Lp : length pv = ndim x) by (unfold pv, vadd; now rewrite upd_length, repeat_length).
  assert (Lt : length t = ndim x) by (unfold t; now rewrite map2_length_eq).
  assert (LN : length NS = ndim x) by (unfold NS; rewrite map2_length_eq; congruence).
  assert (Nh : forall d, (d < ndim x)%nat -> nth d h 0 = if Nat.eqb d k then ap_before q else 0).
  { intros d Hd. unfold h, vadd. destruct (Nat.eqb_spec d k); [subst d; rewrite nth_upd_eq by (now rewrite repeat_length); rewrite nth_repeat; lia|].
    rewrite nth_upd_ne by auto. apply nth_repeat. }
  assert (Np : forall d, (d < ndim x)%nat -> nth d pv 0 = if Nat.eqb d k then ap_after q else 0).
  { intros d Hd. unfold pv, vadd. destruct (Nat.eqb_spec d k); [subst d; rewrite nth_upd_eq by (now rewrite repeat_length); rewrite nth_repeat; lia|].
    rewrite nth_upd_ne by auto. apply nth_repeat. }
  assert (Nt : forall d, (d < ndim x)%nat -> nth d t 0 = nth d h 0 + nth d (shp x) 0) by (intros d Hd; unfold t; apply nth_map2; unfold ndim in *; lia).
  assert (NN : forall d, (d < ndim x)%nat -> nth d NS 0 = nth d t 0 + nth d pv 0) by (intros d Hd; unfold NS; apply nth_map2; lia).
  assert (X : idxrep NS (map2 srng h t) h t).
  { apply idxrep_srng; try congruence. intros d Hd. rewrite LN in Hd. rewrite NN, Nt, Nh, Np by auto. specialize (Hsh d Hd). destruct (Nat.eqb d k); lia. }
  pose proof Hat as (G1 & G2 & _).
  assert (Hnp : is_periodize (ap_mode q) = false) by (destruct Hs as [->| ->]; reflexivity).
  destruct (tset_block NS (tempty NS junk) x (map2 srng h t) h t) as [y0 [Hy0 [Sy0 _]]]; auto.
  { rewrite LN. intros d Hd. rewrite Nt by auto. lia. }
  assert (Nk : nth k NS 0 = ap_before q + n + ap_after q) by (rewrite NN, Nt, Nh, Np, Nat.eqb_refl by auto; reflexivity).
  assert (P : pre F y0 (map2 srng h t) k (ap_before q) (ap_before q + n)).
  { split; rewrite ?Sy0; try lia. - eapply idxrep_wfi; [exact X|lia].
    - rewrite nth_map2 with (da := 0) (db := 0) by lia. rewrite Nt, Nh, Nat.eqb_refl by auto. reflexivity. }
  destruct (sloped_fill fuel p (-1) q y0 (map2 srng h t) k n Hat Hs P) as [S1 S2]; auto. { now rewrite Sy0. }
  assert (Hg : list_eqb (shp x) NS = false).
  { destruct (list_eqb (shp x) NS) eqn:Eg; auto. exfalso. apply list_eqb_eq in Eg. rewrite <- Eg in Nk. fold n in Nk. lia. }
  assert (Ez : (ap_before q =? 0) && (ap_after q =? 0) = false) by (destruct (Z.eqb_spec (ap_before q) 0); destruct (Z.eqb_spec (ap_after q) 0); lia || reflexivity).
  assert (A0 : assertb (Nat.ltb 0 (ndim x)) = Ok tt) by (unfold assertb; now rewrite (proj2 (Nat.ltb_lt _ _)) by lia).
  destruct (pad_int_form fuel junk p x a H) as [E1 E2]. rewrite E1, E2. clear E1 E2. fold k. rewrite A0, G1, G2. cbn [bind fst snd]. rewrite Ez, Hnp.
  fold h. fold t. fold pv. fold NS. rewrite Hg, Hy0. cbn [bind]. split; [exact S1|exact S2].
Qed.

(** *** Pooling *)
Lemma pool_int_rejected fuel junk (m : pool F) (x : T) a : a < - 2 * Z.of_nat (ndim x) \/ Z.of_nat (ndim x) < a ->
  sep_forward fuel junk m x (AxInt a) = (m, Err AssertionError).
Proof.
  intros H. unfold sep_forward. cbn [check_axes]. destruct (_ || _); [|reflexivity]. unfold pool_pad. cbn [check_axes map forallb].
  set (b := if 0 <=? a then a else _). set (c := if 0 <=? b then b else _).
  assert (E : (0 <=? c) && (c <=? Z.of_nat (ndim x)) = false).
  { apply andb_false_iff. rewrite !Z.leb_gt. unfold c, b. destruct (Z.leb_spec 0 a); [destruct (Z.leb_spec 0 a); lia|]. destruct (Z.leb_spec 0 (Z.of_nat (ndim x) + a)); lia. }
  rewrite E. reflexivity.
Qed.
Lemma second_check nd l : (forall a, In a l -> 0 <= a <= nd) -> check_axes nd (AxSeq l) = Ok l.
Proof.
  intros H. cbn [check_axes]. assert (E : map (fun a => if 0 <=? a then a else nd + a) l = l).
  { rewrite <- (map_id l) at 2. apply map_ext_in. intros a Ha. specialize (H a Ha). destruct (Z.leb_spec 0 a); [auto|lia]. }
  rewrite E. assert (E2 : forallb (fun a => (0 <=? a) && (a <=? nd)) l = true).
  { apply forallb_forall. intros a Ha. specialize (H a Ha). apply andb_true_iff. rewrite !Z.leb_le. lia. }
  rewrite E2. reflexivity.
Qed.
Lemma pyidx_off (l : list Z) a : off_range (length l) a -> pyidx l a = Err IndexError.
Proof.
  unfold off_range, pyidx. intros H. destruct (Z.ltb_spec a 0); cbv zeta;
  (destruct (_ && _) eqn:E; [apply andb_prop in E; rewrite Z.leb_le, Z.ltb_lt in E; lia|reflexivity]).
Qed.
Lemma pyidx_on (l : list Z) a : ~ off_range (length l) a -> exists v, pyidx l a = Ok v.
Proof.
  unfold off_range, pyidx. intros H. set (k := if a <? 0 then _ else _). assert (0 <= k < Z.of_nat (length l)) by (unfold k; destruct (Z.ltb_spec a 0); lia).
  cbv zeta. destruct (Z.leb_spec 0 k); [|lia]. destruct (Z.ltb_spec k (Z.of_nat (length l))); [|lia]. cbn [andb].
  rewrite (nth_error_nth' l 0) by lia. eauto.
Qed.
Lemma lookup_off (sh : list Z) : forall l, (exists a, In a l /\ off_range (length sh) a) -> mapM (fun a => pyidx sh a) l = Err IndexError.
Proof.
  induction l as [|b l IH]; intros (a & Ha & O); [destruct Ha|]. cbn [mapM]. destruct (off_dec (length sh) b) as [Q|Q].
  - now rewrite pyidx_off.
  - destruct (pyidx_on sh b Q) as [v ->]. cbn [bind]. destruct Ha as [->|Ha]; [contradiction|]. rewrite IH by eauto. reflexivity.
Qed.
Lemma check_seq_range nd l l' : check_axes nd (AxSeq l) = Ok l' -> forall a, In a l' -> 0 <= a <= nd.
Proof.
  cbn [check_axes]. destruct (forallb _ _) eqn:E; [|discriminate]. cbn [assertb bind]. intros Q a Ha. inv Q.
  rewrite forallb_forall in E. apply E in Ha. apply andb_prop in Ha. rewrite !Z.leb_le in Ha. lia.
Qed.
(** With a same padder: IndexError before anything is changed. *)
Lemma pool_off_padder fuel junk (m : pool F) p (x : T) l l' : check_axes (Z.of_nat (ndim x)) (AxSeq l) = Ok l' -> pl_padder m = Some p ->
  pl_ndim m = 0 \/ pl_ndim m = Z.of_nat (length l) -> In (Z.of_nat (ndim x)) l' ->
  sep_forward fuel junk m x (AxSeq l) = (m, Err IndexError).
Proof.
  intros C P N I. assert (R := check_seq_range _ _ _ C). unfold sep_forward. rewrite C.
  assert (Ll : length l' = length l). { cbn [check_axes] in C. destruct (forallb _ _); [|discriminate]. cbn [assertb bind] in C. inv C. apply map_length. }
  assert (E : (pl_ndim m =? 0) || (pl_ndim m =? Z.of_nat (length l')) = true) by (apply orb_true_iff; rewrite !Z.eqb_eq, Ll; exact N).
  rewrite E. unfold pool_pad. rewrite second_check by exact R. rewrite P. rewrite lookup_off; [reflexivity|].
  exists (Z.of_nat (ndim x)). split; auto. unfold off_range, ndim. lia.
Qed.

(** Without one: the loop stops there at the latest. *)
Lemma pool_loop_off (m : pool F) : forall l i (x : T) kers sts, length kers = length l -> length sts = length l ->
  (forall r, (r < length l)%nat -> nds_get (pl_size m) (i + Z.of_nat r) = Ok (klen (nth r kers [])) /\
     nds_get (pl_kernel m) (i + Z.of_nat r) = Ok (nth r kers []) /\ nds_get (pl_stride m) (i + Z.of_nat r) = Ok (nth r sts 1)) ->
  (exists r, (r < length l)%nat /\ nth r kers [] <> [] /\ off_range (ndim x) (nth r l 0)) ->
  pool_loop m x i l = Err IndexError \/ pool_loop m x i l = Err RuntimeError.
Proof.
  induction l as [|a l IH]; intros i x kers sts Lk Ls H (r & Hr & Hk & O); [cbn in Hr; lia|].
  destruct kers as [|k kers]; [discriminate|]. destruct sts as [|s sts]; [discriminate|]. cbn [length] in Lk, Ls.
  destruct (H 0%nat) as (G1 & G2 & G3); [cbn; lia|]. cbn [nth] in G1, G2, G3. replace (i + Z.of_nat 0) with i in * by lia.
  assert (Hrec : forall r, (r < length l)%nat -> nds_get (pl_size m) (i + 1 + Z.of_nat r) = Ok (klen (nth r kers [])) /\
     nds_get (pl_kernel m) (i + 1 + Z.of_nat r) = Ok (nth r kers []) /\ nds_get (pl_stride m) (i + 1 + Z.of_nat r) = Ok (nth r sts 1)).
  { intros r' Hr'. specialize (H (S r')). cbn [nth] in H. replace (i + Z.of_nat (S r')) with (i + 1 + Z.of_nat r') in H by lia. apply H. cbn. lia. }
  assert (Next : forall x', ndim x' = ndim x -> (r <> 0)%nat -> pool_loop m x' (i + 1) l = Err IndexError \/ pool_loop m x' (i + 1) l = Err RuntimeError).
  { intros x' Nx Hn. destruct r as [|r]; [congruence|]. cbn [nth] in Hk, O. cbn [length] in Hr. apply (IH (i + 1) x' kers sts); auto; try lia.
    exists r. rewrite Nx. split; [lia|]. auto. }
  cbn [pool_loop]. rewrite G1, G2, G3. cbn [bind]. destruct (Z.eqb_spec (klen k) 0) as [E|E].
  - apply Next; auto. intros ->. cbn [nth] in Hk. apply Hk. destruct k; [reflexivity|unfold klen in E; cbn in E; lia].
  - destruct (off_dec (ndim x) a) as [Q|Q]; [left; now rewrite axis_nat_off|]. rewrite axis_nat_in by auto. cbn [bind].
    assert (Hl : (named_axis (ndim x) a < ndim x)%nat).
    { unfold named_axis. unfold off_range in Q. assert (0 < Z.of_nat (ndim x)) by lia. pose proof (Z.mod_pos_bound a (Z.of_nat (ndim x)) H0). lia. }
    destruct (tunfold (named_axis (ndim x) a) (klen k) s x) as [u|e] eqn:U; cbn [bind].
    2:{ right. unfold tunfold in U. destruct (_ && _); congruence. }
    destruct (tmatvec u k) as [y|e] eqn:Y; cbn [bind].
    2:{ right. unfold tmatvec in Y. destruct (_ =? _); congruence. }
    apply Next; [eapply pool_step_ndim; eauto|]. intros ->. cbn [nth] in O. contradiction.
Qed.
Lemma pool_off fuel junk (m : pool F) (x : T) l l' kers sts : check_axes (Z.of_nat (ndim x)) (AxSeq l) = Ok l' -> built (length l) kers sts None m ->
  (exists r, (r < length l)%nat /\ nth r kers [] <> [] /\ nth r l' 0 = Z.of_nat (ndim x)) ->
  sep_forward fuel junk m x (AxSeq l) = (m, Err IndexError) \/ sep_forward fuel junk m x (AxSeq l) = (m, Err RuntimeError).
Proof.
  intros C B (r & Hr & Hk & E0). assert (R := check_seq_range _ _ _ C). destruct (built_par _ _ _ _ _ _ B) as [[L1 [L2 [L3 L4]]] [Pd _]]. unfold sep_forward. rewrite C.
  assert (Ll : length l' = length l). { cbn [check_axes] in C. destruct (forallb _ _); [|discriminate]. cbn [assertb bind] in C. inv C. apply map_length. }
  assert (E : (pl_ndim m =? 0) || (pl_ndim m =? Z.of_nat (length l')) = true) by (apply orb_true_iff; rewrite !Z.eqb_eq, Ll; exact L3).
  rewrite E. unfold pool_pad. rewrite second_check by exact R. rewrite Pd. cbn [bind].
  destruct (pool_loop_off m l' 0 x kers sts) as [Q|Q]; auto; try lia; rewrite ?Q; auto.
  - intros k Kk. destruct (L4 k) as (Q1 & Q2 & Q3 & _); [lia|]. auto.
  - exists r. split; [lia|]. split; auto. rewrite E0. unfold off_range. lia.
Qed.

(** An int below -ndim. *)
Lemma pool_int_any fuel junk (m : pool F) (x : T) a : - Z.of_nat (ndim x) <= a < 0 ->
  (forall xp, snd (pool_pad fuel junk m x (AxSeq [a])) = Ok xp -> ndim xp = ndim x) ->
  sep_forward fuel junk m x (AxInt (a - Z.of_nat (ndim x))) = sep_forward fuel junk m x (AxInt a).
Proof.
  intros H Hx. destruct (int_axes (ndim x) a H) as [E1 E2]. unfold sep_forward. rewrite E1, E2. cbn [length]. destruct (_ || _); [|reflexivity].
  assert (E3 : pool_pad fuel junk m x (AxSeq [a]) = pool_pad fuel junk m x (AxSeq [a + Z.of_nat (ndim x)])).
  { unfold pool_pad. cbn [check_axes map forallb]. destruct (Z.leb_spec 0 a); [lia|]. destruct (Z.leb_spec 0 (a + Z.of_nat (ndim x))); [|lia].
    rewrite (Z.add_comm a). reflexivity. }
  rewrite <- E3. destruct (pool_pad fuel junk m x (AxSeq [a])) as [m' [xp|e]]; [|reflexivity]. cbn [bind snd] in *. f_equal. cbn [pool_loop].
  rewrite (Hx xp eq_refl). rewrite axis_nat_wrap by auto. reflexivity.
Qed.
Lemma pool_int_wraps fuel junk (m : pool F) (x : T) a : - Z.of_nat (ndim x) <= a < 0 -> pl_padder m = None ->
  sep_forward fuel junk m x (AxInt (a - Z.of_nat (ndim x))) = sep_forward fuel junk m x (AxInt a).
Proof.
  intros H Hp. apply pool_int_any; auto. intros xp. unfold pool_pad. destruct (check_axes _ _); [|discriminate]. rewrite Hp. cbn. intros E. now inv E.
Qed.
Lemma pool_int_wraps_same fuel junk (m : pool F) (x : T) a n kers sts p ms : - Z.of_nat (ndim x) <= a < 0 -> n = Z.to_nat (a + Z.of_nat (ndim x)) ->
  built 1 kers sts (Some p) m -> same_call F fuel p x (AxInt a) [n] ms kers sts ->
  sep_forward fuel junk m x (AxInt (a - Z.of_nat (ndim x))) = sep_forward fuel junk m x (AxInt a).
Proof.
  intros H -> B SC. apply pool_int_any; auto. destruct (built_par _ _ _ _ _ _ B) as (PP & Hp & He1 & He2 & _).
  destruct (sep_forward_same F fuel junk m x (AxInt a) [Z.to_nat (a + Z.of_nat (ndim x))] kers sts p ms PP He1 He2 Hp SC) as (ws & xp & y & _ & _ & _ & _ & _ & X1 & X2 & X3 & _).
  intros xq Hq. destruct (int_axes (ndim x) a H) as [E1 E2].
  assert (Q : xq = xp).
  { destruct (pool_pad fuel junk m x (AxSeq [a])) as [m' r] eqn:Ep. cbn [snd] in Hq. subst r.
    assert (E3 : pool_pad fuel junk m x (AxSeq [a + Z.of_nat (ndim x)]) = (m', Ok xq)).
    { rewrite <- Ep. unfold pool_pad. cbn [check_axes map forallb]. destruct (Z.leb_spec 0 a); [lia|]. destruct (Z.leb_spec 0 (a + Z.of_nat (ndim x))); [|lia].
      rewrite (Z.add_comm a). reflexivity. }
    unfold sep_forward in X3. rewrite E2 in X3. cbn [length] in X3. destruct (_ || _) in X3; [|discriminate]. rewrite E3 in X3.
    assert (M : m' = set_padder m (with_width p ws)) by congruence. subst m'.
    unfold pool_pad in E3. cbn [check_axes map forallb] in E3. destruct (Z.leb_spec 0 (a + Z.of_nat (ndim x))); [|lia].
    destruct (assertb _) eqn:Ea in E3; [|discriminate]. cbn [bind] in E3. rewrite Hp in E3. destruct (mapM _ _) as [ins|] in E3; [|discriminate].
    destruct (to_same p (pl_size m) (some_spec (pl_stride m)) (NList (map Some ins))) as [p' r] eqn:Et. destruct r as [[]|]; [|discriminate]. cbn [bind] in E3.
    assert (P' : p' = with_width p ws) by (unfold set_padder in E3; congruence). subst p'.
    rewrite (padder_forward_axes F fuel junk _ x _ (AxInt a)) in E3; [rewrite X1 in E3; congruence|].
    rewrite E2. apply second_check. intros b [<-|[]]. lia. }
  subst xq. unfold ndim. rewrite X2. unfold full_shape. rewrite map_length, seq_length. reflexivity.
Qed.
End AE.
