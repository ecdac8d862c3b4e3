(** Modes "zeros" and "empty", termination, pad_axis, and the reflection laws. *)
From Verif Require Export PadderCor StatProofs.

Section More.
Variable F : ofield.
Add Field Fmore : (f_field F).
Notation T := (tensor F).

(** What forward does before the fill loop. *)
Definition heads (p : padder F) (x : T) al := widths_before p (last_axes p al) (repeat 0 (ndim x)).
Definition tails (p : padder F) (x : T) al := map2 Z.add (heads p x al) (shp x).

Definition params_ok (p : padder F) al : Prop :=
  forall r, (r < length (last_axes p al))%nat -> exists q, params p r = Some q /\ 0 <= ap_before q /\ 0 <= ap_after q.

Lemma forward_setup fuel junk p (x : T) ax al :
  (0 < ndim x)%nat -> (forall d, (d < ndim x)%nat -> 0 <= nth d (shp x) 0) ->
  check_axes (Z.of_nat (ndim x)) ax = Ok (map Z.of_nat al) ->
  (forall a, In a al -> (a < ndim x)%nat) -> NoDup al -> params_ok p al ->
  let NS := out_shape p (shp x) al in
  let h := heads p x al in let t := tails p x al in
  idxrep NS (map2 srng h t) h t /\ length NS = ndim x /\
  (forall d, (d < ndim x)%nat -> nth d t 0 = nth d h 0 + nth d (shp x) 0) /\
  pending F NS p h t (last_axes p al) /\
  (forall d, ~ In d (last_axes p al) -> nth d h 0 = 0) /\
  exists y0, shp y0 = NS /\
    (forall j, reg NS h t j -> at_ y0 j = at_ x (map2 Z.sub j h)) /\
    (forall j, valid NS j -> ~ reg NS h t j -> at_ y0 j = junk j) /\
    padder_forward fuel junk p x ax =
      if list_eqb (shp x) NS then Ok x
      else fill_loop fuel p y0 (map Z.of_nat al) (negs (length (last_axes p al))) (Idx (map2 srng h t)).
Proof.
  intros Hnd Hsh Hax Hlt Hdup Hpar NS h t.
  set (rest := last_axes p al) in *.
  destruct (last_axes_suffix F p al) as [pre Hpre]. fold rest in Hpre.
  assert (Hlen : (if 0 <? p_ndim p then Z.min (Z.of_nat (length (map Z.of_nat al))) (p_ndim p)
                  else Z.of_nat (length (map Z.of_nat al))) = Z.of_nat (length rest)).
  { rewrite map_length. unfold rest, last_axes. destruct (Z.ltb_spec 0 (p_ndim p)); auto.
    rewrite skipn_length. lia. }
  assert (Hltr : forall a, In a rest -> (a < ndim x)%nat).
  { intros a Ha. apply Hlt. eapply last_axes_in; eauto. }
  assert (Hdr : NoDup rest) by (now apply last_axes_nodup).
  set (z := repeat 0 (ndim x)) in *.
  assert (Lz : length z = ndim x) by apply repeat_length.
  assert (Hz : forall d, nth d z 0 = 0) by (intros; apply nth_repeat).
  set (w := widths_after p (shp x) rest z).
  assert (Lh : length h = ndim x) by (unfold h, heads; rewrite widths_before_length; apply repeat_length).
  assert (Lw : length w = ndim x) by (unfold w; now rewrite widths_after_length).
  assert (Lt : length t = ndim x) by (unfold t, tails; rewrite map2_length_eq; auto).
  assert (LNS : length NS = ndim x) by (unfold NS; apply out_shape_length).
  assert (Eh : h = widths_before p rest z) by reflexivity.
  assert (ENS : NS = map2 Z.add t w) by reflexivity.
  assert (Ht : forall d, (d < ndim x)%nat -> nth d t 0 = nth d h 0 + nth d (shp x) 0).
  { intros. unfold t, tails. fold h. apply nth_map2; lia || auto. }
  assert (HNS : forall d, (d < ndim x)%nat -> nth d NS 0 = nth d h 0 + nth d (shp x) 0 + nth d w 0).
  { intros. rewrite ENS. rewrite nth_map2 with (da := 0) (db := 0) by lia. now rewrite Ht. }
  assert (Hparams : forall r, (r < length rest)%nat -> params p r <> None).
  { intros r Hr. destruct (Hpar r Hr) as [q [E _]]. congruence. }
  assert (Hin : forall l1 a l2, rest = l1 ++ a :: l2 -> exists q, params p (length l2) = Some q /\
     nth a h 0 = ap_before q /\ nth a w 0 = step_after F q (nth a (shp x) 0) /\ 0 <= ap_before q /\ 0 <= ap_after q).
  { intros l1 a l2 E. destruct (Hpar (length l2)) as [q [Hq [P1 P2]]].
    { fold rest. rewrite E, app_length. simpl. lia. }
    assert (Ha : (a < ndim x)%nat) by (apply Hltr; rewrite E; apply in_app_iff; right; now left).
    exists q. split; auto. rewrite Eh. unfold w. rewrite E.
    rewrite (widths_in F p l1 a l2 z q), (widths_after_in F p (shp x) l1 a l2 z q), Hz;
      try (rewrite <- E; auto); auto; try lia. }
  assert (Hpos : forall d, (d < ndim x)%nat -> 0 <= nth d h 0 /\ 0 <= nth d w 0).
  { intros d Hd. destruct (in_dec Nat.eq_dec d rest) as [Hi|Hn].
    - apply in_split in Hi. destruct Hi as [l1 [l2 E]]. destruct (Hin l1 d l2 E) as [q [_ [E1 [E2 [E3 E4]]]]].
      rewrite E1, E2. pose proof (step_after_pos F q (nth d (shp x) 0) E4). lia.
    - rewrite Eh. unfold w. rewrite widths_before_notin, widths_after_notin, Hz by auto. lia. }
  assert (X : idxrep NS (map2 srng h t) h t).
  { apply idxrep_srng; try lia. intros d Hd. rewrite LNS in Hd. specialize (Hpos d Hd). specialize (Hsh d Hd).
    rewrite HNS, Ht by auto. lia. }
  split; auto. split; auto. split; auto. split; [|split].
  - apply pending_intro. intros l1 a l2 E. destruct (Hin l1 a l2 E) as [q [Hq [F1 [F2 _]]]].
    exists q. split; auto. split; auto.
    assert (Ha : (a < ndim x)%nat) by (apply Hltr; rewrite E; apply in_app_iff; right; now left).
    rewrite HNS, Ht, F2 by auto.
    replace (nth a h 0 + nth a (shp x) 0 - nth a h 0) with (nth a (shp x) 0) by lia. lia.
  - intros d Hd. rewrite Eh, widths_before_notin; auto.
  - destruct (tset_block NS (tempty NS junk) x (map2 srng h t) h t) as [y0 [Hy0 [Sy0 [A0 B0]]]]; auto.
    { intros d Hd. rewrite LNS in Hd. rewrite Ht by auto. lia. }
    exists y0. split; auto. split; auto. split; auto.
    unfold padder_forward. unfold assertb. rewrite (proj2 (Nat.ltb_lt _ _) Hnd). cbn [bind].
    rewrite Hax. cbn [bind].
    destruct (list_eq_dec Nat.eq_dec al []) as [Eal|Enil].
    + assert (Em : map Z.of_nat al = []) by now rewrite Eal. rewrite Em.
      assert (Er : rest = []).
      { rewrite Eal in Hpre. symmetry in Hpre. now apply app_eq_nil in Hpre. }
      assert (E : list_eqb (shp x) NS = true).
      { apply list_eqb_eq. apply list_ext with (d := 0); [symmetry; exact LNS|]. intros d Hd. rewrite HNS by auto.
        rewrite Eh. unfold w. rewrite Er. simpl. rewrite Hz. lia. }
      now rewrite E.
    + assert (Ematch : forall B (u v : B), match map Z.of_nat al with [] => u | _ => v end = v)
        by (intros; destruct al; auto; congruence).
      rewrite Ematch. cbv zeta. rewrite Hlen, neg_range_negs.
      rewrite (width_loop_ok F p (shp x) (map Z.of_nat al) rest pre); auto; try (now rewrite Hpre).
      cbn [bind]. fold z. rewrite <- Eh. fold w.
      change (map2 Z.add h (shp x)) with t. change (map2 Z.add t w) with NS.
      destruct (list_eqb (shp x) NS); auto. rewrite Hy0. reflexivity.
Qed.

(** ** Mode "zeros" (generic_pad.py:164) *)
Lemma fill_loop_zeros fuel p axes : forall rest pre (y : T) idx,
  axes = map Z.of_nat (pre ++ rest) -> (forall a, In a rest -> (a < ndim y)%nat) ->
  (forall r, (r < length rest)%nat -> exists q, params p r = Some q /\ ap_mode q = MZeros) ->
  fill_loop fuel p y axes (negs (length rest)) idx = Ok y.
Proof.
  induction rest as [|a rest IH]; intros pre y idx Hax Hlt Hp; [reflexivity|].
  destruct (Hp (length rest)) as [q [Hq Hm]]; [simpl; lia|].
  destruct (params_get F p _ q Hq) as [G1 [G2 _]]. cbn [length negs fill_loop].
  rewrite Hax. rewrite pyidx_app_axis. cbn [bind]. rewrite G1. cbn [bind fst snd].
  assert (Hax' : map Z.of_nat (pre ++ a :: rest) = map Z.of_nat ((pre ++ [a]) ++ rest)) by now rewrite <- app_assoc.
  assert (IH' : forall idx, fill_loop fuel p y (map Z.of_nat (pre ++ a :: rest)) (negs (length rest)) idx = Ok y).
  { intros idx'. rewrite Hax' in *. rewrite <- Hax. apply (IH (pre ++ [a])); auto.
    - intros; apply Hlt; now right. - intros; apply Hp; simpl; lia. }
  destruct ((ap_before q =? 0) && (ap_after q =? 0)) eqn:Ez; auto.
  rewrite axis_nat_ok by (apply Hlt; now left). rewrite ?of_nat_neg. cbn [bind].
  unfold fill_value_1d. rewrite G1. cbn [bind fst snd]. rewrite Ez, G2, Hm. cbn [bind fst snd]. auto.
Qed.

(** Every element that should be zero is left as torch.empty returned it. *)
Theorem zeros_uninitialised fuel junk p (x : T) ax al :
  (0 < ndim x)%nat -> (forall d, (d < ndim x)%nat -> 0 <= nth d (shp x) 0) ->
  check_axes (Z.of_nat (ndim x)) ax = Ok (map Z.of_nat al) ->
  (forall a, In a al -> (a < ndim x)%nat) -> NoDup al -> params_ok p al ->
  (forall r q, (r < length (last_axes p al))%nat -> params p r = Some q -> ap_mode q = MZeros) ->
  shp x <> out_shape p (shp x) al ->
  exists y, padder_forward fuel junk p x ax = Ok y /\ shp y = out_shape p (shp x) al /\
    forall j, valid (shp y) j ->
      ~ (forall d, (d < ndim x)%nat -> nth d (heads p x al) 0 <= nth d j 0 < nth d (heads p x al) 0 + nth d (shp x) 0) ->
      at_ y j = junk j.
Proof.
  intros Hnd Hsh Hax Hlt Hdup Hpar Hz Hne.
  destruct (forward_setup fuel junk p x ax al Hnd Hsh Hax Hlt Hdup Hpar)
    as [X [LNS [Ht [_ [_ [y0 [Sy [_ [Hj Hf]]]]]]]]].
  exists y0. split; [|split; auto].
  - rewrite Hf. destruct (list_eqb (shp x) (out_shape p (shp x) al)) eqn:E.
    { apply list_eqb_eq in E. contradiction. }
    destruct (last_axes_suffix F p al) as [pre Hpre].
    apply (fill_loop_zeros fuel p _ (last_axes p al) pre); auto.
    + now rewrite <- Hpre.
    + intros a Ha. unfold ndim. rewrite Sy. rewrite LNS. apply Hlt. eapply last_axes_in; eauto.
    + intros r Hr. destruct (Hpar r Hr) as [q [Hq _]]. exists q. split; auto. eapply Hz; eauto.
  - intros j V Hn. rewrite Sy in V. apply Hj; auto. intros [_ R]. apply Hn. intros d Hd.
    rewrite <- Ht by auto. apply R. rewrite LNS. auto.
Qed.

(** After a "zeros" axis any other filling mode fails. *)
Theorem zeros_then_other fuel junk p (x : T) ax a b qa qb e :
  (0 < ndim x)%nat -> (forall d, (d < ndim x)%nat -> 0 <= nth d (shp x) 0) ->
  check_axes (Z.of_nat (ndim x)) ax = Ok [Z.of_nat a; Z.of_nat b] ->
  (a < ndim x)%nat -> (b < ndim x)%nat -> a <> b ->
  last_axes p [a; b] = [a; b] -> params p 1 = Some qa -> params p 0 = Some qb ->
  0 <= ap_before qa -> 0 <= ap_after qa -> 0 <= ap_before qb -> 0 <= ap_after qb ->
  (ap_before qa, ap_after qa) <> (0, 0) -> (ap_before qb, ap_after qb) <> (0, 0) ->
  ap_mode qa = MZeros ->
  mode_ext (ap_mode qb) (ap_before qb) (ap_after qb) (ap_const qb) (ap_end qb) (ap_stat qb) = Some e ->
  padder_forward fuel junk p x ax = Err TypeError.
Proof.
  intros Hnd Hsh Hax Ha Hb Hab Hla Hqa Hqb A1 A2 B1 B2 Za Zb Hma He.
  assert (Hdup : NoDup [a; b]).
  { constructor; [intros [|[]]; congruence|]. constructor; [intros []|constructor]. }
  destruct (forward_setup fuel junk p x ax [a; b] Hnd Hsh Hax) as [X [LNS [Ht [Hp [_ [y0 [Sy [_ [_ Hf]]]]]]]]]; auto.
  { intros c [<-|[<-|[]]]; auto. }
  { intros r Hr. rewrite Hla in Hr. simpl in Hr. destruct r as [|[|]]; [eauto|eauto|lia]. }
  rewrite Hf. rewrite Hla in *.
  assert (Eza : (ap_before qa =? 0) && (ap_after qa =? 0) = false).
  { destruct (Z.eqb_spec (ap_before qa) 0); destruct (Z.eqb_spec (ap_after qa) 0); auto. congruence. }
  assert (Ezb : (ap_before qb =? 0) && (ap_after qb =? 0) = false).
  { destruct (Z.eqb_spec (ap_before qb) 0); destruct (Z.eqb_spec (ap_after qb) 0); auto. congruence. }
  destruct (list_eqb (shp x) (out_shape p (shp x) [a; b])) eqn:E.
  { exfalso. apply list_eqb_eq in E. pose proof (out_shape_par F p (shp x) [a; b] a Ha Hdup) as Es.
    rewrite <- E, Hla in Es. simpl in Es. rewrite Nat.eqb_refl, Hqa in Es. unfold step_after in Es.
    rewrite Eza, Hma in Es. simpl in Es. apply andb_false_iff in Eza. destruct Eza; bdestr; lia. }
  destruct (params_get F p _ qa Hqa) as [G1 [G2 _]]. destruct (params_get F p _ qb Hqb) as [K1 [K2 _]].
  pose proof (pyidx_app_axis [] a [b]) as Ia. pose proof (pyidx_app_axis [a] b []) as Ib.
  cbn [app map length] in Ia, Ib. cbn [map length negs fill_loop]. rewrite Ia. cbn [bind]. rewrite G1. cbn [bind fst snd].
  rewrite Eza. assert (Ny : ndim y0 = ndim x) by (unfold ndim at 1; rewrite Sy; exact LNS).
  rewrite axis_nat_ok by (rewrite Ny; auto). rewrite ?of_nat_neg. cbn [bind].
  unfold fill_value_1d at 1. rewrite G1. cbn [bind fst snd]. rewrite Eza, G2. cbn [bind]. rewrite Hma. cbn [bind fst snd].
  rewrite Ib. cbn [bind]. rewrite K1. cbn [bind fst snd]. rewrite Ezb, axis_nat_ok by (rewrite Ny; auto). rewrite ?of_nat_neg. cbn [bind].
  unfold fill_value_1d. rewrite K1. cbn [bind fst snd]. rewrite Ezb, K2. cbn [bind].
  destruct (mode_params_ok F p (ap_mode qb) 0 qb e Hqb eq_refl He) as [cv [ev [sl [Hmp _]]]].
  assert (Hpf : forall m cv ev sl e', mode_ext m (ap_before qb) (ap_after qb) (ap_const qb) (ap_end qb) (ap_stat qb) = Some e' ->
     exists pf, @pad_func_of F fuel false m cv ev sl = Ok pf).
  { intros m ? ? ? ? Hm. destruct m; try discriminate; simpl; eauto. }
  destruct (Hpf _ cv ev sl _ He) as [pf Epf].
  rewrite mode_match_fill.
  - rewrite Hmp. cbn [bind]. rewrite Epf. reflexivity.
  - intros Q. rewrite Q in He. discriminate.
  - destruct (ap_mode qb); auto; discriminate.
Qed.

(** ** Termination *)
Definition no_user_fun (m : mode F) : Prop := match m with MFun _ => False | _ => True end.

Lemma fill_loop_function_object fuel p axes : forall rest pre (y : T),
  axes = map Z.of_nat (pre ++ rest) -> (forall a, In a rest -> (a < ndim y)%nat) ->
  (forall r, (r < length rest)%nat -> exists q, params p r = Some q) ->
  fill_loop fuel p y axes (negs (length rest)) FunctionObject <> Err OutOfFuel.
Proof.
  induction rest as [|a rest IH]; intros pre y Hax Hlt Hp; [discriminate|].
  destruct (Hp (length rest)) as [q Hq]; [simpl; lia|].
  destruct (params_get F p _ q Hq) as [G1 [G2 [G3 [G4 G5]]]]. cbn [length negs fill_loop].
  rewrite Hax. rewrite pyidx_app_axis. cbn [bind]. rewrite G1. cbn [bind fst snd].
  assert (Hax' : map Z.of_nat (pre ++ a :: rest) = map Z.of_nat ((pre ++ [a]) ++ rest)) by now rewrite <- app_assoc.
  assert (IH' : fill_loop fuel p y (map Z.of_nat (pre ++ a :: rest)) (negs (length rest)) FunctionObject <> Err OutOfFuel).
  { rewrite Hax' in *. rewrite <- Hax. apply (IH (pre ++ [a])); auto.
    - intros; apply Hlt; now right. - intros; apply Hp; simpl; lia. }
  destruct ((ap_before q =? 0) && (ap_after q =? 0)) eqn:Ez; auto.
  rewrite axis_nat_ok by (apply Hlt; now left). rewrite ?of_nat_neg. cbn [bind].
  unfold fill_value_1d. rewrite G1. cbn [bind fst snd]. rewrite Ez, G2. cbn [bind].
  unfold mode_params. rewrite G3, G4, G5.
  destruct (ap_mode q); cbn [bind fst snd pad_func_of]; auto; discriminate.
Qed.

Lemma fill_loop_terminates NS fuel p axes : forall rest pre idx h t (s y : T),
  axes = map Z.of_nat (pre ++ rest) -> NoDup rest -> (forall a, In a rest -> (a < length NS)%nat) ->
  Inv F NS idx h t s y -> idxnow idx h t rest -> pending F NS p h t rest ->
  (forall a, In a rest -> nth a NS 0 <= Z.of_nat fuel) ->
  (forall r q, (r < length rest)%nat -> params p r = Some q -> 0 <= ap_before q /\ 0 <= ap_after q /\ no_user_fun (ap_mode q)) ->
  (forall a, In a rest -> 1 <= nth a (shp s) 0) ->
  fill_loop fuel p y axes (negs (length rest)) (Idx idx) <> Err OutOfFuel.
Proof.
  induction rest as [|a rest IH]; intros pre idx h t s y Hax Hnd Hlt I Hix Hpend Hfuel Hp Hs; [discriminate|].
  inv Hnd. destruct Hpend as [[q [Hq [Hha HNa]]] Hpend].
  destruct (Hp (length rest) q) as [P1 [P2 Hnf]]; auto.
  pose proof (Hlt a (or_introl eq_refl)) as Ha. destruct (params_get _ _ _ _ Hq) as [G1 [G2 [G3 [G4 G5]]]].
  assert (Hax' : map Z.of_nat (pre ++ a :: rest) = map Z.of_nat ((pre ++ [a]) ++ rest)) by now rewrite <- app_assoc.
  pose proof I as [X [Sy [Ls [Hss Hy]]]]. pose proof X as [L [L1 [L2 Hr]]].
  cbn [negs length fill_loop]. rewrite pyidx_app_axis. cbn [bind]. rewrite G1. cbn [bind fst snd].
  assert (Hndim : ndim y = length NS) by (unfold ndim; now rewrite Sy).
  assert (Hlt' : forall b, In b rest -> (b < length NS)%nat) by (intros; apply Hlt; now right).
  assert (Hfuel' : forall b, In b rest -> nth b NS 0 <= Z.of_nat fuel) by (intros; apply Hfuel; now right).
  assert (Hp' : forall r q, (r < length rest)%nat -> params p r = Some q -> 0 <= ap_before q /\ 0 <= ap_after q /\ no_user_fun (ap_mode q)).
  { intros r q' Hr' Hq'. apply (Hp r); auto. simpl; lia. }
  assert (Same : fill_loop fuel p y (map Z.of_nat (pre ++ a :: rest)) (negs (length rest)) (Idx idx) <> Err OutOfFuel).
  { eapply (IH (pre ++ [a])); eauto.
    - intros b Hb. apply Hix. now right.
    - intros; apply Hs; now right. }
  destruct ((ap_before q =? 0) && (ap_after q =? 0)) eqn:Hz; auto.
  rewrite Hndim, axis_nat_ok by auto. rewrite ?of_nat_neg. cbn [bind].
  assert (Cases : is_empty_mode F (ap_mode q) = true \/ ap_mode q = MZeros \/ ap_mode q = MUnknown \/
     (is_empty_mode F (ap_mode q) = false /\
      exists e, mode_ext (ap_mode q) (ap_before q) (ap_after q) (ap_const q) (ap_end q) (ap_stat q) = Some e)).
  { revert Hnf. destruct (ap_mode q); simpl; intros; try tauto; right; right; right; eauto. }
  destruct Cases as [Hem|[Hmz|[Hmu|[Hem [e He]]]]].
  - rewrite (fill_value_empty F fuel p q (length rest) idx y a Hq Hem). cbn [bind fst snd]. auto.
  - unfold fill_value_1d. rewrite G1. cbn [bind fst snd]. rewrite Hz, G2, Hmz. cbn [bind fst snd].
    eapply (fill_loop_function_object fuel p _ rest (pre ++ [a])); eauto.
    + intros b Hb. rewrite Hndim. auto.
    + intros r Hr'. clear - Hpend Hr'. revert r Hr'. induction rest as [|b rest IH]; simpl; intros; [lia|].
      destruct Hpend as [[q [Hq _]] Hpend]. destruct (Nat.eq_dec r (length rest)); [subst; eauto|].
      apply IH; auto. lia.
  - unfold fill_value_1d. rewrite G1. cbn [bind fst snd]. rewrite Hz, G2, Hmu. cbn [bind fst snd mode_params pad_func_of].
    discriminate.
  - assert (Hfine : axis_fine F q (nth a (shp s) 0)).
    { split; auto. split; auto. right. right. split; [left; apply Hs; now left|eauto]. }
    destruct (spec_axis_some F q a s Hfine) as [s1 Hs1].
    destruct (fill_value_ok F NS fuel p q (length rest) idx h t s s1 y a) as [y1 [Hy1 I1]]; auto.
    { apply Hix. now left. } { apply Hfuel. now left. }
    rewrite Hy1. cbn [bind fst snd].
    eapply (IH (pre ++ [a])); eauto.
    + intros b Hb. rewrite !nth_upd_ne by congruence. apply Hix. now right.
    + apply pending_upd; auto.
    + intros b Hb. rewrite (spec_axis_shape F _ _ _ _ b Hs1) by congruence. apply Hs. now right.
Qed.

Theorem forward_terminates fuel junk p (x : T) ax al : pad_call fuel p x ax al -> params_ok p al ->
  (forall r q, (r < length (last_axes p al))%nat -> params p r = Some q -> no_user_fun (ap_mode q)) ->
  (forall a, In a (last_axes p al) -> 1 <= nth a (shp x) 0) ->
  padder_forward fuel junk p x ax <> Err OutOfFuel.
Proof.
  intros [Hnd Hsh Hax Hlt Hdup Hfuel] Hpar Hnf Hlen.
  destruct (forward_setup fuel junk p x ax al Hnd Hsh Hax Hlt Hdup Hpar)
    as [X [LNS [Ht [Hp [_ [y0 [Sy [A0 [_ Hf]]]]]]]]].
  rewrite Hf. destruct (list_eqb _ _); [discriminate|].
  destruct (last_axes_suffix F p al) as [pre Hpre].
  assert (Hlt' : forall a, In a (last_axes p al) -> (a < ndim x)%nat).
  { intros a Ha. apply Hlt. eapply last_axes_in; eauto. }
  pose proof X as [L [L1 [L2 _]]]. rewrite LNS in L, L1, L2.
  apply (fill_loop_terminates (out_shape p (shp x) al) fuel p _ (last_axes p al) pre _ (heads p x al) (tails p x al) x); auto.
  - now rewrite <- Hpre.
  - now apply last_axes_nodup.
  - intros a Ha. rewrite LNS. auto.
  - split; auto. split; auto. split; auto. split; auto. intros d Hd. rewrite LNS in Hd. rewrite Ht by auto. lia.
  - intros a Ha. apply Hlt' in Ha. rewrite nth_map2 with (da := 0) (db := 0); auto; lia.
  - intros r q Hr Hq. destruct (Hpar r Hr) as [q' [Hq' [? ?]]]. assert (q = q') by congruence. subst q'.
    split; auto. split; auto. eapply Hnf; eauto.
Qed.

(** ** Empty axes: the loops do not terminate *)
Lemma circular_before_empty fuel f : @circular_before F fuel (mkT [1] f) [srng 1 1] 0 1 0 1 = Err OutOfFuel.
Proof. revert f; induction fuel as [|fuel IH]; intros f; [reflexivity|]. cbn. apply IH. Qed.
Lemma symmetric_before_empty fuel : forall f neg (flip : bool),
  @symmetric_before F fuel neg None (mkT [1] f) [srng 1 1] 0 1 0 1 flip = Err OutOfFuel.
Proof.
  induction fuel as [|fuel IH]; intros f neg flip; [reflexivity|]. destruct flip, neg; cbn; apply IH.
Qed.
Lemma odd_symmetric_before_empty fuel : forall f,
  @odd_symmetric_before F fuel (mkT [1] f) [srng 1 1] 0 0 1 = Err OutOfFuel.
Proof. induction fuel as [|fuel IH]; intros f; [reflexivity|]. cbn. apply IH. Qed.

Definition simple_padder (pb pa : Z) (m : mode F) : padder F :=
  mkPadder (NItem (pb, pa)) (NItem m) (NItem (f0, f0)) (NItem (f0, f0)) (NItem (None, None)) 0.

Theorem forward_diverges_on_empty (m : mode F) fuel junk c :
  m = MCircular \/ m = MSymmetric \/ m = MAntisymmetric \/ m = MOddSymmetric ->
  padder_forward fuel junk (simple_padder 1 0 m) (mkT [0] c) AxNone = Err OutOfFuel.
Proof.
  intros H.
  destruct (forward_setup fuel junk (simple_padder 1 0 m) (mkT [0] c) AxNone [0%nat])
    as [_ [_ [_ [_ [_ [y0 [Sy [_ [_ Hf]]]]]]]]].
  - unfold ndim. simpl. lia.
  - intros d Hd. unfold ndim in Hd. simpl in Hd. destruct d; simpl; lia.
  - reflexivity.
  - intros a [<-|[]]. unfold ndim. simpl. lia.
  - constructor; [intros []|constructor].
  - intros r Hr. simpl in Hr. destruct r; [|lia]. eexists. split; [reflexivity|]. simpl. lia.
  - assert (Eo : out_shape (simple_padder 1 0 m) (shp (mkT [0] c)) [0%nat] = [1]).
    { destruct H as [->|[->|[->| ->]]]; reflexivity. }
    rewrite Eo in *. rewrite Hf. destruct y0 as [sh f]. simpl in Sy. subst sh.
    destruct H as [->|[->|[->| ->]]]; cbn.
    + rewrite circular_before_empty. reflexivity.
    + rewrite symmetric_before_empty. reflexivity.
    + rewrite symmetric_before_empty. reflexivity.
    + rewrite odd_symmetric_before_empty. reflexivity.
Qed.

(** ** pad_axis *)
Definition at_item (p : padder F) (i : Z) (q : axis_params F) : Prop :=
  nds_get (p_width p) i = Ok (ap_before q, ap_after q) /\ nds_get (p_mode p) i = Ok (ap_mode q) /\
  nds_get (p_const p) i = Ok (ap_const q) /\ nds_get (p_end p) i = Ok (ap_end q) /\ nds_get (p_stat p) i = Ok (ap_stat q).
(** The padder whose only specification is q. *)
Definition only (q : axis_params F) : padder F :=
  mkPadder (NItem (ap_before q, ap_after q)) (NItem (ap_mode q)) (NItem (ap_const q)) (NItem (ap_end q)) (NItem (ap_stat q)) 0.
Lemma params_only q r : params (only q) r = Some q.
Proof. destruct q; reflexivity. Qed.
Lemma fill_value_only fuel p i q (y : T) a idx : at_item p i q ->
  fill_value_1d fuel false p y i a idx = fill_value_1d fuel false (only q) y (-1) a idx.
Proof.
  intros [H1 [H2 [H3 [H4 H5]]]]. unfold fill_value_1d. rewrite H1, H2. cbn [only p_width p_mode nds_get bind fst snd].
  destruct (_ && _); auto. unfold mode_params. rewrite H3, H4, H5. cbn [only p_const p_end p_stat nds_get bind].
  reflexivity.
Qed.

Theorem pad_axis_spec fuel junk p (x : T) i ax a q e :
  (forall d, (d < ndim x)%nat -> 0 <= nth d (shp x) 0) ->
  check_axes (Z.of_nat (ndim x)) ax = Ok [Z.of_nat a] -> (a < ndim x)%nat ->
  at_item p i q ->
  mode_ext (ap_mode q) (ap_before q) (ap_after q) (ap_const q) (ap_end q) (ap_stat q) = Some e ->
  0 <= ap_before q -> 0 <= ap_after q ->
  1 <= nth a (shp x) 0 \/ empty_ok (ap_mode q) = true ->
  ap_before q + nth a (shp x) 0 + ap_after q <= Z.of_nat fuel ->
  parity_slot (ap_mode q) (nth a (shp x) 0) = 0 ->
  exists y, pad_axis fuel junk p x i ax = Ok y /\
    shp y = upd a (ap_before q + nth a (shp x) 0 + ap_after q) (shp x) /\
    forall j, valid (shp y) j ->
      at_ y j = e (nth a (shp x) 0) (fun u => at_ x (upd a u j)) (nth a j 0 - ap_before q).
Proof.
  intros Hsh Hax Ha Hat He Hb Haf Hn Hfuel Hpar.
  pose proof Hat as [H1 [H2 _]]. unfold pad_axis. rewrite Hax. cbn [bind]. rewrite H1. cbn [bind fst snd].
  set (n := nth a (shp x) 0) in *. set (pb := ap_before q) in *. set (pa := ap_after q) in *.
  destruct ((pb =? 0) && (pa =? 0)) eqn:Ez.
  { bdestr. exists x. split; auto. split.
    - rewrite H, H0, Z.add_0_l, Z.add_0_r. unfold n. now rewrite upd_nth.
    - intros j V. pose proof (valid_nth _ _ a V Ha) as Va. rewrite (mode_ext_core F _ _ _ _ _ _ _ He) by (fold n in Va; lia).
      rewrite H, Z.sub_0_r. now rewrite upd_nth. }
  rewrite axis_nat_ok by auto. rewrite ?of_nat_neg. cbn [bind]. unfold dimlen. fold n.
  set (NS := upd a (pb + n + pa) (shp x)). set (nd := ndim x).
  set (h := upd a pb (repeat 0 nd)). set (t := upd a (pb + n) (shp x)).
  set (idx := make_idx (srng pb (pb + n)) a nd).
  assert (LNS : length NS = nd) by (unfold NS; now rewrite upd_length).
  assert (Hn0 : 0 <= n) by (apply Hsh; auto).
  assert (Et : upd a (pb + n) NS = t) by (unfold NS, t; now rewrite upd_upd).
  assert (X : idxrep NS idx h t).
  { unfold idx. rewrite make_idx_upd by auto. rewrite <- Et. unfold h.
    apply (idxrep_upd NS (repeat sfull nd) (repeat 0 nd) NS a pb (pb + n)).
    - split; [rewrite repeat_length; auto|]. split; [rewrite repeat_length; auto|]. split; auto.
      intros d Hd. rewrite !nth_repeat. rewrite LNS in Hd.
      assert (0 <= nth d NS 0). { unfold NS. destruct (Nat.eq_dec a d); [subst; rewrite nth_upd_eq by auto; lia|]. rewrite nth_upd_ne by auto. now apply Hsh. }
      rewrite resolve_sfull by auto. split; [f_equal; lia|]. split; auto. lia.
    - rewrite LNS. auto.
    - lia.
    - unfold NS. rewrite nth_upd_eq by auto. lia. }
  destruct (tset_block NS (tempty NS junk) x idx h t) as [y0 [Hy0 [Sy0 [A0 _]]]]; auto.
  { rewrite LNS. intros d Hd. unfold t, h. destruct (Nat.eq_dec a d).
    - subst d. rewrite !nth_upd_eq by (rewrite ?repeat_length; auto). fold n. lia.
    - rewrite !nth_upd_ne, nth_repeat by auto. lia. }
  rewrite Hy0. cbn [bind].
  rewrite (fill_value_only fuel p i q y0 a (Idx idx) Hat).
  assert (Nh : nth a h 0 = pb) by (unfold h; apply nth_upd_eq; rewrite repeat_length; auto).
  assert (Nt : nth a t 0 = pb + n) by (unfold t; apply nth_upd_eq; auto).
  assert (NN : nth a NS 0 = pb + n + pa) by (unfold NS; apply nth_upd_eq; auto).
  assert (Hem : is_empty_mode F (ap_mode q) = false) by (destruct (ap_mode q); auto; discriminate).
  assert (Hs : spec_axis q a x = Some (pad1 e a pb pa x)).
  { unfold spec_axis. fold n pb pa. destruct (Z.leb_spec 0 pb); [|lia]. destruct (Z.leb_spec 0 pa); [|lia].
    cbn [andb negb]. rewrite Ez.
    assert (E : (n <=? 0) && negb (empty_ok (ap_mode q)) = false).
    { destruct Hn as [H3|H3]; [|rewrite H3; apply andb_false_r]. destruct (Z.leb_spec n 0); auto. lia. }
    rewrite E. revert He Hem Hpar. fold pb pa. clear. destruct (ap_mode q); intros; try discriminate; rewrite He, Hpar, Z.add_0_r; reflexivity. }
  destruct (fill_value_ok F NS fuel (only q) q 0 idx h t x (pad1 e a pb pa x) y0 a) as [y [Hy I]]; auto.
  { apply params_only. } { rewrite LNS; auto. }
  { split; auto. split; auto. split; auto. split; auto. rewrite LNS. intros d Hd. unfold t, h. destruct (Nat.eq_dec a d).
    - subst d. rewrite !nth_upd_eq by (rewrite ?repeat_length; auto). fold n. lia.
    - rewrite !nth_upd_ne, nth_repeat by auto. lia. }
  { unfold idx. rewrite make_idx_upd by auto. rewrite nth_upd_eq by (rewrite repeat_length; auto). congruence. }
  { rewrite NN, Nt, Nh. unfold step_after. fold pb pa. rewrite Ez. replace (pb + n - pb) with n by lia. lia. }
  { lia. }
  cbn [Z.of_nat Pos.of_succ_nat Z.opp] in Hy. rewrite Hy. cbn [bind fst]. exists y. split; auto.
  destruct I as [_ [Sy [_ [_ Ay]]]]. split; auto. intros j V. rewrite Sy in V.
  rewrite Ay.
  - unfold pad1. cbn [at_]. fold n.
    assert (E : map2 Z.sub j (upd a 0 h) = j).
    { pose proof (valid_length _ _ V). unfold h. rewrite upd_upd. apply list_ext with (d := 0).
      - rewrite map2_length_eq; rewrite ?upd_length, ?repeat_length; lia.
      - intros d Hd. rewrite map2_length_eq in Hd by (rewrite upd_length, repeat_length; lia).
        rewrite nth_map2 with (da := 0) (db := 0) by (rewrite ?upd_length, ?repeat_length; lia).
        destruct (Nat.eq_dec a d); [subst; rewrite nth_upd_eq by (rewrite repeat_length; auto)|rewrite nth_upd_ne, nth_repeat by auto]; lia. }
    rewrite E. reflexivity.
  - split; [now apply valid_length|]. intros d Hd. pose proof (valid_nth _ _ d V Hd) as Vd. rewrite LNS in Hd.
    destruct (Nat.eq_dec a d).
    + subst d. rewrite !nth_upd_eq; auto; unfold h, t; rewrite ?upd_length, ?repeat_length; auto.
    + rewrite !nth_upd_ne by auto. unfold h, t, NS in *. rewrite nth_upd_ne in Vd by auto.
      rewrite !nth_upd_ne, nth_repeat by auto. auto.
Qed.

Theorem pad_axis_forward fuel junk junk' p (x : T) i ax a q e :
  (forall d, (d < ndim x)%nat -> 0 <= nth d (shp x) 0) ->
  check_axes (Z.of_nat (ndim x)) ax = Ok [Z.of_nat a] -> (a < ndim x)%nat ->
  at_item p i q ->
  mode_ext (ap_mode q) (ap_before q) (ap_after q) (ap_const q) (ap_end q) (ap_stat q) = Some e ->
  0 <= ap_before q -> 0 <= ap_after q ->
  1 <= nth a (shp x) 0 \/ empty_ok (ap_mode q) = true ->
  (forall d, (d < ndim x)%nat -> nth d (shp x) 0 + ap_before q + ap_after q <= Z.of_nat fuel) ->
  parity_slot (ap_mode q) (nth a (shp x) 0) = 0 ->
  exists y y', pad_axis fuel junk p x i ax = Ok y /\ padder_forward fuel junk' (only q) x ax = Ok y' /\ teq y y'.
Proof.
  intros Hsh Hax Ha Hat He Hb Haf Hn Hfuel Hpar.
  assert (Es : step_after F q (nth a (shp x) 0) = ap_after q).
  { unfold step_after. destruct ((ap_before q =? 0) && (ap_after q =? 0)) eqn:Ez; [bdestr; auto|lia]. }
  destruct (pad_axis_spec fuel junk p x i ax a q e) as [y [Hy [Sy Ay]]]; auto.
  { specialize (Hfuel a Ha). lia. }
  destruct (forward_axis F fuel junk' (only q) x ax a q e) as [y' [Hy' [Sy' Ay']]]; auto.
  { unfold ndim in *. lia. } { apply params_only. }
  { intros d Hd. rewrite Es. specialize (Hfuel d Hd). destruct (Nat.eq_dec a d).
    - subst d. rewrite nth_upd_eq by auto. lia.
    - rewrite nth_upd_ne by auto. lia. }
  exists y, y'. split; auto. split; auto. rewrite Es in Sy'. split; [congruence|].
  intros j V. rewrite Ay by auto. rewrite Ay'; auto. rewrite Sy', <- Sy. auto.
Qed.

(** ** Laws of the point reflections *)
Lemma ext_odd_reflect_orig n (f : Z -> F) t : 1 <= n -> 0 <= t < n -> ext_odd_reflect n f t = f t.
Proof. intros. now apply odd_reflect_core. Qed.
Lemma ext_odd_reflect_mirror n (f : Z -> F) t : 1 <= n ->
  ext_odd_reflect n f (- t) = fsub (fmul (fofZ 2) (f 0)) (ext_odd_reflect n f t).
Proof.
  intros. destruct (Z.eq_dec n 1).
  - subst. unfold ext_odd_reflect. simpl. ring.
  - apply (odd_reflect_mirror0 F (mkT [] (fun _ => f 0)) 0%nat 0 0). lia.
Qed.
Lemma ext_odd_reflect_shift n (f : Z -> F) t : 1 <= n ->
  ext_odd_reflect n f (t + 2 * (n - 1)) =
  fadd (ext_odd_reflect n f t) (fmul (fofZ 2) (fsub (f (n - 1)) (f 0))).
Proof.
  intros. destruct (Z.eq_dec n 1).
  - subst. unfold ext_odd_reflect. simpl. ring.
  - replace (t + 2 * (n - 1)) with (t + 1 * (2 * n - 2)) by lia. rewrite (odd_reflect_shift F (mkT [] (fun _ => f 0)) 0%nat 0 0) by lia.
    rewrite fofZ_1. ring.
Qed.
Lemma ext_odd_symmetric_orig n (f : Z -> F) t : 1 <= n -> 0 <= t < n -> ext_odd_symmetric n f t = f t.
Proof. intros. now apply odd_symmetric_core. Qed.
Lemma ext_odd_symmetric_mirror n (f : Z -> F) t : 1 <= n ->
  ext_odd_symmetric n f (- 1 - t) = fsub (fmul (fofZ 2) (f 0)) (ext_odd_symmetric n f t).
Proof. intros. now apply (odd_symmetric_mirror0 F (mkT [] (fun _ => f 0)) 0%nat 0 0). Qed.
Lemma ext_odd_symmetric_shift n (f : Z -> F) t : 1 <= n ->
  ext_odd_symmetric n f (t + 2 * n) =
  fadd (ext_odd_symmetric n f t) (fmul (fofZ 2) (fsub (f (n - 1)) (f 0))).
Proof.
  intros. replace (t + 2 * n) with (t + 1 * (2 * n)) by lia. rewrite (odd_symmetric_shift F (mkT [] (fun _ => f 0)) 0%nat 0 0) by lia.
  rewrite fofZ_1. ring.
Qed.
End More.
