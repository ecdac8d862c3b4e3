(** The gradient magnitude of a filter without any kernel, which sums into its own input (C46). *)
From Verif Require Export EdgeComponent.
Open Scope Z_scope.

Section EA.
Variable F : ofield.
Add Field Fea : (f_field F).
Notation T := (tensor F).
Variable trunc : F -> Z.

(** 2 to the n-th power *)
Fixpoint twice (n : nat) : F := match n with O => f1 | S n' => fadd (twice n') (twice n') end.

Lemma no_kernel_init normalize shared (e : edge_filter F) :
  edge_init (NItem []) (NItem []) normalize None shared = Ok e ->
  e = mkEdge [] (mkPool (NItem []) (NItem 0) (NItem 1) None 0) (mkPool (NItem []) (NItem 0) (NItem 1) None 0) shared.
Proof. destruct normalize; cbn; intros H; now inv H. Qed.
Lemma no_kernel_loop (m : pool F) (x : T) : pl_size m = NItem 0 -> forall l i, pool_loop m x i l = Ok x.
Proof. intros S. induction l as [|a l IH]; intros i; cbn [pool_loop]; auto. rewrite S. cbn. apply IH. Qed.

Lemma no_kernel_component fuel junk normalize shared (e : edge_filter F) (x : T) a al :
  edge_init (NItem []) (NItem []) normalize None shared = Ok e ->
  (forall b, In b al -> (b < ndim x)%nat) -> In a al ->
  component trunc fuel junk e x (AxInt (Z.of_nat a)) (AxSeq (map Z.of_nat al)) = (e, Ok x).
Proof.
  intros HI Hal Ha. apply no_kernel_init in HI. subst e. unfold component.
  rewrite check_one, (check_axes_seq_nat (ndim x) al Hal). cbn [conv_edge ef_kernel map zlist_eqb all2].
  assert (W : exists bl, filter (fun b => negb (b =? Z.of_nat a)) (map Z.of_nat al) = map Z.of_nat bl /\ forall b, In b bl -> (b < ndim x)%nat).
  { exists (filter (fun b => negb (Nat.eqb b a)) al). split.
    - clear. induction al as [|b al IH]; [reflexivity|]. cbn [map filter].
      replace (Z.of_nat b =? Z.of_nat a) with (Nat.eqb b a) by (destruct (Nat.eqb_spec b a), (Z.eqb_spec (Z.of_nat b) (Z.of_nat a)); auto; lia).
      destruct (negb (Nat.eqb b a)); cbn [map]; now rewrite IH.
    - intros b Hb. apply filter_In in Hb as [Hb _]. auto. }
  destruct W as [bl [-> Hbl]].
  assert (S1 : sep_forward fuel junk (mkPool (NItem []) (NItem 0) (NItem 1) None 0) x (AxInt (Z.of_nat a)) = (mkPool (NItem []) (NItem 0) (NItem 1) None 0, Ok x)).
  { unfold sep_forward. rewrite check_one. cbn [pl_ndim Z.eqb orb]. unfold pool_pad. change [Z.of_nat a] with (map Z.of_nat [a]).
    rewrite (check_axes_seq_nat (ndim x) [a]) by (intros b [<-|[]]; auto). cbn [pl_padder bind]. now rewrite no_kernel_loop. }
  unfold conv_edge. cbn [ef_kernel map zlist_eqb all2 ef_edge]. rewrite S1. cbn [set_edge ef_kernel ef_smooth ef_shared share pl_padder].
  assert (S2 : sep_forward fuel junk (mkPool (NItem []) (NItem 0) (NItem 1) None 0) x (AxSeq (map Z.of_nat bl)) = (mkPool (NItem []) (NItem 0) (NItem 1) None 0, Ok x)).
  { unfold sep_forward. rewrite (check_axes_seq_nat (ndim x) bl Hbl). cbn [pl_ndim Z.eqb orb]. unfold pool_pad. change [Z.of_nat a] with (map Z.of_nat [a]).
    rewrite (check_axes_seq_nat (ndim x) bl Hbl). cbn [pl_padder bind]. now rewrite no_kernel_loop. }
  destruct shared; cbn [share pl_padder ef_smooth]; rewrite S2; reflexivity.
Qed.
Lemma no_kernel_untouched normalize shared (e : edge_filter F) axes :
  edge_init (NItem []) (NItem []) normalize None shared = Ok e -> axes <> [] -> untouched e axes = true.
Proof.
  intros HI Ne. apply no_kernel_init in HI. subst e. unfold untouched. cbn [ef_kernel ef_smooth pl_kernel nds_get].
  destruct axes; [congruence|]. apply forallb_forall. reflexivity.
Qed.
Lemma no_kernel_sum fuel junk normalize shared (e : edge_filter F) al :
  edge_init (NItem []) (NItem []) normalize None shared = Ok e -> forall todo (x : T),
  (forall b, In b al -> (b < ndim x)%nat) -> incl todo al -> al <> [] ->
  exists m, snd (mag_loop trunc fuel junk e x (map Z.of_nat al) (map Z.of_nat todo) P1 (Some x)) = Ok (Some m) /\ shp m = shp x /\
    forall i, valid (shp x) i -> at_ m i = fmul (twice (length todo)) (at_ x i).
Proof.
  intros HI. induction todo as [|a todo IH]; intros x Hal Hin Ne; cbn [map mag_loop].
  - exists x. split; auto. split; auto. intros i V. cbn [length twice]. ring.
  - rewrite (no_kernel_component fuel junk normalize shared e x a al HI Hal) by (apply Hin; now left). cbn [bind powered].
    destruct (tiadd_same F x x eq_refl) as [m [M1 [M2 M3]]]. rewrite M1. unfold next_input.
    rewrite (no_kernel_untouched normalize shared e (map Z.of_nat al) HI) by (intros Q; apply map_eq_nil in Q; contradiction).
    destruct (IH m) as [r [R1 [R2 R3]]]; auto.
    { unfold ndim in *. now rewrite M2. } { intros b Hb. apply Hin. now right. }
    exists r. split; auto. split; [congruence|]. intros i V. rewrite R3 by congruence. rewrite M3 by auto. cbn [length twice]. ring.
Qed.
Theorem no_kernel_magnitude fuel junk normalize shared (e : edge_filter F) (x : T) ax al eps :
  edge_init (NItem []) (NItem []) normalize None shared = Ok e ->
  check_axes (Z.of_nat (ndim x)) ax = Ok (map Z.of_nat al) -> (forall a, In a al -> (a < ndim x)%nat) -> (2 <= length al)%nat ->
  (forall a, In a al -> snd (component trunc fuel junk e x (AxInt (Z.of_nat a)) (AxSeq (map Z.of_nat al))) = Ok x) /\
  exists m, snd (magnitude trunc fuel junk e x ax eps P1) = Ok m /\ shp m = shp x /\
    forall i, valid (shp x) i -> at_ m i = fadd (fmul (twice (length al - 1)) (at_ x i)) eps.
Proof.
  intros HI Hax Hal Hl. split.
  { intros a Ha. now rewrite (no_kernel_component fuel junk normalize shared e x a al HI Hal Ha). }
  unfold magnitude. rewrite Hax, map_length. destruct (Nat.ltb_spec (length al) 2); [lia|].
  destruct al as [|a rest]; [simpl in Hl; lia|]. cbn [length Nat.sub]. rewrite Nat.sub_0_r.
  set (al := a :: rest) in *. unfold al at 2. cbn [map mag_loop].
  rewrite (no_kernel_component fuel junk normalize shared e x a al HI Hal) by now left. cbn [bind powered]. unfold next_input.
  rewrite (no_kernel_untouched normalize shared e) by (auto; discriminate).
  destruct (no_kernel_sum fuel junk normalize shared e al HI rest x Hal) as [m [M1 [M2 M3]]]; [intros b Hb; now right|discriminate|].
  destruct (mag_loop _ _ _ _ _ _ _ _ _) as [e' r]. cbn [fst snd] in *. subst r. cbn [bind].
  destruct (fleb eps f0 && fleb f0 eps) eqn:E.
  - apply andb_true_iff in E as [E1 E2]. assert (eps = f0) by (apply (fle_antisym F); auto). subst eps.
    exists m. split; auto. split; auto. intros i V. rewrite M3 by auto. ring.
  - eexists. split; [reflexivity|]. split; auto. intros i V. cbn [tmap at_]. now rewrite M3 by auto.
Qed.
End EA.
