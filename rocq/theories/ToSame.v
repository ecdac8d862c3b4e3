(** Padder.to_same (generic_pad.py:96-125) as a method of its own: what it sets, when it
    succeeds, what it leaves behind when it fails.  Used by PropsToSame.v. *)
From Verif Require Export PoolSame PoolHistory.

(** All lists among the specifications have one length. *)
Definition one_length (l : list (option Z)) : Prop := forall a b, In (Some a) l -> In (Some b) l -> a = b.

Lemma agg_one_length l o : agg_index_shape l = Ok o <->
  one_length l /\ match o with None => forall n, ~ In (Some n) l | Some n => In (Some n) l end.
Proof.
  assert (In_iff : forall n l, In n (agg_shapes l) <-> In (Some n) l).
  { clear. intros n l. induction l as [|[m|] l IH]; cbn; [tauto| |].
    - destruct (existsb (Z.eqb m) (agg_shapes l)) eqn:E; [|cbn; rewrite IH; intuition congruence].
      rewrite IH. split; [tauto|]. intros [H|H]; [|auto]. inv H. apply IH. apply existsb_exists in E as [k [Hk E]]. apply Z.eqb_eq in E. now subst.
    - rewrite IH. intuition congruence. }
  assert (ND : NoDup (agg_shapes l)).
  { clear. induction l as [|[m|] l IH]; cbn; [constructor| |auto]. destruct (existsb (Z.eqb m) (agg_shapes l)) eqn:E; auto.
    constructor; auto. intros H. assert (existsb (Z.eqb m) (agg_shapes l) = true); [|congruence]. apply existsb_exists. exists m. split; auto. apply Z.eqb_refl. }
  unfold agg_index_shape. destruct (agg_shapes l) as [|n [|n' r]] eqn:E.
  - assert (N : forall n, ~ In (Some n) l) by (intros n H; apply In_iff in H; rewrite E in H; destruct H).
    split; [intros H; inv H; split; auto; intros a b Ha; destruct (N a Ha)|]. intros [_ H]. destruct o as [n|]; [destruct (N n H)|auto].
  - assert (N : forall m, In (Some m) l <-> m = n) by (intros m; rewrite <- In_iff, E; cbn; intuition auto).
    split.
    + intros H; inv H. split; [|now apply N]. intros a b Ha Hb. apply N in Ha, Hb. congruence.
    + intros [_ H]. destruct o as [m|]; [apply N in H; now subst|]. destruct (H n). now apply N.
  - split; [discriminate|]. intros [H _]. inv ND. destruct H2. left.
    apply H; apply In_iff; rewrite E; cbn; auto.
Qed.

Lemma item_range {A} (s : nds A) r v : item s r = Some v -> match nds_ishape s with Some n => Z.of_nat r < n | None => True end.
Proof.
  destruct s as [a|l]; cbn; auto. intros H. assert (r < length (rev l))%nat by (apply nth_error_Some; congruence). rewrite rev_length in H0. lia.
Qed.
Lemma item_get {A} (s : nds A) r n : (r < n)%nat -> nds_ishape s = None \/ nds_ishape s = Some (Z.of_nat n) ->
  exists v, nds_get s (Z.of_nat (n - 1 - r)) = Ok v /\ item s r = Some v.
Proof.
  intros Hr H. destruct s as [a|l]; cbn in *; [eauto|]. destruct H as [H|H]; [discriminate|].
  assert (L : length l = n) by (injection H; lia). destruct (nth_error l (n - 1 - r)) as [v|] eqn:E; [|apply nth_error_None in E; lia].
  exists v. split.
  - unfold pyidx. destruct (Z.ltb_spec (Z.of_nat (n - 1 - r)) 0); [lia|]. rewrite Nat2Z.id, E. destruct (Z.leb_spec 0 (Z.of_nat (n - 1 - r))); [|lia]. destruct (Z.ltb_spec (Z.of_nat (n - 1 - r)) (Z.of_nat (length l))); [auto|lia].
  - rewrite <- E. clear E. subst n. rewrite nth_error_nth' with (d := v) by (rewrite rev_length; auto). rewrite rev_nth by auto.
    replace (length l - S r)%nat with (length l - 1 - r)%nat by lia. symmetry. apply nth_error_nth'. lia.
Qed.

(** NdSpec.apply on three specifications. *)
Definition applied {A B C D} (f : A -> B -> C -> res D) (a : nds A) (b : nds B) (c : nds C) (w : nds D) : Prop :=
  forall r v, item w r = Some v <-> exists x y z, item a r = Some x /\ item b r = Some y /\ item c r = Some z /\ f x y z = Ok v.
Definition lengths3 {A B C} (a : nds A) (b : nds B) (c : nds C) := [nds_ishape a; nds_ishape b; nds_ishape c].
Lemma apply3_spec {A B C D} (f : A -> B -> C -> res D) a b c :
  match nds_apply3 f a b c with
  | Ok w => one_length (lengths3 a b c) /\ applied f a b c w /\ agg_index_shape (lengths3 a b c) = Ok (nds_ishape w) /\
      (forall r x y z, item a r = Some x -> item b r = Some y -> item c r = Some z -> exists v, f x y z = Ok v)
  | Err e => ~ one_length (lengths3 a b c) /\ e = ValueError \/
      exists r x y z, item a r = Some x /\ item b r = Some y /\ item c r = Some z /\ f x y z = Err e
  end.
Proof.
  unfold nds_apply3. destruct (agg_index_shape [nds_ishape a; nds_ishape b; nds_ishape c]) as [o|e] eqn:EA.
  2: { cbn [bind]. left. split.
       - intros H. assert (X : exists o, agg_index_shape (lengths3 a b c) = Ok o); [|destruct X as [o X]; unfold lengths3 in X; congruence].
         destruct (nds_ishape a) as [n|] eqn:Ea.
         + exists (Some n). apply agg_one_length. split; auto. unfold lengths3. rewrite Ea. now left.
         + destruct (nds_ishape b) as [n|] eqn:Eb; [exists (Some n); apply agg_one_length; split; auto; unfold lengths3; rewrite Ea, Eb; cbn; auto|].
           destruct (nds_ishape c) as [n|] eqn:Ec; [exists (Some n); apply agg_one_length; split; auto; unfold lengths3; rewrite Ea, Eb, Ec; cbn; auto|].
           exists None. apply agg_one_length. split; auto. unfold lengths3. rewrite Ea, Eb, Ec. intros n [H'|[H'|[H'|[]]]]; discriminate.
       - unfold agg_index_shape in EA. destruct (agg_shapes _) as [|n [|n' r]]; congruence. }
  cbn [bind]. apply agg_one_length in EA as EA'. destruct EA' as [OL EO]. destruct o as [n|].
  - assert (Sh : forall s : option Z, In s (lengths3 a b c) -> s = None \/ s = Some n).
    { intros [m|] Hm; [right; f_equal; now apply OL|auto]. }
    assert (Hn : 0 <= n). { destruct EO as [E|[E|[E|[]]]]; [destruct a|destruct b|destruct c]; cbn in E; try discriminate; injection E; lia. }
    set (k := Z.to_nat n). assert (Hk : n = Z.of_nat k) by (unfold k; lia). assert (Hk' : Z.to_nat n = k) by reflexivity. clearbody k.
    assert (Sh' : (nds_ishape a = None \/ nds_ishape a = Some (Z.of_nat k)) /\ (nds_ishape b = None \/ nds_ishape b = Some (Z.of_nat k)) /\ (nds_ishape c = None \/ nds_ishape c = Some (Z.of_nat k))).
    { rewrite <- Hk. split; [|split]; apply Sh; cbn; auto. } destruct Sh' as [Sa [Sb Sc]].
    assert (Rk : forall r x y z, item a r = Some x -> item b r = Some y -> item c r = Some z -> (r < k)%nat).
    { intros r x y z Ha Hb Hc. apply item_range in Ha, Hb, Hc.
      destruct EO as [E|[E|[E|[]]]]; [rewrite E in Ha|rewrite E in Hb|rewrite E in Hc]; lia. }
    set (g := fun i => x <- nds_get a i ;; y <- nds_get b i ;; z <- nds_get c i ;; f x y z).
    assert (Eg : forall r, (r < k)%nat -> exists x y z, item a r = Some x /\ item b r = Some y /\ item c r = Some z /\ g (Z.of_nat (k - 1 - r)) = f x y z).
    { intros r Hr. destruct (item_get a r k Hr Sa) as [x [X1 X2]]. destruct (item_get b r k Hr Sb) as [y [Y1 Y2]]. destruct (item_get c r k Hr Sc) as [z [Z1 Z2]].
      exists x, y, z. do 3 (split; [auto|]). unfold g. now rewrite X1, Y1, Z1. }
    destruct (mapM g (zrange n)) as [ds|e] eqn:EM; cbn [bind].
    + pose proof (mapM_length _ _ _ EM) as Ld. rewrite zrange_length, Hk' in Ld.
      assert (Dr : forall r, (r < k)%nat -> exists v, item (NList ds) r = Some v /\ g (Z.of_nat (k - 1 - r)) = Ok v).
      { intros r Hr. destruct (item_get (NList ds) r k Hr) as [v [V1 V2]]; [right; cbn; now rewrite Ld|].
        exists v. split; auto. assert (Hi : (k - 1 - r < length (zrange n))%nat) by (rewrite zrange_length; lia).
        pose proof (mapM_nth g (zrange n) ds (k - 1 - r) 0 v EM Hi) as Q. rewrite nth_zrange in Q by lia. rewrite Q. f_equal.
        cbn in V1. unfold pyidx in V1. destruct (Z.ltb_spec (Z.of_nat (k - 1 - r)) 0); [lia|]. rewrite Nat2Z.id in V1.
        destruct (_ && _) in V1; [|discriminate]. destruct (nth_error ds (k - 1 - r)) as [u|] eqn:Eu; [|discriminate]. rewrite (nth_error_nth _ _ _ Eu). congruence. }
      split; [exact OL|]. split; [|split].
      * intros r v. split.
        -- intros H. assert (Hr : (r < k)%nat) by (apply item_range in H; cbn in H; lia).
           destruct (Eg r Hr) as (x & y & z & X & Y & Z' & E). destruct (Dr r Hr) as [v' [V1 V2]]. exists x, y, z. do 3 (split; [auto|]). congruence.
        -- intros (x & y & z & X & Y & Z' & E). pose proof (Rk r x y z X Y Z') as Hr.
           destruct (Eg r Hr) as (x' & y' & z' & X' & Y' & Z'' & E'). destruct (Dr r Hr) as [v' [V1 V2]]. rewrite V1. congruence.
      * cbn. rewrite Ld, <- Hk. exact EA.
      * intros r x y z X Y Z'. pose proof (Rk r x y z X Y Z') as Hr. destruct (Eg r Hr) as (x' & y' & z' & X' & Y' & Z'' & E'). destruct (Dr r Hr) as [v' [V1 V2]].
        exists v'. congruence.
    + right. assert (X : exists i, In i (zrange n) /\ g i = Err e).
      { clear - EM. revert EM. generalize (zrange n). induction l as [|i l IH]; cbn; [discriminate|].
        destruct (g i) eqn:Eg; cbn [bind]; [|intros H; inv H; eauto]. destruct (mapM g l); cbn [bind]; [discriminate|]. intros H. inv H. destruct IH as [j [J1 J2]]; eauto. }
      destruct X as [i [Hi Ei]]. apply In_zrange in Hi. destruct (Eg (k - 1 - Z.to_nat i)%nat) as (x & y & z & X & Y & Z' & E); [lia|].
      exists (k - 1 - Z.to_nat i)%nat, x, y, z. do 3 (split; [auto|]). rewrite <- E, <- Ei. f_equal. lia.
  - assert (N : forall s : option Z, In s (lengths3 a b c) -> s = None) by (intros [m|] Hm; [destruct (EO m Hm)|auto]).
    destruct a as [x|l]; [|specialize (N _ (or_introl eq_refl)); discriminate].
    destruct b as [y|l]; [|specialize (N _ (or_intror (or_introl eq_refl))); discriminate].
    destruct c as [z|l]; [|specialize (N _ (or_intror (or_intror (or_introl eq_refl)))); discriminate].
    cbn [nds_get bind]. destruct (f x y z) as [d|e] eqn:E; cbn [bind].
    + split; [exact OL|]. split; [|split].
      * intros r v. cbn. split; [intros H; inv H; exists x, y, z; auto|]. intros (x' & y' & z' & X & Y & Z' & E'). inv X. inv Y. inv Z'. congruence.
      * reflexivity.
      * intros r x' y' z' X Y Z'. inv X. inv Y. inv Z'. eauto.
    + right. exists 0%nat, x, y, z. auto.
Qed.

Section S.
Variable F : ofield.
Notation keeps p p' := (p_mode p' = p_mode p /\ p_const p' = p_const p /\ p_end p' = p_end p /\ p_stat p' = p_stat p).
Definition lengths_of (p : padder F) := [nds_ishape (p_mode p); nds_ishape (p_const p); nds_ishape (p_end p); nds_ishape (p_stat p)].

Lemma one_length_w o l l' : agg_index_shape l = Ok o -> one_length (o :: l') <-> one_length (l ++ l').
Proof.
  intros H. apply agg_one_length in H as [OL HO]. split.
  - intros H a b Ha Hb. assert (X : forall c, In (Some c) (l ++ l') -> In (Some c) (o :: l')).
    { intros c Hc. apply in_app_iff in Hc as [Hc|Hc]; [|now right]. left. destruct o as [n|]; [f_equal; now apply OL|destruct (HO c Hc)]. }
    apply H; auto.
  - intros H a b Ha Hb. assert (X : forall c, In (Some c) (o :: l') -> In (Some c) (l ++ l')).
    { intros c [->|Hc]; apply in_app_iff; auto. }
    apply H; auto.
Qed.
Lemma agg_len_iff l : (exists n, agg_index_len l = Ok n) <-> one_length l.
Proof.
  unfold agg_index_len. split.
  - intros [n H]. destruct (agg_index_shape l) as [o|] eqn:E; [|discriminate]. now apply agg_one_length in E as [E _].
  - intros H. assert (X : exists o, agg_index_shape l = Ok o); [|destruct X as [o ->]; cbn; eauto].
    assert (D : (exists n, In (Some n) l) \/ (forall n, ~ In (Some n) l)).
    { clear. induction l as [|[m|] l IH]; [right; intros n []|left; exists m; now left|]. destruct IH as [[n H]|H]; [left; exists n; now right|right; intros n [E|E]; [discriminate|now apply (H n)]]. }
    destruct D as [[n D]|D]; [exists (Some n)|exists None]; now apply agg_one_length.
Qed.
Lemma agg_len_err l e : agg_index_len l = Err e -> e = ValueError.
Proof. unfold agg_index_len, agg_index_shape. destruct (agg_shapes l) as [|n [|m r]]; cbn; congruence. Qed.

(** What a successful call sets. *)
Theorem to_same_sets (p p' : padder F) k s i : to_same p k s i = (p', Ok tt) ->
  keeps p p' /\ applied same_padding_width k s i (p_width p') /\
  (forall n, In (Some n) (nds_ishape (p_width p') :: lengths_of p) -> p_ndim p' = n) /\
  ((forall n, ~ In (Some n) (nds_ishape (p_width p') :: lengths_of p)) -> p_ndim p' = 0).
Proof.
  unfold to_same. pose proof (apply3_spec same_padding_width k s i) as A. destruct (nds_apply3 same_padding_width k s i) as [w|e]; [|discriminate].
  destruct A as (_ & A & _). destruct (align_ndim w (p_mode p) (p_const p) (p_end p) (p_stat p)) as [n|e] eqn:E; [|discriminate].
  intros H. inv H. cbn. split; [auto|]. split; [exact A|]. unfold align_ndim, agg_index_len in E.
  destruct (agg_index_shape _) as [o|] eqn:E'; [|discriminate]. cbn in E. apply agg_one_length in E' as [OL HO].
  split.
  - intros m Hm. destruct o as [u|]; [inv E; now apply OL|]. destruct (HO m Hm).
  - intros Hm. destruct o as [u|]; [destruct (Hm u HO)|now inv E].
Qed.
(** Exactly when it succeeds. *)
Theorem to_same_iff (p : padder F) k s i : snd (to_same p k s i) = Ok tt <->
  one_length (lengths3 k s i ++ lengths_of p) /\
  forall r x y z, item k r = Some x -> item s r = Some y -> item i r = Some z -> exists w, same_padding_width x y z = Ok w.
Proof.
  unfold to_same. pose proof (apply3_spec same_padding_width k s i) as A. destruct (nds_apply3 same_padding_width k s i) as [w|e].
  - destruct A as (OL & _ & EA & AW).
    assert (X : snd (match align_ndim w (p_mode p) (p_const p) (p_end p) (p_stat p) with
       | Ok n => (mkPadder w (p_mode p) (p_const p) (p_end p) (p_stat p) n, Ok tt)
       | Err e => (mkPadder w (p_mode p) (p_const p) (p_end p) (p_stat p) (p_ndim p), Err e) end) = Ok tt <-> exists n, align_ndim w (p_mode p) (p_const p) (p_end p) (p_stat p) = Ok n).
    { destruct (align_ndim w (p_mode p) (p_const p) (p_end p) (p_stat p)); cbn; split; eauto; [discriminate|intros [n H]; discriminate]. }
    rewrite X. unfold align_ndim. rewrite agg_len_iff. change [nds_ishape w; nds_ishape (p_mode p); nds_ishape (p_const p); nds_ishape (p_end p); nds_ishape (p_stat p)] with (nds_ishape w :: lengths_of p).
    rewrite (one_length_w _ _ _ EA). split; [intros H; split; auto|tauto].
  - cbn. split; [discriminate|]. intros [OL AW]. destruct A as [[N _]|(r & x & y & z & X & Y & Z' & E)].
    + destruct N. intros u v Hu Hv. apply OL; apply (in_app_iff (lengths3 k s i)); left; assumption.
    + destruct (AW r x y z X Y Z') as [w Hw]. congruence.
Qed.
(** The two ways of failing: nothing changed, or only the widths. *)
Theorem to_same_fails (p p' : padder F) k s i e : to_same p k s i = (p', Err e) ->
  p' = p \/ (e = ValueError /\ keeps p p' /\ p_ndim p' = p_ndim p /\ applied same_padding_width k s i (p_width p')).
Proof.
  unfold to_same. pose proof (apply3_spec same_padding_width k s i) as A. destruct (nds_apply3 same_padding_width k s i) as [w|e']; [|intros H; inv H; auto].
  destruct A as (_ & A & _). destruct (align_ndim w (p_mode p) (p_const p) (p_end p) (p_stat p)) as [n|e'] eqn:E; [discriminate|].
  intros H. inv H. right. cbn. apply agg_len_err in E. auto 8.
Qed.
(** The widths from before the call, and calls that failed, make no difference. *)
Theorem to_same_history (p : padder F) k s i k' s' i' : 
  snd (to_same (fst (to_same p k s i)) k' s' i') = snd (to_same p k' s' i') /\
  (snd (to_same p k' s' i') = Ok tt -> fst (to_same (fst (to_same p k s i)) k' s' i') = fst (to_same p k' s' i')).
Proof.
  assert (L : like F p (fst (to_same p k s i))) by (apply (to_same_like F p p k s i (like_refl F p))).
  destruct (to_same_like F p _ k' s' i' L) as [E1 [_ E3]]. split; [auto|]. intros H. symmetry. auto.
Qed.
End S.

(** A padder for two axes, asked for three kernel sizes. *)
From Verif Require Import ExampleUtil.
Lemma failing_to_same : exists (p p' : padder QcF) k s i e fuel x y y',
  padder_init (p_width p) (p_mode p) (p_const p) (p_end p) (p_stat p) = Ok p /\
  to_same p k s i = (p', Err e) /\
  padder_forward fuel garbage p x AxNone = Ok y /\ padder_forward fuel garbage p' x AxNone = Ok y' /\ shp y <> shp y'.
Proof.
  set (p := pad2 (1, 0) (2, 1) MReplicate MReplicate).
  destruct (to_same p (NList [3; 5; 7]) (NItem (Some 1)) (NItem None)) as [p' r] eqn:E.
  assert (S : match padder_forward 20 garbage p x23 AxNone with Ok y => shp y | Err _ => [] end = [3; 6]) by (vm_compute; reflexivity).
  assert (S' : match padder_forward 20 garbage p' x23 AxNone with Ok y => shp y | Err _ => [] end = [6; 9]).
  { replace p' with (fst (to_same p (NList [3; 5; 7]) (NItem (Some 1)) (NItem None))) by (now rewrite E). vm_compute. reflexivity. }
  assert (R : match r with Ok _ => False | Err _ => True end).
  { replace r with (snd (to_same p (NList [3; 5; 7]) (NItem (Some 1)) (NItem None))) by (now rewrite E). vm_compute. exact I. }
  destruct r as [|e]; [contradiction|].
  destruct (padder_forward 20 garbage p x23 AxNone) as [y|] eqn:Ey; [|discriminate].
  destruct (padder_forward 20 garbage p' x23 AxNone) as [y'|] eqn:Ey'; [|discriminate].
  exists p, p', (NList [3; 5; 7]), (NItem (Some 1)), (NItem None), e, 20%nat, x23, y, y'.
  split; [reflexivity|]. split; [exact E|]. split; [exact Ey|]. split; [exact Ey'|]. rewrite S, S'. discriminate.
Qed.
