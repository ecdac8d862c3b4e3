(** Magnitudes of components of different shapes; the Laplace filter with periodize padding (C129). *)
From Verif Require Export PeriodizeMag.
Open Scope Z_scope.

Section LP.
Variable F : ofield.
Add Field Flp : (f_field F).
Notation T := (tensor F).
Variable trunc : F -> Z.

Lemma mag_loop_any fuel junk (e0 : edge_filter F) (x : T) axes p (cs : nat -> T) : coh F e0 -> (p = P1 -> ef_kernel e0 <> []) -> forall al,
  (forall a, In a al -> snd (component trunc fuel junk e0 x (AxInt (Z.of_nat a)) (AxSeq axes)) = Ok (cs a)) ->
  forall e m0, elike F e0 e ->
  ((forall a, In a al -> expandable (shp (cs a)) (shp m0) = true) ->
   exists m, snd (mag_loop trunc fuel junk e x axes (map Z.of_nat al) p (Some m0)) = Ok (Some m) /\ shp m = shp m0 /\
     forall i, valid (shp m0) i -> at_ m i = fadd (at_ m0 i) (axis_sum (fun a => raise_to F p (at_ (cs a) (bidx (shp (cs a)) i))) al)) /\
  ((exists a, In a al /\ expandable (shp (cs a)) (shp m0) = false) ->
   snd (mag_loop trunc fuel junk e x axes (map Z.of_nat al) p (Some m0)) = Err RuntimeError).
Proof.
  intros C NE. induction al as [|a al IH]; intros H e m0 L; cbn [map mag_loop].
  - split; [|intros (a & [] & _)]. intros _. exists m0. split; auto. split; auto. intros i V. unfold axis_sum. cbn. ring.
  - pose proof (H a (or_introl eq_refl)) as H1.
    destruct (component_like F trunc fuel junk e0 e x (AxInt (Z.of_nat a)) (AxSeq axes) L C) as [E1 E2].
    destruct (component_like F trunc fuel junk e e0 x (AxInt (Z.of_nat a)) (AxSeq axes) (elike_sym _ _ _ L) (coh_like _ _ _ L C)) as [_ E3].
    rewrite H1 in E1. destruct (component trunc fuel junk e x _ _) as [e1 r]. cbn [fst snd] in *. subst r. cbn [bind].
    destruct (powered_ok F p (cs a)) as [P1' P2]. unfold tiadd. rewrite !P1'.
    assert (L1 : elike F e0 e1) by exact (elike_trans _ _ _ _ L E3).
    destruct (expandable (shp (cs a)) (shp m0)) eqn:Ex.
    + match goal with |- context [mkT (shp m0) ?g] => set (m1 := mkT (shp m0) g) end.
      rewrite <- (next_input_like F e0 e1 axes p x m1 L1), next_input_keep by auto. destruct (IH (fun b Hb => H b (or_intror Hb)) e1 m1 L1) as [I1 I2]. split.
      * intros G. destruct I1 as [m [M1 [M2 M3]]]; [intros b Hb; apply (G b); now right|].
        exists m. split; auto. split; auto. intros i V. rewrite M3 by auto. unfold m1. cbn [at_]. rewrite P2. unfold axis_sum. cbn. ring.
      * intros (b & [<-|Hb] & G); [congruence|]. apply I2. eauto.
    + split; [intros G; specialize (G a (or_introl eq_refl)); congruence|reflexivity].
Qed.

Theorem magnitude_any fuel junk ker smooth normalize pd shared (e : edge_filter F) (x : T) ax a1 rest eps p (cs : nat -> T) :
  edge_init (NItem ker) smooth normalize pd shared = Ok e ->
  check_axes (Z.of_nat (ndim x)) ax = Ok (map Z.of_nat (a1 :: rest)) -> rest <> [] ->
  (forall a, In a (a1 :: rest) -> snd (component trunc fuel junk e x (AxInt (Z.of_nat a)) (AxSeq (map Z.of_nat (a1 :: rest)))) = Ok (cs a)) ->
  (p = P1 -> ker <> []) ->
  ((forall a, In a rest -> expandable (shp (cs a)) (shp (cs a1)) = true) ->
   exists m, snd (magnitude trunc fuel junk e x ax eps p) = Ok m /\ shp m = shp (cs a1) /\
     forall i, valid (shp m) i -> at_ m i =
       take_root F p (fadd (axis_sum (fun a => raise_to F p (at_ (cs a) (bidx (shp (cs a)) i))) (a1 :: rest)) eps)) /\
  ((exists a, In a rest /\ expandable (shp (cs a)) (shp (cs a1)) = false) ->
   snd (magnitude trunc fuel junk e x ax eps p) = Err RuntimeError).
Proof.
  intros HI Hax Hne H NE. rewrite <- (init_kernel F _ _ _ _ _ _ HI) in NE. apply init_coh in HI. unfold magnitude. rewrite Hax. rewrite map_length.
  destruct (Nat.ltb_spec (length (a1 :: rest)) 2); [destruct rest; [congruence|cbn [length] in *; lia]|].
  set (axes := map Z.of_nat (a1 :: rest)) in *.
  assert (St : exists e1, elike F e e1 /\ mag_loop trunc fuel junk e x axes axes p None = mag_loop trunc fuel junk e1 x axes (map Z.of_nat rest) p (Some (powered p (cs a1)))).
  { unfold axes at 2. cbn [map mag_loop]. pose proof (H a1 (or_introl eq_refl)) as H1.
    destruct (component_like F trunc fuel junk e e x (AxInt (Z.of_nat a1)) (AxSeq axes) (elike_refl F e) HI) as [_ E3].
    destruct (component trunc fuel junk e x _ _) as [e1 r]. cbn [fst snd] in *. subst r. cbn [bind].
    rewrite <- (next_input_like F e e1 axes p x _ E3), next_input_keep by auto. eauto. }
  destruct St as [e1 [L1 St]]. rewrite St. destruct (powered_ok F p (cs a1)) as [P1' P2].
  destruct (mag_loop_any fuel junk e x axes p cs HI NE rest (fun b Hb => H b (or_intror Hb)) e1 (powered p (cs a1)) L1) as [M1 M2]. rewrite P1' in M1, M2.
  split.
  - intros G. destruct (M1 G) as [m [N1 [N2 N3]]]. destruct (mag_loop trunc fuel junk e1 x _ _ p _) as [e' r]. cbn [fst snd] in *. subst r. cbn [bind].
    set (m1 := if _ && _ then m else _).
    assert (S1 : shp m1 = shp (cs a1) /\ forall i, valid (shp (cs a1)) i -> at_ m1 i = fadd (axis_sum (fun a => raise_to F p (at_ (cs a) (bidx (shp (cs a)) i))) (a1 :: rest)) eps).
    { assert (V1 : forall i, valid (shp (cs a1)) i -> at_ m i = axis_sum (fun a => raise_to F p (at_ (cs a) (bidx (shp (cs a)) i))) (a1 :: rest)).
      { intros i V. rewrite N3 by auto. rewrite P2. unfold axis_sum. cbn [map fold_right]. rewrite bidx_same by auto. reflexivity. }
      unfold m1. destruct (_ && _) eqn:E.
      - apply andb_true_iff in E. destruct E as [E1' E2']. assert (eps = f0) by (apply (fle_antisym F); auto). subst eps.
        split; auto. intros i V. rewrite V1 by auto. ring.
      - split; auto. intros i V. cbn [tmap at_]. rewrite V1 by auto. reflexivity. }
    destruct S1 as [S1 S2]. destruct p; eexists; (split; [reflexivity|]); cbn [tmap shp at_ take_root]; (split; [auto|]); intros i V; rewrite S2 by congruence; auto.
  - intros G. specialize (M2 G). destruct (mag_loop trunc fuel junk e1 x _ _ p _) as [e' r]. cbn [fst snd] in *. subst r. reflexivity.
Qed.

(** ** The Laplace filter *)
Lemma expandable_iff s t : length s = length t ->
  (expandable s t = true <-> forall d, (d < length s)%nat -> nth d s 0 = nth d t 0 \/ nth d s 0 = 1).
Proof.
  intros L. unfold expandable. rewrite L, Nat.leb_refl, Nat.sub_diag. cbn [andb skipn]. revert t L.
  induction s as [|a s IH]; intros [|b t] L; try discriminate; cbn [all2]; [split; auto; intros; cbn in *; lia|].
  rewrite andb_true_iff, orb_true_iff, !Z.eqb_eq. cbn in L. injection L as L. rewrite IH by auto. split.
  - intros [H1 H2] [|d] Hd; cbn [nth]; auto. apply H2. cbn in Hd. lia.
  - intros H. split; [apply (H 0%nat); cbn; lia|]. intros d Hd. apply (H (S d)). cbn. lia.
Qed.
Lemma expandable_two sh a b m n : (a < length sh)%nat -> (b < length sh)%nat -> a <> b ->
  (expandable (upd b m sh) (upd a n sh) = true <-> (m = nth b sh 0 \/ m = 1) /\ (nth a sh 0 = n \/ nth a sh 0 = 1)).
Proof.
  intros Ha Hb Ne. rewrite expandable_iff by (now rewrite !upd_length). rewrite upd_length. split.
  - intros H. split.
    + specialize (H b Hb). rewrite nth_upd_eq, nth_upd_ne in H by auto. auto.
    + specialize (H a Ha). rewrite nth_upd_ne, nth_upd_eq in H by auto. auto.
  - intros [H1 H2] d Hd. rewrite !nth_upd. destruct (Nat.eqb_spec a d); destruct (Nat.eqb_spec b d); subst; cbn [andb]; try congruence.
    + destruct (Nat.ltb_spec d (length sh)); lia.
    + destruct (Nat.ltb_spec d (length sh)); lia.
    + auto.
Qed.

(** The second difference along axis a with periodize padding. *)
Definition second_diff (x : T) (a : nat) (j : list Z) : F :=
  fadd (fsub (at_ x (upd a (pspot (nth a (shp x) 0) (nth a j 0 + 1)) j)) (fmul (fofZ 2) (at_ x (upd a (pspot (nth a (shp x) 0) (nth a j 0)) j))))
       (at_ x (upd a (pspot (nth a (shp x) 0) (nth a j 0 - 1)) j)).

Lemma laplace_component fuel junk p shared (e : edge_filter F) (x : T) ax al a : truncates trunc ->
  laplace_init (Some p) shared = Ok e -> edge_image fuel p MPeriodize x ax al 4 -> In a al ->
  exists c, snd (component trunc fuel junk e x (AxInt (Z.of_nat a)) (AxSeq (map Z.of_nat al))) = Ok c /\
    shp c = upd a (nth a (shp x) 0 + nth a (shp x) 0 mod 2) (shp x) /\ forall j, valid (shp c) j -> at_ c j = second_diff x a j.
Proof.
  intros TR HI EI Ha. unfold laplace_init in HI. pose proof EI as [[A1 A2 A3] P0 Pos1 U M FU].
  assert (UK : used_kernel trunc (@laplace_kernel F) = laplace_kernel).
  { unfold used_kernel, laplace_kernel, ints. cbn [map]. rewrite !trunc_int by auto. reflexivity. }
  assert (EI3 : edge_image fuel p MPeriodize x ax al 3).
  { constructor; auto. - constructor; auto. - intros d Hd. specialize (FU d Hd). lia. }
  destruct (conv_periodize F trunc fuel junk laplace_kernel (NItem []) false p shared e x ax al 3 a HI ltac:(discriminate) Ha EI3 ltac:(cbn; lia)) as [z [Z1 [Z2 Z3]]].
  change (klen (@laplace_kernel F)) with 3 in *. change (even_up 3 (nth a (shp x) 0)) with (nth a (shp x) 0 + nth a (shp x) 0 mod 2) in Z2.
  assert (Nz : ndim z = ndim x) by (unfold ndim; rewrite Z2; apply upd_length).
  assert (EIz : edge_image fuel p MPeriodize z (AxSeq (map Z.of_nat al)) al 3).
  { apply (edge_image_shape F fuel p MPeriodize x z ax al 3); auto. intros d Hd. rewrite Z2, nth_upd. pose proof (Z.mod_pos_bound (nth d (shp x) 0) 2).
    destruct (Nat.eqb_spec a d); cbn [andb]; [|lia]. subst. destruct (Nat.ltb_spec d (length (shp x))); lia. }
  destruct (edge_init_built F _ _ _ _ _ _ HI) as [I1 [I2 [I3 I4]]].
  specialize (I4 (length (without a al)) (repeat [] (length (without a al))) eq_refl). cbn [smoothers] in I4.
  pose proof (edge_image_rest F fuel p MPeriodize z _ al 3 a (repeat [] (length (without a al))) EIz Ha ltac:(lia)
    (fun k Hk => ltac:(apply repeat_spec in Hk; subst; unfold klen; cbn; lia))) as SC2.
  destruct (smooth_none F fuel junk (ef_smooth e) z (without a al) p _ I4 SC2) as [y [Y1 [Y2 Y3]]].
  exists y. split.
  { rewrite (component_smooths F trunc fuel junk laplace_kernel (NItem []) false (Some p) shared e x z _ _ a al); auto.
    - apply check_one.
    - apply check_axes_seq_nat; auto. }
  split; [congruence|]. intros j Vj. rewrite Y3 by auto. rewrite Z3 by congruence. rewrite UK. unfold laplace_kernel, ints. cbn [map].
  unfold second_diff. rewrite fsum_3. change (Z.to_nat 0) with 0%nat. change (Z.to_nat 1) with 1%nat. change (Z.to_nat 2) with 2%nat. cbn [nth]. change (3 / 2) with 1.
  replace (nth a j 0 + 0 - 1) with (nth a j 0 - 1) by lia. replace (nth a j 0 + 1 - 1) with (nth a j 0) by lia. replace (nth a j 0 + 2 - 1) with (nth a j 0 + 1) by lia.
  unfold fofZ; cbn [fofpos].  ring.
Qed.

Theorem laplace_periodize fuel junk p shared (e : edge_filter F) (x : T) ax a1 rest : truncates trunc ->
  laplace_init (Some p) shared = Ok e -> edge_image fuel p MPeriodize x ax (a1 :: rest) 4 -> rest <> [] ->
  let ev a := Z.even (nth a (shp x) 0) = true in
  ((forall a, In a (a1 :: rest) -> ev a) ->
   exists y, snd (laplace_forward trunc fuel junk e x ax) = Ok y /\ shp y = shp x /\
     forall j, valid (shp y) j -> at_ y j = axis_sum (fun a => second_diff x a j) (a1 :: rest)) /\
  (nth a1 (shp x) 0 = 1 -> (forall a, In a rest -> ev a) ->
   exists y, snd (laplace_forward trunc fuel junk e x ax) = Ok y /\ shp y = upd a1 2 (shp x) /\
     forall j, valid (shp y) j -> at_ y j = axis_sum (fun a => second_diff x a (upd a1 0 j)) rest) /\
  (~ (forall a, In a (a1 :: rest) -> ev a) -> ~ (nth a1 (shp x) 0 = 1 /\ forall a, In a rest -> ev a) ->
   snd (laplace_forward trunc fuel junk e x ax) = Err RuntimeError).
Proof.
  intros TR HI EI Hne ev. pose proof EI as [[A1 A2 A3] P0 Pos1 U M FU]. pose proof HI as HI0. unfold laplace_init in HI0.
  set (al := a1 :: rest) in *.
  set (cs := fun a => match snd (component trunc fuel junk e x (AxInt (Z.of_nat a)) (AxSeq (map Z.of_nat al))) with Ok y => y | Err _ => x end).
  assert (C : forall a, In a al -> snd (component trunc fuel junk e x (AxInt (Z.of_nat a)) (AxSeq (map Z.of_nat al))) = Ok (cs a) /\
    shp (cs a) = upd a (nth a (shp x) 0 + nth a (shp x) 0 mod 2) (shp x) /\ forall j, valid (shp (cs a)) j -> at_ (cs a) j = second_diff x a j).
  { intros a Ha. destruct (laplace_component fuel junk p shared e x ax al a TR HI EI Ha) as [c [C1 [C2 C3]]]. unfold cs. rewrite C1. auto. }
  assert (Evn : forall a, ev a <-> nth a (shp x) 0 mod 2 = 0).
  { intros a. unfold ev. rewrite Zmod_even. destruct (Z.even _); split; auto; discriminate. }
  assert (I1 : In a1 al) by now left.
  assert (La1 : (a1 < length (shp x))%nat) by (apply A2; auto).
  assert (Ex : forall b, In b rest -> (expandable (shp (cs b)) (shp (cs a1)) = true <-> ev b /\ (ev a1 \/ nth a1 (shp x) 0 = 1))).
  { intros b Hb. destruct (C b (or_intror Hb)) as [_ [S1 _]]. destruct (C a1 I1) as [_ [S2 _]]. rewrite S1, S2.
    assert (Ne : a1 <> b) by (intros ->; unfold al in A3; now inversion A3).
    rewrite expandable_two; auto; [|apply A2; now right]. rewrite !Evn. specialize (Pos1 b (or_intror Hb)).
    pose proof (Z.mod_pos_bound (nth b (shp x) 0) 2). pose proof (Z.mod_pos_bound (nth a1 (shp x) 0) 2).
    split; [|intros [G1 G2]; split; lia]. intros [[G1|G1] [G2|G2]]; split; auto; try lia. }
  destruct (magnitude_any fuel junk laplace_kernel (NItem []) false (Some p) shared e x ax a1 rest f0 P1 cs HI0 A1 Hne (fun a Ha => proj1 (C a Ha)) ltac:(discriminate)) as [M1 M2].
  change (laplace_forward trunc fuel junk e x ax) with (magnitude trunc fuel junk e x ax f0 P1).
  split; [|split].
  - intros Hev. destruct M1 as [y [Y1 [Y2 Y3]]]. { intros b Hb. apply Ex; auto. split; [apply Hev; now right|left; auto]. }
    assert (Sa : forall a, In a al -> shp (cs a) = shp x).
    { intros a Ha. destruct (C a Ha) as [_ [S1 _]]. rewrite S1. assert (G : nth a (shp x) 0 mod 2 = 0) by (apply Evn; auto). rewrite G, Z.add_0_r. apply upd_nth. }
    exists y. split; auto. split; [rewrite Y2; auto|]. intros j Vj. rewrite Y3 by auto. cbn [take_root raise_to].
    rewrite Y2, Sa in Vj by auto.
    fold al. transitivity (axis_sum (fun a => at_ (cs a) (bidx (shp (cs a)) j)) al); [ring|]. unfold axis_sum. f_equal. apply map_ext_in. intros a Ha.
    rewrite Sa by auto. rewrite bidx_same by auto. apply (C a Ha). now rewrite Sa.
  - intros H1 Hev. destruct M1 as [y [Y1 [Y2 Y3]]]. { intros b Hb. apply Ex; auto. }
    destruct (C a1 I1) as [_ [S1 V1]]. rewrite H1 in S1. change (1 + 1 mod 2) with 2 in S1.
    exists y. split; auto. split; [congruence|]. intros j Vj. rewrite Y3 by auto. cbn [take_root raise_to].
    rewrite Y2, S1 in Vj.
    assert (Lj : length j = length (shp x)) by (rewrite (valid_length _ _ Vj); apply upd_length).
    unfold al, axis_sum. cbn [map fold_right]. rewrite S1. rewrite bidx_same by auto. rewrite V1 by congruence.
    assert (Z1 : second_diff x a1 j = f0).
    { unfold second_diff. rewrite H1. unfold pspot. change (1 + 1 mod 2) with 2. change (1 - 1) with 0.
      assert (G : forall t, Z.min 0 (t mod 2) = 0) by (intros t; pose proof (Z.mod_pos_bound t 2); lia). rewrite !G. unfold fofZ; cbn [fofpos]. ring. }
    rewrite Z1. transitivity (fold_right fadd f0 (map (fun a => at_ (cs a) (bidx (shp (cs a)) j)) rest)); [ring|]. f_equal. apply map_ext_in. intros b Hb.
    assert (Ne : a1 <> b) by (intros ->; unfold al in A3; now inversion A3).
    destruct (C b (or_intror Hb)) as [_ [Sb Vb]].
    assert (Sb' : shp (cs b) = shp x). { rewrite Sb. assert (G : nth b (shp x) 0 mod 2 = 0) by (apply Evn; auto). rewrite G, Z.add_0_r. apply upd_nth. }
    assert (V0 : valid (shp x) (upd a1 0 j)). { apply (valid_upd_back (shp x) j a1 0 2); auto. lia. }
    assert (Bi : bidx (shp (cs b)) j = bidx (shp x) (upd a1 0 j)).
    { rewrite Sb'. unfold bidx. rewrite upd_length, Lj, Nat.sub_diag. cbn [skipn]. apply list_ext with (d := 0); [rewrite !map2_length, upd_length; auto|].
      intros d Hd. rewrite map2_length in Hd. rewrite !nth_map2 with (da := 0) (db := 0) by (rewrite ?upd_length; lia). rewrite nth_upd.
      destruct (Nat.eqb_spec a1 d) as [<-|]; cbn [andb]; auto. rewrite H1. reflexivity. }
    rewrite Bi, bidx_same by auto. apply Vb. now rewrite Sb'.
  - intros N1 N2. apply M2.
    destruct (Z.eq_dec (nth a1 (shp x) 0) 1) as [E1|E1].
    + assert (G : exists b, In b rest /\ ~ ev b).
      { destruct (forallb (fun b => Z.even (nth b (shp x) 0)) rest) eqn:Eb.
        - exfalso. apply N2. split; auto. intros b Hb. rewrite forallb_forall in Eb. unfold ev. auto.
        - rewrite <- not_true_iff_false in Eb. 
          assert (Q : exists b, In b rest /\ Z.even (nth b (shp x) 0) = false).
          { clear - Eb. induction rest as [|b l IH]; [exfalso; apply Eb; reflexivity|]. cbn [forallb] in Eb. destruct (Z.even (nth b (shp x) 0)) eqn:E.
            - destruct IH as [c [I1 I2]]; [intros G; apply Eb; now rewrite G|]. exists c. split; [now right|auto].
            - exists b. split; [now left|auto]. }
          destruct Q as [b [Q1 Q2]]. exists b. split; auto. unfold ev. congruence. }
      destruct G as [b [Hb Nb]]. exists b. split; auto. apply not_true_iff_false. rewrite Ex by auto. tauto.
    + destruct (Z.even (nth a1 (shp x) 0)) eqn:Ea.
      * assert (Q : exists b, In b rest /\ Z.even (nth b (shp x) 0) = false).
        { assert (N3 : ~ forall b, In b rest -> ev b) by (intros G; apply N1; intros a [<-|Ha]; auto).
          clear - N3. unfold ev in N3. clear ev. induction rest as [|b l IH]; [exfalso; apply N3; intros ? []|]. destruct (Z.even (nth b (shp x) 0)) eqn:E.
          - destruct IH as [c [I1 I2]]; [intros G; apply N3; intros d [<-|Hd]; auto|]. exists c. split; [now right|auto].
          - exists b. split; [now left|auto]. }
        destruct Q as [b [Q1 Q2]]. exists b. split; auto. apply not_true_iff_false. rewrite Ex by auto. unfold ev. intros [G _]. congruence.
      * destruct rest as [|b l]; [congruence|]. exists b. split; [now left|]. apply not_true_iff_false. rewrite Ex by now left. unfold ev. intros [_ [G|G]]; congruence.
Qed.
End LP.
