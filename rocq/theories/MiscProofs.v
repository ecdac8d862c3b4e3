(** Proofs about poly1d, safe_power and random_crop. *)
From Verif Require Export MiscModel TensorLemmas PoolForward.
Open Scope Z_scope.

(** v^n by repeated multiplication. *)
Fixpoint fpow {F : ofield} (v : F) (n : nat) : F := match n with O => f1 | S n' => fmul v (fpow v n') end.

(** ** poly1d *)
Section Poly.
Variable F : ofield.
Add Field Fpoly : (f_field F).
Notation T := (tensor F).

Lemma poly_loop_ok (x : T) n : forall ws xx y i, 1 <= i -> i + Z.of_nat (length ws) = n -> shp xx = shp x -> shp y = shp x ->
  (ws <> [] -> forall j, valid (shp x) j -> at_ xx j = fpow (at_ x j) (Z.to_nat (i + 1))) ->
  exists y', poly_loop x xx (Some y) i n ws = Ok (Some y') /\ shp y' = shp x /\
    forall j, valid (shp x) j ->
      at_ y' j = fadd (at_ y j) (fsum (Z.of_nat (length ws)) (fun q => fmul (nth (Z.to_nat q) ws f0) (fpow (at_ x j) (Z.to_nat (i + 1 + q))))).
Proof.
  induction ws as [|w ws IH]; intros xx y i Hi Hn Hxx Hy Hp.
  - exists y. split; [reflexivity|]. split; auto. intros j Hj. cbn [length]. change (fsum (Z.of_nat 0) _) with (@f0 F). ring.
  - cbn [poly_loop]. destruct (Z.eqb_spec i 0); [lia|].
    destruct (tmap2_same (fun a b => fadd a (fmul w b)) y xx ltac:(congruence)) as [y1 [E1 [E2 E3]]]. rewrite E1. cbn [bind].
    assert (H1 : shp y1 = shp x) by congruence.
    assert (C : forall j, valid (shp x) j -> forall r, fadd (at_ y1 j) (fsum (Z.of_nat (length ws)) (fun q => fmul (nth (Z.to_nat q) ws f0) (fpow (at_ x j) (Z.to_nat (i + 1 + 1 + q))))) = r ->
       fadd (at_ y j) (fsum (Z.of_nat (length (w :: ws))) (fun q => fmul (nth (Z.to_nat q) (w :: ws) f0) (fpow (at_ x j) (Z.to_nat (i + 1 + q))))) = r).
    { intros j Hj r <-. rewrite (E3 j) by (rewrite Hy; auto). rewrite (Hp ltac:(discriminate) j Hj).
      replace (Z.of_nat (length (w :: ws))) with (Z.of_nat (length ws) + 1) by (cbn [length]; lia). rewrite fsum_S_l by lia.
      change (nth (Z.to_nat 0) (w :: ws) f0) with w. rewrite Z.add_0_r.
      rewrite (fsum_ext F _ (fun k => fmul (nth (Z.to_nat (k + 1)) (w :: ws) f0) (fpow (at_ x j) (Z.to_nat (i + 1 + (k + 1)))))
        (fun q => fmul (nth (Z.to_nat q) ws f0) (fpow (at_ x j) (Z.to_nat (i + 1 + 1 + q))))); [ring|].
      intros k Hk. replace (Z.to_nat (k + 1)) with (S (Z.to_nat k)) by lia. cbn [nth]. do 2 f_equal. lia. }
    destruct (Z.ltb_spec i (n - 1)) as [L|L].
    + destruct (tmap2_same fmul xx x Hxx) as [x1 [X1 [X2 X3]]]. rewrite X1. cbn [bind].
      destruct (IH x1 y1 (i + 1) ltac:(lia) ltac:(cbn [length] in Hn; lia) ltac:(congruence) H1) as [y' [Y1 [Y2 Y3]]].
      { intros _ j Hj. rewrite X3 by (now rewrite Hxx). rewrite (Hp ltac:(discriminate) j Hj). replace (Z.to_nat (i + 1 + 1)) with (S (Z.to_nat (i + 1))) by lia. cbn [fpow]. ring. }
      exists y'. split; auto. split; auto. intros j Hj. rewrite (Y3 j Hj). symmetry. apply C; auto.
    + assert (ws = []) as -> by (destruct ws; auto; cbn [length] in Hn; lia). cbn [bind].
      destruct (IH xx y1 (i + 1) ltac:(lia) ltac:(cbn [length] in *; lia) Hxx H1) as [y' [Y1 [Y2 Y3]]]; [congruence|].
      exists y'. split; auto. split; auto. intros j Hj. rewrite (Y3 j Hj). symmetry. apply C; auto.
Qed.

(** The value of the polynomial with coefficients p (highest exponent first) at v. *)
Definition polynomial (p : list F) (v : F) : F :=
  fsum (Z.of_nat (length p)) (fun i => fmul (nth (length p - 1 - Z.to_nat i) p f0) (fpow v (Z.to_nat i))).

Theorem poly1d_ok (x : T) p : (2 <= length p)%nat ->
  exists y, poly1d x p = Ok y /\ shp y = shp x /\ forall j, valid (shp x) j -> at_ y j = polynomial p (at_ x j).
Proof.
  intros Hp. unfold poly1d. rewrite pyidx_neg with (d := f0) by lia. cbn [bind].
  replace (Z.to_nat (-1 + Z.of_nat (length p))) with (length p - 1)%nat by lia.
  assert (E : p = removelast p ++ [nth (length p - 1) p f0]).
  { rewrite (app_removelast_last f0) at 1 by (intros ->; cbn in Hp; lia). do 2 f_equal. clear. induction p as [|a p IH]; auto. destruct p; auto.
    change (last (a :: c :: p) f0) with (last (c :: p) f0). rewrite IH. cbn [length]. replace (S (S (length p)) - 1)%nat with (S (length (c :: p) - 1)) by (cbn; lia). reflexivity. }
  set (b := nth (length p - 1) p f0) in *. set (q := removelast p) in *.
  assert (Lq : length p = S (length q)) by (rewrite E at 1; rewrite app_length; cbn; lia).
  destruct (rev q) as [|w ws] eqn:R.
  { exfalso. apply (f_equal (@length _)) in R. rewrite rev_length in R. cbn in R. lia. }
  assert (Lw : length (w :: ws) = length q) by (rewrite <- R; apply rev_length).
  assert (G : exists y, poly_loop x x None 0 (Z.of_nat (length (w :: ws))) (w :: ws) = Ok (Some y) /\ shp y = shp x /\
     forall j, valid (shp x) j -> at_ y j = fsum (Z.of_nat (length (w :: ws))) (fun q => fmul (nth (Z.to_nat q) (w :: ws) f0) (fpow (at_ x j) (Z.to_nat (1 + q))))).
  { set (n := Z.of_nat (length (w :: ws))). cbn [poly_loop]. change (0 =? 0) with true. cbv iota. cbn [bind].
    assert (C : forall y', (forall j, valid (shp x) j -> at_ y' j = fadd (fmul w (at_ x j)) (fsum (Z.of_nat (length ws)) (fun q => fmul (nth (Z.to_nat q) ws f0) (fpow (at_ x j) (Z.to_nat (1 + 1 + q)))))) ->
       forall j, valid (shp x) j -> at_ y' j = fsum n (fun q => fmul (nth (Z.to_nat q) (w :: ws) f0) (fpow (at_ x j) (Z.to_nat (1 + q))))).
    { intros y' Hy j Hj. rewrite (Hy j Hj). replace n with (Z.of_nat (length ws) + 1) by (unfold n; cbn [length]; lia). rewrite fsum_S_l by lia.
      change (nth (Z.to_nat 0) (w :: ws) f0) with w. change (fpow (at_ x j) (Z.to_nat (1 + 0))) with (fmul (at_ x j) f1). f_equal; [ring|].
      apply fsum_ext. intros k Hk. replace (Z.to_nat (k + 1)) with (S (Z.to_nat k)) by lia. cbn [nth]. do 2 f_equal. lia. }
    destruct (Z.ltb_spec 0 (n - 1)) as [L|L].
    - destruct (tmap2_same fmul x x eq_refl) as [x1 [X1 [X2 X3]]]. rewrite X1. cbn [bind].
      destruct (poly_loop_ok x n ws x1 (tmap (fmul w) x) (0 + 1) ltac:(lia) ltac:(unfold n; cbn [length]; lia) X2 eq_refl) as [y' [Y1 [Y2 Y3]]].
      { intros _ j Hj. rewrite X3 by auto. change (Z.to_nat (0 + 1 + 1)) with 2%nat. cbn [fpow]. ring. }
      exists y'. split; [exact Y1|]. split; [exact Y2|]. apply C. exact Y3.
    - assert (ws = []) as -> by (destruct ws; auto; unfold n in L; cbn [length] in L; lia). cbn [bind].
      destruct (poly_loop_ok x n [] x (tmap (fmul w) x) (0 + 1) ltac:(lia) ltac:(unfold n; cbn [length]; lia) eq_refl eq_refl) as [y' [Y1 [Y2 Y3]]]; [congruence|].
      exists y'. split; [exact Y1|]. split; [exact Y2|]. apply C. exact Y3. }
  destruct G as [y [G1 [G2 G3]]]. rewrite G1. cbn [bind]. eexists. split; [reflexivity|]. split; [exact G2|].
  intros j Hj. cbn [tmap at_]. rewrite (G3 j Hj). unfold polynomial. rewrite Lq. rewrite Nat2Z.inj_succ, <- Z.add_1_r, fsum_S_l by lia.
  rewrite Lw. replace (S (length q) - 1 - Z.to_nat 0)%nat with (length p - 1)%nat by (cbn [Z.to_nat]; lia). fold b. cbn [fpow Z.to_nat].
  replace (fmul b f1) with b by ring. rewrite (fsum_ext F _ _ (fun k => fmul (nth (S (length q) - 1 - Z.to_nat (k + 1)) p f0) (fpow (at_ x j) (Z.to_nat (k + 1))))); [ring|].
  intros k Hk. rewrite <- R, rev_nth by lia. f_equal; [|f_equal; lia]. rewrite E at 1. rewrite app_nth1 by lia. f_equal. lia.
Qed.
Theorem poly1d_constant (x : T) c : poly1d x [c] = Err TypeError.
Proof. reflexivity. Qed.
Theorem poly1d_empty (x : T) : poly1d x [] = Err IndexError.
Proof. reflexivity. Qed.
End Poly.

(** ** Enumerations and masks *)
Lemma In_tindices s : forall i, In i (tindices s) <-> valid s i.
Proof.
  induction s as [|n s IH]; intros i; cbn [tindices].
  - split; [intros [<-|[]]; constructor|]. intros H. inversion H. now left.
  - rewrite in_flat_map. split.
    + intros [k [Hk Hi]]. apply in_map_iff in Hi as [i' [<- Hi']]. apply valid_cons. apply In_zrange in Hk. split; [lia|]. now apply IH.
    + intros H. destruct i as [|k i]; [inversion H|]. apply valid_cons in H as [Hk Hi]. exists k. split; [apply In_zrange; lia|]. apply in_map. now apply IH.
Qed.
Lemma ieqb_true i j : ieqb i j = true <-> i = j.
Proof. unfold ieqb. destruct (list_eq_dec Z.eq_dec i j); split; intros; congruence. Qed.
Lemma tany_false (m : tensor bool) : tany m = false -> forall i, valid (shp m) i -> at_ m i = false.
Proof.
  unfold tany. intros H i Hi. destruct (at_ m i) eqn:E; auto. assert (existsb (at_ m) (tindices (shp m)) = true); [|congruence].
  apply existsb_exists. exists i. split; auto. now apply In_tindices.
Qed.
Lemma assoc_map {A} (g : list Z -> A) i d : forall ps, In i ps -> assoc i (combine ps (map g ps)) d = g i.
Proof.
  induction ps as [|p ps IH]; intros H; [destruct H|]. cbn [map combine assoc]. destruct (ieqb i p) eqn:E; [apply ieqb_true in E; now subst|].
  apply IH. destruct H as [->|H]; auto. assert (ieqb i i = true) by (now apply ieqb_true). congruence.
Qed.
(** Scattering back f of the selected elements is applying f there. *)
Lemma masked_scatter_map {A} (f : A -> A) (t : tensor A) (m : tensor bool) : shp m = shp t ->
  exists y, masked_scatter t m (map f (tselect t m)) = Ok y /\ shp y = shp t /\
    forall i, valid (shp t) i -> at_ y i = if at_ m i then f (at_ t i) else at_ t i.
Proof.
  intros Hs. unfold masked_scatter, tselect. rewrite !map_length, Nat.ltb_irrefl. eexists. split; [reflexivity|]. split; auto.
  intros i Hi. cbn [at_]. destruct (at_ m i) eqn:E; auto. rewrite map_map. apply (assoc_map (fun i => f (at_ t i))).
  apply filter_In. split; auto. apply In_tindices. now rewrite Hs.
Qed.

(** Operands of a broadcast are read at valid indices. *)
Lemma bshape_rev_expandable s : forall t w, bshape_rev s t = Some w -> erev s w = true /\ erev t w = true.
Proof.
  assert (Rf : forall l, erev l l = true) by (induction l; simpl; auto; rewrite Z.eqb_refl; auto).
  assert (N : forall l, erev [] l = true) by (destruct l; auto).
  induction s as [|a s IH]; intros t w H.
  - cbn in H. inv H. auto.
  - destruct t as [|b t]; [cbn in H; inv H; auto|]. cbn in H. destruct (bdim a b) as [c|] eqn:D; [|discriminate].
    destruct (bshape_rev s t) as [u|] eqn:U; [|discriminate]. inv H. apply IH in U as [U1 U2]. cbn [erev]. rewrite U1, U2.
    unfold bdim in D. destruct (Z.eqb_spec a b) as [E|]; [inv D; now rewrite Z.eqb_refl|].
    destruct (Z.eqb_spec a 1) as [E|]; [inv D; rewrite Z.eqb_refl, orb_true_r; auto|].
    destruct (Z.eqb_spec b 1) as [E|]; [inv D; rewrite Z.eqb_refl, orb_true_r; auto|discriminate].
Qed.
Lemma erev_valid s : forall w i, erev s w = true -> valid w i -> valid s (map2 dim1 s i).
Proof.
  induction s as [|a s IH]; intros w i H V; [constructor|]. destruct w as [|c w]; [discriminate|]. inv V. cbn [erev] in H. apply andb_true_iff in H as [H1 Hr].
  cbn [map2]. apply valid_cons. split; [|eapply IH; eauto]. unfold dim1. apply orb_true_iff in H1. rewrite !Z.eqb_eq in H1. destruct (Z.eqb_spec a 1); lia.
Qed.
Lemma valid_rev s i : valid s i -> valid (rev s) (rev i).
Proof. induction 1; cbn [rev]; [constructor|]. apply Forall2_app; auto. Qed.
Lemma bidx_valid s t u i : bshape s t = Some u -> valid u i -> valid s (bidx s i) /\ valid t (bidx t i).
Proof.
  unfold bshape. destruct (bshape_rev (rev s) (rev t)) as [w|] eqn:W; [|discriminate]. intros E V. inv E.
  apply bshape_rev_expandable in W as [W1 W2]. pose proof (valid_length _ _ V) as L. rewrite rev_length in L.
  assert (Vw : valid w (rev i)) by (rewrite <- (rev_involutive w); now apply valid_rev).
  pose proof (erev_length _ _ W1) as L1. pose proof (erev_length _ _ W2) as L2. rewrite rev_length in L1, L2.
  rewrite !bidx_rev by lia. split; rewrite <- (rev_involutive s) at 1 || rewrite <- (rev_involutive t) at 1; apply valid_rev; eapply erev_valid; eauto.
Qed.

(** ** safe_power *)
Section Power.
Variable F : ofield.
Add Field Fpower : (f_field F).
Notation T := (tensor F).
Variables (pow : F -> F -> F) (frac : F -> bool).

(** safe_power at one position. *)
Definition power_at (v e eps : F) : F :=
  if frac e then
    if is_zero v then pow eps e else if fleb f0 v then pow v e else fopp (pow (fopp v) e)
  else pow v e.

Lemma is_zero_iff (v : F) : is_zero v = true <-> v = f0.
Proof.
  unfold is_zero. split.
  - intros H. apply andb_true_iff in H as [H1 H2]. now apply fle_antisym.
  - intros ->. now rewrite f_leb_refl.
Qed.

Theorem safe_power_at (x e : operand F) eps s :
  bshape (shp (as_tensor x)) (shp (as_tensor e)) = Some s ->
  exists y, safe_power pow frac x e eps = Ok y /\ shp y = s /\
    forall i, valid s i -> at_ y i = power_at (at_ (as_tensor x) (bidx (shp (as_tensor x)) i)) (at_ (as_tensor e) (bidx (shp (as_tensor e)) i)) eps.
Proof.
  intros Hs. unfold safe_power. set (X := as_tensor x) in *. set (E := as_tensor e) in *.
  assert (Hvalid : forall i, valid s i -> valid (shp E) (bidx (shp E) i)).
  { intros i Hi. now apply (bidx_valid _ _ _ _ Hs). }
  destruct (tany (tmap frac E)) eqn:A; cbn [negb].
  - rewrite Hs.
    destruct (tmap2_same andb (texpand s (tmap is_zero X)) (texpand s (tmap frac E)) eq_refl) as [m0 [M1 [M2 M3]]]. rewrite M1. cbn [bind].
    assert (G : exists x1 : T, (if negb (is_zero eps) then if tany m0 then tmap2 (fun (b : bool) v => if b then fadd v eps else v) m0 (texpand s X) else Ok (texpand s X) else Ok (texpand s X)) = Ok x1 /\ shp x1 = s /\
      forall i, valid s i -> at_ x1 i = let v := at_ X (bidx (shp X) i) in let w := at_ E (bidx (shp E) i) in if (is_zero v && frac w)%bool then fadd v eps else v).
    { cbn [shp texpand at_ tmap] in M2, M3. destruct (is_zero eps) eqn:He; cbn [negb].
      { apply is_zero_iff in He. eexists. split; [reflexivity|]. split; [reflexivity|]. intros i Hi. cbn [texpand at_]. cbv zeta. destruct (_ && _)%bool; auto. rewrite He. ring. }
      destruct (tany m0) eqn:A0.
      - destruct (tmap2_same (fun (b : bool) v => if b then fadd v eps else v) m0 (texpand s X) M2) as [x1 [X1 [X2 X3]]]. exists x1. split; auto. split; [congruence|].
        intros i Hi. rewrite X3 by (now rewrite M2). rewrite M3 by auto. reflexivity.
      - eexists. split; [reflexivity|]. split; [reflexivity|]. intros i Hi. cbn [texpand at_]. rewrite <- (M3 i Hi), (tany_false _ A0) by (now rewrite M2). reflexivity. }
    destruct G as [x1 [G1 [G2 G3]]]. rewrite G1. cbn [bind].
    destruct (tmap2_same andb (texpand s (tmap (fun v => negb (fleb f0 v)) X)) (texpand s (tmap frac E)) eq_refl) as [m [N1 [N2 N3]]]. rewrite N1. cbn [bind].
    cbn [shp texpand at_ tmap] in N2, N3.
    assert (Z0 : forall v, is_zero v = true -> fleb f0 v = true) by (intros v Hv; apply is_zero_iff in Hv; subst; apply f_leb_refl).
    destruct (tany m) eqn:A1.
    + unfold neg_all. destruct (masked_scatter_map fopp x1 m ltac:(congruence)) as [x2 [S1 [S2 S3]]]. rewrite S1. cbn [bind].
      destruct (tmap2_same pow x2 (texpand s E) ltac:(cbn [texpand shp]; congruence)) as [o [O1 [O2 O3]]]. rewrite O1. cbn [bind].
      destruct (masked_scatter_map fopp o m ltac:(congruence)) as [y [Y1 [Y2 Y3]]]. rewrite Y1. exists y. split; auto. split; [congruence|].
      intros i Hi. rewrite Y3 by (rewrite O2, S2, G2; auto). rewrite O3 by (rewrite S2, G2; auto). rewrite S3 by (rewrite G2; auto).
      rewrite (G3 i Hi), (N3 i Hi). cbn [texpand at_]. cbv zeta. unfold power_at.
      set (v := at_ X (bidx (shp X) i)). set (w := at_ E (bidx (shp E) i)). destruct (frac w); rewrite ?andb_true_r, ?andb_false_r; auto.
      destruct (is_zero v) eqn:Zv.
      * rewrite (Z0 v Zv). cbn [negb]. apply is_zero_iff in Zv. rewrite Zv. f_equal. ring.
      * destruct (fleb f0 v); reflexivity.
    + destruct (tmap2_same pow x1 (texpand s E) ltac:(cbn [texpand shp]; congruence)) as [o [O1 [O2 O3]]]. exists o. split; auto. split; [congruence|].
      intros i Hi. rewrite O3 by (rewrite G2; auto). rewrite (G3 i Hi). cbn [texpand at_]. cbv zeta. unfold power_at.
      pose proof (tany_false _ A1 i ltac:(rewrite N2; auto)) as Ni. rewrite (N3 i Hi) in Ni.
      set (v := at_ X (bidx (shp X) i)) in *. set (w := at_ E (bidx (shp E) i)) in *. destruct (frac w); rewrite ?andb_true_r, ?andb_false_r in *; auto.
      destruct (is_zero v) eqn:Zv.
      * apply is_zero_iff in Zv. rewrite Zv. f_equal. ring.
      * destruct (fleb f0 v); [reflexivity|discriminate].
  - unfold tmap2. rewrite Hs. eexists. split; [reflexivity|]. split; [reflexivity|]. intros i Hi. cbn [at_]. unfold power_at.
    pose proof (tany_false _ A (bidx (shp E) i) (Hvalid i Hi)) as Q. cbn [tmap at_] in Q. now rewrite Q.
Qed.
Theorem safe_power_ok (x e : operand F) eps s :
  bshape (shp (as_tensor x)) (shp (as_tensor e)) = Some s ->
  exists y, safe_power pow frac x e eps = Ok y /\ shp y = s /\
    forall i, valid s i -> forall v w, v = at_ (as_tensor x) (bidx (shp (as_tensor x)) i) -> w = at_ (as_tensor e) (bidx (shp (as_tensor e)) i) ->
      (frac w = false -> at_ y i = pow v w) /\ (flt f0 v -> at_ y i = pow v w) /\
      (flt v f0 -> frac w = true -> at_ y i = fopp (pow (fopp v) w)) /\
      (v = f0 -> frac w = true -> at_ y i = pow eps w).
Proof.
  intros Hs. destruct (safe_power_at x e eps s Hs) as [y [Y1 [Y2 Y3]]]. exists y. split; auto. split; auto.
  intros i Hi v w -> ->. rewrite (Y3 i Hi). unfold power_at. set (v := at_ _ (bidx (shp (as_tensor x)) i)). set (w := at_ _ _).
  assert (P : flt f0 v -> fleb f0 v = true /\ is_zero v = false).
  { intros P. split; [now apply flt_fle|]. unfold is_zero. unfold flt in P. now rewrite P. }
  assert (Q : flt v f0 -> fleb f0 v = false /\ is_zero v = false).
  { intros Q. unfold flt in Q. split; auto. unfold is_zero. rewrite Q. apply andb_false_r. }
  destruct (frac w); (split; [intros Hf; try discriminate; auto|split; [|split]]).
  - intros H. destruct (P H) as [P1 P2]. now rewrite P2, P1.
  - intros H _. destruct (Q H) as [P1 P2]. now rewrite P2, P1.
  - intros H _. apply is_zero_iff in H. now rewrite H.
  - auto.
  - discriminate.
  - discriminate.
Qed.
Theorem safe_power_error (x e : operand F) eps :
  bshape (shp (as_tensor x)) (shp (as_tensor e)) = None -> safe_power pow frac x e eps = Err RuntimeError.
Proof. intros H. unfold safe_power, tmap2. rewrite H. now destruct (tany _). Qed.
End Power.

(** ** random_crop *)
Section Crop.
Variable F : ofield.
Notation T := (tensor F).
Variable draw : nat -> Z -> Z.

(** The number of drawn axes among the first r. *)
Fixpoint drawn (r : nat) (ls : list (option Z)) : nat :=
  match r, ls with
  | S r', Some _ :: ls' => S (drawn r' ls')
  | S r', None :: ls' => drawn r' ls'
  | _, _ => O
  end.
Fixpoint put (al : list nat) (ls : list (option Z)) (os : list Z) (idx : list slice) : list slice :=
  match al, ls, os with
  | a :: al', l :: ls', o :: os' => put al' ls' os' (match l with None => idx | Some l => upd a (srng o (o + l)) idx end)
  | _, _, _ => idx
  end.
Lemma put_length al : forall ls os idx, length (put al ls os idx) = length idx.
Proof. induction al as [|a al IH]; destruct ls as [|[l|] ls], os; intros; cbn [put]; auto. now rewrite IH, upd_length. Qed.
Lemma put_other d al : forall ls os idx, (forall r, (r < length al)%nat -> nth r al 0%nat = d -> nth r ls None = None) -> nth d (put al ls os idx) sfull = nth d idx sfull.
Proof.
  induction al as [|a al IH]; destruct ls as [|l ls], os as [|o os]; intros idx H; cbn [put]; auto.
  rewrite IH by (intros r Hr E; apply (H (S r)); cbn [length nth]; auto; lia).
  destruct l as [l|]; auto. apply nth_upd_ne. intros ->. specialize (H 0%nat ltac:(cbn; lia) eq_refl). discriminate.
Qed.
Lemma put_nth al : forall ls os idx r l, NoDup al -> length ls = length al -> length os = length al -> (r < length al)%nat -> (forall a, In a al -> (a < length idx)%nat) ->
  nth r ls None = Some l -> nth (nth r al 0%nat) (put al ls os idx) sfull = srng (nth r os 0) (nth r os 0 + l).
Proof.
  induction al as [|a al IH]; intros ls os idx r l ND Ll Lo Hr Hin E; [cbn in Hr; lia|]. destruct ls as [|l0 ls]; [discriminate|]. destruct os as [|o os]; [discriminate|].
  apply NoDup_cons_iff in ND as [N1 N2]. cbn [put]. destruct r as [|r].
  - cbn [nth] in *. subst l0. rewrite put_other; [apply nth_upd_eq; apply Hin; now left|]. intros r Hr' Er. exfalso. apply N1. rewrite <- Er. now apply nth_In.
  - cbn [nth] in *. apply IH; auto; try (cbn in *; lia). intros b Hb. destruct l0; rewrite ?upd_length; apply Hin; now right.
Qed.

Lemma crop_loop_ok (x : T) size : forall al ls i c idx,
  (forall r, (r < length al)%nat -> nds_get size (i + Z.of_nat r) = Ok (nth r ls None)) -> length ls = length al ->
  (forall a, In a al -> (a < ndim x)%nat) ->
  (forall r l, (r < length al)%nat -> nth r ls None = Some l -> l < nth (nth r al 0%nat) (shp x) 0) ->
  exists os, length os = length al /\ crop_loop draw x size (map Z.of_nat al) i c idx = Ok (put al ls os idx) /\
    forall r l, (r < length al)%nat -> nth r ls None = Some l -> nth r os 0 = draw (c + drawn r ls)%nat (nth (nth r al 0%nat) (shp x) 0 - l).
Proof.
  induction al as [|a al IH]; intros ls i c idx Hg Hl Hin Hlt.
  - exists []. split; auto. split; [reflexivity|]. intros r l Hr. cbn in Hr. lia.
  - destruct ls as [|l0 ls]; [discriminate|]. cbn [map crop_loop]. pose proof (Hg 0%nat ltac:(cbn; lia)) as G0. rewrite Z.add_0_r in G0. rewrite G0. cbn [bind nth].
    assert (Hg' : forall r, (r < length al)%nat -> nds_get size (i + 1 + Z.of_nat r) = Ok (nth r ls None)).
    { intros r Hr. specialize (Hg (S r) ltac:(cbn; lia)). cbn [nth] in Hg. rewrite <- Hg. f_equal. lia. }
    assert (Hlt' : forall r l, (r < length al)%nat -> nth r ls None = Some l -> l < nth (nth r al 0%nat) (shp x) 0).
    { intros r l Hr E. apply (Hlt (S r) l); auto. cbn; lia. }
    destruct l0 as [l0|].
    + assert (Ha : (a < ndim x)%nat) by (apply Hin; now left). rewrite axis_nat_ok by auto. cbn [bind].
      unfold randint, dimlen. pose proof (Hlt 0%nat l0 ltac:(cbn; lia) eq_refl) as L0. cbn [nth] in L0. destruct (Z.leb_spec (nth a (shp x) 0 - l0) 0); [lia|]. cbn [bind].
      destruct (IH ls (i + 1) (S c) (upd a (srng (draw c (nth a (shp x) 0 - l0)) (draw c (nth a (shp x) 0 - l0) + l0)) idx) Hg' ltac:(cbn in Hl; lia) (fun b Hb => Hin b (or_intror Hb)) Hlt') as [os [O1 [O2 O3]]].
      exists (draw c (nth a (shp x) 0 - l0) :: os). split; [cbn; lia|]. split; [exact O2|]. intros [|r] l Hr E; cbn [nth drawn] in *.
      * inv E. now rewrite Nat.add_0_r.
      * rewrite (O3 r l) by (auto; cbn in Hr; lia). f_equal. lia.
    + destruct (IH ls (i + 1) c idx Hg' ltac:(cbn in Hl; lia) (fun b Hb => Hin b (or_intror Hb)) Hlt') as [os [O1 [O2 O3]]].
      exists (0 :: os). split; [cbn; lia|]. split; [exact O2|]. intros [|r] l Hr E; cbn [nth drawn] in *; [discriminate|]. apply O3; auto; cbn in Hr; lia.
Qed.

Lemma crop_offsets (x : T) ax al size ls : on_axes x ax al -> (forall n, In n (shp x) -> 0 <= n) ->
  expand (length al) size = Some ls ->
  (forall r l, (r < length al)%nat -> nth r ls None = Some l -> 0 <= l < nth (nth r al 0%nat) (shp x) 0) ->
  (forall c n, 0 < n -> 0 <= draw c n < n) ->
  exists y offs, random_crop draw x ax size = Ok y /\ ndim y = ndim x /\ length offs = ndim x /\
    (forall r l, (r < length al)%nat -> nth r ls None = Some l ->
       nth (nth r al 0%nat) (shp y) 0 = l /\ nth (nth r al 0%nat) offs 0 = draw (drawn r ls) (nth (nth r al 0%nat) (shp x) 0 - l)) /\
    (forall d, (d < ndim x)%nat -> (forall r, (r < length al)%nat -> nth r al 0%nat = d -> nth r ls None = None) ->
       nth d (shp y) 0 = nth d (shp x) 0 /\ nth d offs 0 = 0) /\
    forall j, valid (shp y) j -> at_ y j = at_ x (map2 Z.add offs j).
Proof.
  intros [A1 A2 A3] Hpos Hs Hl Hd. unfold random_crop. rewrite A1. cbn [bind].
  destruct (crop_loop_ok x size al ls 0 0%nat (repeat sfull (ndim x))) as [os [O1 [O2 O3]]]; auto.
  { intros r Hr. rewrite Z.add_0_l. now apply expand_get with (n := length al). }
  { now apply expand_length in Hs. }
  { intros r l Hr E. apply (Hl r l Hr E). }
  rewrite O2. cbn [bind]. set (P := put al ls os (repeat sfull (ndim x))). assert (LP : length P = ndim x) by (unfold P; now rewrite put_length, repeat_length).
  unfold tget. rewrite LP. unfold ndim at 1. rewrite Nat.eqb_refl. set (R := map2 resolve (shp x) P).
  assert (LR : length R = ndim x) by (unfold R; rewrite map2_length, LP; unfold ndim; lia).
  assert (NR : forall d, (d < ndim x)%nat -> nth d R (mkR 0 0 1) = resolve (nth d (shp x) 0) (nth d P sfull)).
  { intros d Hd'. unfold R. rewrite nth_map2 with (da := 0) (db := sfull); auto. now rewrite LP. }
  assert (N1 : forall r l, (r < length al)%nat -> nth r ls None = Some l -> nth (nth r al 0%nat) R (mkR 0 0 1) = mkR (nth r os 0) l 1).
  { intros r l Hr E. assert (Ha : (nth r al 0 < ndim x)%nat) by (apply A2, nth_In; auto). rewrite NR by auto. unfold P.
    rewrite put_nth with (l := l); auto; [|now apply expand_length in Hs|intros; rewrite repeat_length; auto].
    pose proof (Hl r l Hr E) as B. pose proof (Hd (0 + drawn r ls)%nat (nth (nth r al 0%nat) (shp x) 0 - l) ltac:(lia)) as D. rewrite <- (O3 r l Hr E) in D.
    rewrite resolve_srng by lia. f_equal. lia. }
  assert (N2 : forall d, (d < ndim x)%nat -> (forall r, (r < length al)%nat -> nth r al 0%nat = d -> nth r ls None = None) -> nth d R (mkR 0 0 1) = mkR 0 (nth d (shp x) 0) 1).
  { intros d Hd' H. rewrite NR by auto. unfold P. rewrite put_other by auto. rewrite nth_repeat. assert (0 <= nth d (shp x) 0) by (apply Hpos, nth_In; auto).
    unfold resolve, sfull. cbn. f_equal. rewrite Z.div_1_r. lia. }
  assert (ST : forall r, In r R -> r_st r = 1).
  { intros r Hr. apply In_nth with (d := mkR 0 0 1) in Hr as [d [Hd' <-]]. rewrite LR in Hd'. destruct (in_dec Nat.eq_dec d al) as [I|I].
    - apply In_nth with (d := 0%nat) in I as [q [Hq <-]]. destruct (nth q ls None) as [l|] eqn:E; [now rewrite (N1 q l Hq E)|].
      rewrite N2; auto. intros q' Hq' E'. apply (proj1 (NoDup_nth al 0%nat) A3) in E'; auto. now subst.
    - rewrite N2; auto. intros r Hr E. exfalso. apply I. rewrite <- E. now apply nth_In. }
  eexists. exists (map r_lo R). split; [reflexivity|]. split; [unfold ndim at 1; cbn [shp]; rewrite map_length; auto|]. split; [now rewrite map_length|]. cbn [shp at_].
  assert (ML : forall d, nth d (map r_len R) 0 = r_len (nth d R (mkR 0 0 1))) by (intros; now rewrite <- (map_nth r_len)).
  assert (MO : forall d, nth d (map r_lo R) 0 = r_lo (nth d R (mkR 0 0 1))) by (intros; now rewrite <- (map_nth r_lo)).
  split; [|split].
  - intros r l Hr E. rewrite ML, MO, (N1 r l Hr E). cbn. split; auto. exact (O3 r l Hr E).
  - intros d Hd' H. rewrite ML, MO, (N2 d Hd' H). auto.
  - intros j Hj. f_equal. assert (Lj : length j = length R) by (apply valid_length in Hj; now rewrite map_length in Hj). clear - ST Lj.
    revert j Lj. induction R as [|r R IH]; destruct j as [|k j]; intros Lj; try discriminate; auto. cbn [map2 map]. f_equal.
    + unfold rpos. rewrite (ST r) by now left. lia.
    + apply IH; [|cbn in Lj; lia]. intros r' Hr'. apply ST. now right.
Qed.
(** Any draw: a block of the requested size at offsets below n - l. *)
Theorem crop_block (x : T) ax al size ls : on_axes x ax al -> (forall n, In n (shp x) -> 0 <= n) ->
  expand (length al) size = Some ls ->
  (forall r l, (r < length al)%nat -> nth r ls None = Some l -> 0 <= l < nth (nth r al 0%nat) (shp x) 0) ->
  (forall c n, 0 < n -> 0 <= draw c n < n) ->
  exists y offs, random_crop draw x ax size = Ok y /\ ndim y = ndim x /\ length offs = ndim x /\
    (forall r l, (r < length al)%nat -> nth r ls None = Some l ->
       nth (nth r al 0%nat) (shp y) 0 = l /\ 0 <= nth (nth r al 0%nat) offs 0 < nth (nth r al 0%nat) (shp x) 0 - l) /\
    (forall d, (d < ndim x)%nat -> (forall r, (r < length al)%nat -> nth r al 0%nat = d -> nth r ls None = None) ->
       nth d (shp y) 0 = nth d (shp x) 0 /\ nth d offs 0 = 0) /\
    forall j, valid (shp y) j -> at_ y j = at_ x (map2 Z.add offs j).
Proof.
  intros A P S L D. destruct (crop_offsets x ax al size ls A P S L D) as [y [offs [Y1 [Y2 [Y3 [Y4 [Y5 Y6]]]]]]]. exists y, offs. split; auto. split; auto. split; auto. split; auto.
  intros r l Hr E. destruct (Y4 r l Hr E) as [B1 B2]. split; auto. rewrite B2. apply D. specialize (L r l Hr E). lia.
Qed.

(** A requested size that is not smaller than the axis is an error. *)
Lemma crop_loop_err (x : T) size : forall al ls i c idx,
  (forall r, (r < length al)%nat -> nds_get size (i + Z.of_nat r) = Ok (nth r ls None)) -> length ls = length al ->
  (forall a, In a al -> (a < ndim x)%nat) ->
  (exists r l, (r < length al)%nat /\ nth r ls None = Some l /\ nth (nth r al 0%nat) (shp x) 0 <= l) ->
  crop_loop draw x size (map Z.of_nat al) i c idx = Err RuntimeError.
Proof.
  induction al as [|a al IH]; intros ls i c idx Hg Hl Hin [r [l [Hr [E B]]]]; [cbn in Hr; lia|].
  destruct ls as [|l0 ls]; [discriminate|]. cbn [map crop_loop]. pose proof (Hg 0%nat ltac:(cbn; lia)) as G0. rewrite Z.add_0_r in G0. rewrite G0. cbn [bind nth].
  assert (Hg' : forall r, (r < length al)%nat -> nds_get size (i + 1 + Z.of_nat r) = Ok (nth r ls None)).
  { intros q Hq. specialize (Hg (S q) ltac:(cbn; lia)). cbn [nth] in Hg. rewrite <- Hg. f_equal. lia. }
  assert (Nx : forall c idx, (0 < r)%nat -> crop_loop draw x size (map Z.of_nat al) (i + 1) c idx = Err RuntimeError).
  { intros c' idx' R. destruct r as [|r]; [lia|]. apply (IH ls (i + 1) c' idx' Hg'); [cbn in Hl; lia|intros b Hb; apply Hin; now right|]. exists r, l. cbn [nth length] in *. split; [lia|]. auto. }
  destruct l0 as [l0|].
  - assert (Ha : (a < ndim x)%nat) by (apply Hin; now left). rewrite axis_nat_ok by auto. cbn [bind]. unfold randint, dimlen.
    destruct (Z.leb_spec (nth a (shp x) 0 - l0) 0) as [Q|Q]; [reflexivity|]. cbn [bind]. apply Nx. destruct r; [|lia]. cbn [nth] in *. inv E. lia.
  - apply Nx. destruct r; [discriminate|lia].
Qed.
Theorem crop_too_large (x : T) ax al size ls : on_axes x ax al -> expand (length al) size = Some ls ->
  (exists r l, (r < length al)%nat /\ nth r ls None = Some l /\ nth (nth r al 0%nat) (shp x) 0 <= l) ->
  random_crop draw x ax size = Err RuntimeError.
Proof.
  intros [A1 A2 A3] S H. unfold random_crop. rewrite A1. cbn [bind]. rewrite (crop_loop_err x size al ls); auto.
  - intros r Hr. rewrite Z.add_0_l. now apply expand_get with (n := length al).
  - now apply expand_length in S.
Qed.
End Crop.

(** Every offset below n - l can be drawn. *)
Theorem crop_reach (F : ofield) (x : tensor F) ax al size ls os : on_axes x ax al -> (forall n, In n (shp x) -> 0 <= n) ->
  expand (length al) size = Some ls -> length os = length al ->
  (forall r l, (r < length al)%nat -> nth r ls None = Some l -> 0 <= l /\ 0 <= nth r os 0 < nth (nth r al 0%nat) (shp x) 0 - l) ->
  exists draw, (forall c n, 0 < n -> 0 <= draw c n < n) /\
  exists y offs, random_crop draw x ax size = Ok y /\ length offs = ndim x /\
    (forall r l, (r < length al)%nat -> nth r ls None = Some l -> nth (nth r al 0%nat) (shp y) 0 = l /\ nth (nth r al 0%nat) offs 0 = nth r os 0) /\
    forall j, valid (shp y) j -> at_ y j = at_ x (map2 Z.add offs j).
Proof.
  intros A P S Lo H.
  assert (G : forall (ls : list (option Z)) (os : list Z), length os = length ls -> exists q : nat -> Z, forall r l, (r < length ls)%nat -> nth r ls None = Some l -> q (drawn r ls) = nth r os 0).
  { clear. induction ls as [|l0 ls IH]; intros os L; [exists (fun _ => 0); intros r l Hr; cbn in Hr; lia|]. destruct os as [|o os]; [discriminate|].
    destruct (IH os ltac:(cbn in L; lia)) as [q Q]. destruct l0 as [l0|].
    - exists (fun c => match c with O => o | Datatypes.S c' => q c' end). intros [|r] l Hr E; cbn [nth drawn] in *; auto. apply (Q r l); auto. cbn in Hr. lia.
    - exists q. intros [|r] l Hr E; cbn [nth drawn] in *; [discriminate|]. apply (Q r l); auto. cbn in Hr. lia. }
  pose proof (expand_length _ _ _ S) as Ll. destruct (G ls os ltac:(lia)) as [q Q].
  exists (fun c n => if (0 <=? q c) && (q c <? n) then q c else 0). split.
  { intros c n Hn. destruct (Z.leb_spec 0 (q c)), (Z.ltb_spec (q c) n); cbn [andb]; lia. }
  destruct (crop_offsets F (fun c n => if (0 <=? q c) && (q c <? n) then q c else 0) x ax al size ls A P S) as [y [offs [Y1 [Y2 [Y3 [Y4 [Y5 Y6]]]]]]].
  { intros r l Hr E. specialize (H r l Hr E). lia. }
  { intros c n Hn. destruct (Z.leb_spec 0 (q c)), (Z.ltb_spec (q c) n); cbn [andb]; lia. }
  exists y, offs. split; auto. split; auto. split; auto. intros r l Hr E. destruct (Y4 r l Hr E) as [B1 B2]. split; auto. rewrite B2.
  rewrite (Q r l) by (auto; lia). specialize (H r l Hr E). destruct (Z.leb_spec 0 (nth r os 0)), (Z.ltb_spec (nth r os 0) (nth (nth r al 0%nat) (shp x) 0 - l)); cbn [andb]; lia.
Qed.
Theorem last_offset : exists (F : ofield) (x : tensor F) l o, shp x = [l + o] /\ 0 <= l /\ 0 <= o /\
  forall draw, (forall c n, 0 < n -> 0 <= draw c n < n) ->
  exists y, random_crop draw x AxNone (NItem (Some l)) = Ok y /\ at_ y [0] <> at_ x [o].
Proof.
  exists QcF, (mkT [3] (fun i => if nth 0 i 0 =? 1 then f1 else f0)), 2, 1. split; [reflexivity|]. split; [lia|]. split; [lia|]. intros draw D.
  destruct (crop_block QcF draw (mkT [3] (fun i => if nth 0 i 0 =? 1 then f1 else f0)) AxNone [0%nat] (NItem (Some 2)) [Some 2]) as [y [offs [Y1 [Y2 [Y3 [Y4 [_ Y6]]]]]]]; auto.
  - split; [reflexivity| |]; [intros a [<-|[]]; unfold ndim; cbn; lia|]. repeat constructor. intros [].
  - intros n [<-|[]]; lia.
  - intros [|r] l Hr E; [|cbn in Hr; lia]. injection E as <-. cbn. lia.
  - exists y. split; auto. destruct (Y4 0%nat 2 ltac:(cbn; lia) eq_refl) as [B1 B2]. cbn in B1, B2. unfold ndim in Y2, Y3. cbn in Y2, Y3.
    destruct y as [sy fy]. cbn in Y2, B1. destruct sy as [|s [|? ?]]; try discriminate. destruct offs as [|o [|? ?]]; try discriminate. cbn in B1, B2. subst s. assert (o = 0) by lia. subst o.
    rewrite Y6 by (constructor; [lia|constructor]). cbn. discriminate.
Qed.
Theorem poly1d_fails : exists (F : ofield) (x : tensor F) p, p <> [] /\
  ~ exists y, poly1d x p = Ok y /\ shp y = shp x /\ forall j, valid (shp x) j -> at_ y j = polynomial F p (at_ x j).
Proof. exists QcF, (mkT [] (fun _ => f0)), [f1]. split; [discriminate|]. intros [y [Y _]]. rewrite poly1d_constant in Y. discriminate. Qed.
Theorem full_size : exists (F : ofield) (x : tensor F) n, 0 < n /\ shp x = [n] /\
  forall draw, ~ exists y, random_crop draw x AxNone (NItem (Some n)) = Ok y.
Proof.
  exists QcF, (mkT [3] (fun _ => f0)), 3. split; [lia|]. split; [reflexivity|]. intros draw [y Y].
  rewrite (crop_too_large QcF draw _ AxNone [0%nat] (NItem (Some 3)) [Some 3]) in Y; [discriminate| | |].
  - split; [reflexivity| |]; [intros a [<-|[]]; unfold ndim; cbn; lia|]. repeat constructor. intros [].
  - reflexivity.
  - exists 0%nat, 3. cbn. repeat split; lia.
Qed.
