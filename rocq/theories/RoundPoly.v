(** Rounding error of poly1d. *)
From Verif Require Export MiscProofs RoundPolyModel RoundEdge.
Open Scope Z_scope.

Section RP.
Variable F : ofield.
Add Field Frpoly : (f_field F).
Notation T := (tensor F).
Local Open Scope F_scope.
Notation "a <= b" := (fle a b) : F_scope.
Notation "1" := (@f1 F).
Notation "0" := (@f0 F).

Definition tail_sum (ws : list F) (i : nat) (v : F) : F := fsum (Z.of_nat (length ws)) (fun q => nth (Z.to_nat q) ws 0 * fpow v (i + 1 + Z.to_nat q)).
Lemma tail_cons (w : F) ws i v : tail_sum (w :: ws) i v = w * fpow v (i + 1) + tail_sum ws (S i) v.
Proof.
  unfold tail_sum. replace (Z.of_nat (length (w :: ws))) with (Z.of_nat (length ws) + 1)%Z by (cbn [length]; lia). rewrite fsum_S_l by lia.
  cbn [Z.to_nat nth]. rewrite Nat.add_0_r. f_equal. apply fsum_ext. intros k Hk. replace (Z.to_nat (k + 1)) with (S (Z.to_nat k)) by lia. cbn [nth]. f_equal. f_equal. lia.
Qed.
Lemma fabs_fpow (v : F) n : fabs (fpow v n) = fpow (fabs v) n.
Proof. induction n as [|n IH]; cbn [fpow]; [apply fabs_pos, fle_01|]. now rewrite fabs_mul, IH. Qed.
Lemma err_same (v : F) : errs F 1 (fabs v) v v.
Proof. split; [|apply fle_refl]. replace (v - v) with 0 by ring. rewrite fabs_zero. replace ((1 - 1) * fabs v) with 0 by ring. apply fle_refl. Qed.
Lemma map2_rounded e (f : F -> F -> F) (u v w : T) : shp u = shp v -> fl_map2 e f u v w -> shp w = shp u /\ forall j, valid (shp u) j -> rounds e (f (at_ u j) (at_ v j)) (at_ w j).
Proof.
  intros E [d [D [S R]]]. destruct (tmap2_same f u v E) as [d' [D1 [D2 D3]]]. rewrite D1 in D. inv D. split; [congruence|]. intros j Vj. rewrite <- D3 by auto. apply R. now rewrite D2.
Qed.

Lemma loop_err e (x : T) n z : fle 0 e -> forall ws xx y i, (1 <= i)%nat -> (Z.of_nat i + Z.of_nat (length ws) = n)%Z -> shp xx = shp x -> shp y = shp x ->
  fl_poly_loop e x xx (Some y) (Z.of_nat i) n ws (Some z) -> shp z = shp x /\
  forall j, valid (shp x) j -> forall S w, (ws <> [] -> errs F (fpow (1 + e) i) (fpow (fabs (at_ x j)) (i + 1)) (at_ xx j) (fpow (at_ x j) (i + 1))) ->
    errs F (fpow (1 + e) (i + 1)) S (at_ y j) w ->
    errs F (fpow (1 + e) (i + 1 + length ws)) (S + tail_sum (map fabs ws) i (fabs (at_ x j))) (at_ z j) (w + tail_sum ws i (at_ x j)).
Proof.
  intros He. induction ws as [|w ws IH]; intros xx y i Hi Hn Sx Sy H.
  - cbn in H. inv H. split; auto. intros j Vj S w _ E. cbn [map length]. rewrite Nat.add_0_r. unfold tail_sum. cbn [length]. change (fsum (Z.of_nat 0) _) with (@f0 F).
    replace (S + 0) with S by ring. now replace (w + 0) with w by ring.
  - cbn [fl_poly_loop] in H. destruct H as [m [y1 [xx1 [[M1 M2] [H1 [H2 H3]]]]]]. cbn [tmap shp at_] in M1, M2.
    destruct (Z.eqb_spec (Z.of_nat i) 0); [lia|]. destruct H1 as [y0 [E0 H1]]. injection E0 as <-.
    apply map2_rounded in H1 as [Y1 Y2]; [|congruence].
    assert (X : shp xx1 = shp x /\ (ws <> [] -> forall j, valid (shp x) j -> rounds e (at_ xx j * at_ x j) (at_ xx1 j))).
    { destruct (Z.ltb_spec (Z.of_nat i) (n - 1)) as [L|L].
      - apply map2_rounded in H2 as [A1 A2]; [|congruence]. split; [congruence|]. intros _ j Vj. apply A2. now rewrite Sx.
      - subst xx1. split; auto. intros N. exfalso. apply N. destruct ws; auto. cbn [length] in Hn. lia. }
    destruct X as [X1 X2]. replace (Z.of_nat i + 1)%Z with (Z.of_nat (S i)) in H3 by lia.
    destruct (IH xx1 y1 (S i) ltac:(lia) ltac:(cbn [length] in Hn; lia) X1 ltac:(congruence) H3) as [Z1 Z2]. split; auto.
    intros j Vj s v Ex Ey. specialize (Ex ltac:(discriminate)). cbn [map]. rewrite !tail_cons.
    replace (s + (fabs w * fpow (fabs (at_ x j)) (i + 1) + tail_sum (map fabs ws) (S i) (fabs (at_ x j)))) with (s + fabs w * fpow (fabs (at_ x j)) (i + 1) + tail_sum (map fabs ws) (S i) (fabs (at_ x j))) by ring.
    replace (v + (w * fpow (at_ x j) (i + 1) + tail_sum ws (S i) (at_ x j))) with (v + w * fpow (at_ x j) (i + 1) + tail_sum ws (S i) (at_ x j)) by ring.
    replace (i + 1 + length (w :: ws))%nat with (S i + 1 + length ws)%nat by (cbn [length]; lia). apply Z2; auto.
    + intros N. replace (fpow (1 + e) (S i)) with (fpow (1 + e) i * 1 * (1 + e)) by (cbn [fpow]; ring).
      apply err_round with (at_ xx j * at_ x j); auto.
      replace (fpow (fabs (at_ x j)) (S i + 1)) with (fpow (fabs (at_ x j)) (i + 1) * fabs (at_ x j)) by (cbn [fpow Nat.add]; ring).
      replace (fpow (at_ x j) (S i + 1)) with (fpow (at_ x j) (i + 1) * at_ x j) by (cbn [fpow Nat.add]; ring).
      apply err_mul; auto; [now apply pow_ge1|apply err_same].
    + replace (fpow (1 + e) (S i + 1)) with (fpow (1 + e) (i + 1) * (1 + e)) by (cbn [fpow Nat.add]; ring).
      apply err_round with (at_ y j + at_ m j); auto; [|apply Y2; now rewrite Sy]. apply err_add; auto.
      replace (fpow (1 + e) (i + 1)) with (1 * fpow (1 + e) i * (1 + e)) by (rewrite Nat.add_1_r; cbn [fpow]; ring).
      apply err_round with (w * at_ xx j); auto; [|apply M2; congruence]. apply err_mul; auto; [apply fle_refl|apply err_same].
Qed.

Lemma polynomial_snoc (q : list F) b v : polynomial F (q ++ [b]) v = tail_sum (rev q) 0 v + b.
Proof.
  unfold polynomial, tail_sum. rewrite app_length, rev_length. cbn [length]. replace (Z.of_nat (length q + 1)) with (Z.of_nat (length q) + 1)%Z by lia. rewrite fsum_S_l by lia.
  cbn [Z.to_nat fpow]. rewrite app_nth2 by lia. replace (length q + 1 - 1 - 0 - length q)%nat with 0%nat by lia. cbn [nth].
  match goal with |- ?a * 1 + ?s = ?t + ?b => replace t with s; [ring|] end. apply fsum_ext. intros k Hk. f_equal; [|f_equal; lia].
  rewrite rev_nth by lia. rewrite app_nth1 by lia. f_equal. lia.
Qed.
Lemma snoc_of (p : list F) : (1 <= length p)%nat -> exists q b, p = q ++ [b].
Proof. intros H. exists (removelast p), (last p f0). apply app_removelast_last. intros ->. cbn in H. lia. Qed.

(** The number of roundings is the number of coefficients plus one. *)
Theorem poly_rounding e (x y' : T) p : fle 0 e -> fl_poly1d e x p y' -> exists y, poly1d x p = Ok y /\ shp y' = shp y /\
  forall j, valid (shp y) j -> fle (fabs (at_ y' j - at_ y j)) ((fpow (1 + e) (length p + 1) - 1) * polynomial F (map fabs p) (fabs (at_ x j))).
Proof.
  intros He [bias [z [B [L [R1 R2]]]]].
  destruct (Nat.le_gt_cases 2 (length p)) as [Hp|Hp].
  2:{ exfalso. destruct p as [|a [|c p]]; cbn in *; [discriminate|discriminate|lia]. }
  destruct (poly1d_ok F x p Hp) as [y [Y1 [Y2 Y3]]]. exists y. split; auto.
  destruct (snoc_of p) as [q [b ->]]; [lia|]. rewrite removelast_last in L.
  rewrite app_length in Hp. cbn [length] in Hp. rewrite rev_length in L.
  assert (E : pyidx (q ++ [b]) (-1) = Ok b).
  { rewrite pyidx_neg with (d := f0); rewrite app_length; cbn [length]; [|lia]. f_equal. rewrite app_nth2 by lia. replace (Z.to_nat (-1 + Z.of_nat (length q + 1)) - length q)%nat with 0%nat by lia. reflexivity. }
  rewrite E in B. injection B as <-.
  cbn [tmap shp at_] in R1, R2.
  assert (G : shp z = shp x /\ forall j, valid (shp x) j -> errs F (fpow (1 + e) (length q + 1)) (tail_sum (rev (map fabs q)) 0 (fabs (at_ x j))) (at_ z j) (tail_sum (rev q) 0 (at_ x j))).
  { rewrite <- map_rev. replace (length q) with (length (rev q)) in * by apply rev_length. destruct (rev q) as [|w ws]; [cbn in Hp; lia|].
    cbn [fl_poly_loop] in L. destruct L as [m [y1 [xx1 [[M1 M2] [-> [H2 H3]]]]]]. cbn [tmap shp at_] in M1, M2.
    assert (X : shp xx1 = shp x /\ (ws <> [] -> forall j, valid (shp x) j -> rounds e (at_ x j * at_ x j) (at_ xx1 j))).
    { destruct (Z.ltb_spec 0 (Z.of_nat (length (w :: ws)) - 1)) as [L|L].
      - apply map2_rounded in H2 as [A1 A2]; auto.
      - subst xx1. split; auto. intros N. exfalso. apply N. destruct ws; auto. cbn [length] in L. lia. }
    destruct X as [X1 X2].
    destruct (loop_err e x (Z.of_nat (length (w :: ws))) z He ws xx1 m 1%nat (le_n _) ltac:(cbn [length]; lia) X1 M1 H3) as [Z1 Z2]. split; auto. intros j Vj. cbn [map]. rewrite !tail_cons.
    replace (length (w :: ws) + 1)%nat with (1 + 1 + length ws)%nat by (cbn [length]; lia). apply Z2; auto.
    - intros N. cbn [fpow Nat.add]. replace ((1 + e) * 1) with (1 * 1 * (1 + e)) by ring. apply err_round with (at_ x j * at_ x j); auto.
      replace (fabs (at_ x j) * (fabs (at_ x j) * 1)) with (fabs (at_ x j) * fabs (at_ x j)) by ring. replace (at_ x j * (at_ x j * 1)) with (at_ x j * at_ x j) by ring.
      apply err_mul; [apply fle_refl|apply err_same|apply err_same].
    - apply err_mono with (1 * 1 * (1 + e)).
      { cbn [fpow Nat.add]. assert (E1 : 0 <= e * (1 + e)). { replace (e * (1 + e)) with (e + e * e) by ring. replace 0 with (0 + 0) by ring. apply fle_add; auto. replace 0 with (0 * 0) by ring. replace (0 * 0) with (e * 0) by ring. now apply fmul_le_l. }
        apply (sub_le F 0 (e * (1 + e))); auto. ring. }
      apply err_round with (w * at_ x j); auto. cbn [fpow Nat.add]. replace (fabs w * (fabs (at_ x j) * 1)) with (fabs w * fabs (at_ x j)) by ring. replace (w * (at_ x j * 1)) with (w * at_ x j) by ring.
      apply err_mul; [apply fle_refl|apply err_same|apply err_same]. }
  destruct G as [Z1 Z2]. split; [congruence|]. intros j Vj. rewrite Y2 in Vj. rewrite (Y3 j Vj). rewrite map_app. cbn [map]. rewrite !polynomial_snoc.
  rewrite app_length. cbn [length]. replace (fpow (1 + e) (length q + 1 + 1)) with (fpow (1 + e) (length q + 1) * (1 + e)) by (rewrite (Nat.add_1_r (length q + 1)); cbn [fpow]; ring).
  refine (proj1 (err_round F e _ _ (at_ z j + b) _ _ He _ _)); [|apply R2; now rewrite Z1]. apply err_add; [now apply Z2|].
  apply err_mono with 1; [now apply pow_ge1|apply err_same].
Qed.
Lemma polynomial_abs (p : list F) (v : F) : (forall c, In c p -> fle 0 c) -> fle 0 v -> polynomial F (map fabs p) (fabs v) = polynomial F p v.
Proof.
  intros Hp Hv. rewrite (fabs_pos F v) by auto. replace (map fabs p) with p; auto. symmetry. rewrite <- (map_id p) at 2. apply map_ext_in. intros c Hc. apply fabs_pos. auto.
Qed.
(** Without negative numbers the error is relative. *)
Theorem poly_rounding_relative e (x y' : T) p : fle 0 e -> fl_poly1d e x p y' -> (forall c, In c p -> fle 0 c) -> (forall j, valid (shp x) j -> fle 0 (at_ x j)) ->
  exists y, poly1d x p = Ok y /\ shp y' = shp y /\ forall j, valid (shp y) j -> fle (fabs (at_ y' j - at_ y j)) ((fpow (1 + e) (length p + 1) - 1) * at_ y j).
Proof.
  intros He H Hp Hx. destruct (poly_rounding e x y' p He H) as [y [Y1 [Y2 Y3]]]. exists y. do 2 (split; auto). intros j Vj.
  destruct (Nat.le_gt_cases 2 (length p)) as [L|L].
  - destruct (poly1d_ok F x p L) as [z [Z1 [Z2 Z3]]]. rewrite Y1 in Z1. inv Z1. rewrite Z2 in Vj. rewrite (Z3 j Vj) at 2. rewrite <- polynomial_abs; auto. apply Y3. now rewrite Z2.
  - exfalso. destruct p as [|a [|c p]]; cbn in *; try discriminate; lia.
Qed.

(** The exact result is one of the possible ones. *)
Lemma loop_exact e (x : T) n : fle 0 e -> forall ws xx y i z, poly_loop x xx y i n ws = Ok z -> fl_poly_loop e x xx y i n ws z.
Proof.
  intros He. induction ws as [|w ws IH]; intros xx y i z H; cbn [poly_loop fl_poly_loop] in *; [now inv H|].
  destruct (if (i =? 0)%Z then _ else _) as [y1|] eqn:E1; [|discriminate]. cbn [bind] in H. destruct (if (i <? n - 1)%Z then _ else _) as [xx1|] eqn:E2; [|discriminate]. cbn [bind] in H.
  exists (tmap (fmul w) xx).
  assert (exists y2, y1 = Some y2) as [y2 ->].
  { destruct (i =? 0)%Z; [injection E1 as <-; eauto|]. destruct y as [y|]; [|discriminate]. destruct (tmap2 _ y xx); cbn [bind] in E1; [|discriminate]. injection E1 as <-. eauto. }
  exists y2, xx1. split; [now apply rounded_refl|]. split; [|split; [|now apply IH]].
  - destruct (i =? 0)%Z; [now injection E1 as <-|]. destruct y as [y|]; [|discriminate]. exists y. split; auto. destruct (tmap2 _ y xx) as [d|] eqn:D; cbn [bind] in E1; [|discriminate]. injection E1 as <-.
    exists d. split; [exact D|now apply rounded_refl].
  - destruct (i <? n - 1)%Z; [|now injection E2 as <-]. exists xx1. split; [exact E2|now apply rounded_refl].
Qed.
Theorem poly_exact e (x y : T) p : fle 0 e -> poly1d x p = Ok y -> fl_poly1d e x p y.
Proof.
  intros He H. unfold poly1d in H. destruct (pyidx p (-1)) as [b|] eqn:B; [|discriminate]. cbn [bind] in H.
  destruct (poly_loop _ _ _ _ _ _) as [[z|]|] eqn:L; cbn [bind] in H; try discriminate. injection H as <-.
  exists b, z. split; auto. split; [now apply loop_exact|now apply rounded_refl].
Qed.

(** Rounding up everything. *)
Lemma rounded_up e (d : T) : fle 0 e -> rounded e d (tmap (fmul (1 + e)) d).
Proof.
  intros He. split; [reflexivity|]. intros j _. cbn [tmap at_]. unfold rounds. replace ((1 + e) * at_ d j - at_ d j) with (e * at_ d j) by ring. rewrite fabs_mul, (fabs_pos F e He). apply fle_refl.
Qed.
Lemma map2_up e (f : F -> F -> F) (u v : T) : fle 0 e -> shp u = shp v -> exists w, fl_map2 e f u v w /\ shp w = shp u /\ forall j, valid (shp u) j -> at_ w j = (1 + e) * f (at_ u j) (at_ v j).
Proof.
  intros He E. destruct (tmap2_same f u v E) as [d [D1 [D2 D3]]]. exists (tmap (fmul (1 + e)) d). split; [exists d; split; auto; now apply rounded_up|]. split; [exact D2|].
  intros j Vj. cbn [tmap at_]. now rewrite D3.
Qed.
Lemma loop_sharp e (x : T) a n : fle 0 e -> forall k i xx y, (1 <= i)%nat -> Z.of_nat (i + k + 1) = n -> shp xx = shp x -> shp y = shp x ->
  (forall j, valid (shp x) j -> at_ y j = 0) -> (forall j, valid (shp x) j -> at_ xx j = fpow (1 + e) i * fpow (at_ x j) (i + 1)) ->
  exists z, fl_poly_loop e x xx (Some y) (Z.of_nat i) n (repeat 0 k ++ [a]) (Some z) /\ shp z = shp x /\
    forall j, valid (shp x) j -> at_ z j = fpow (1 + e) (i + k + 2) * (a * fpow (at_ x j) (i + k + 1)).
Proof.
  intros He. induction k as [|k IH]; intros i xx y Hi Hn Sx Sy Hy Hx; cbn [repeat app fl_poly_loop].
  - destruct (Z.eqb_spec (Z.of_nat i) 0); [lia|]. destruct (Z.ltb_spec (Z.of_nat i) (n - 1)); [lia|].
    destruct (map2_up e fadd y (tmap (fmul (1 + e)) (tmap (fmul a) xx)) He) as [z [Z1 [Z2 Z3]]]; [cbn; congruence|].
    exists z. split; [|split; [congruence|]].
    + exists (tmap (fmul (1 + e)) (tmap (fmul a) xx)), z, xx. split; [now apply rounded_up|]. split; [exists y; auto|]. split; auto.
    + intros j Vj. rewrite Z3 by now rewrite Sy. cbn [tmap at_]. rewrite Hy, Hx by auto. rewrite !Nat.add_0_r. replace (i + 2)%nat with (S (S i)) by lia. cbn [fpow]. ring.
  - destruct (Z.eqb_spec (Z.of_nat i) 0); [lia|]. destruct (Z.ltb_spec (Z.of_nat i) (n - 1)); [|lia].
    destruct (tmap2_same fadd y (tmap (fmul 0) xx)) as [y1 [Y1 [Y2 Y3]]]; [cbn; congruence|].
    destruct (map2_up e fmul xx x He Sx) as [xx1 [X1 [X2 X3]]].
    destruct (IH (S i) xx1 y1) as [z [Z1 [Z2 Z3]]]; try lia; try congruence.
    { intros j Vj. rewrite Y3 by now rewrite Sy. cbn [tmap at_]. rewrite Hy by auto. ring. }
    { intros j Vj. rewrite X3 by now rewrite Sx. rewrite Hx by auto. cbn [fpow Nat.add]. ring. }
    exists z. split; [|split; [auto|]].
    + exists (tmap (fmul 0) xx), y1, xx1. split; [now apply rounded_refl|]. split; [exists y; split; auto; exists y1; split; auto; now apply rounded_refl|]. split; auto.
      now replace (Z.of_nat i + 1)%Z with (Z.of_nat (S i)) by lia.
    + intros j Vj. rewrite (Z3 j Vj). now replace (S i + k)%nat with (i + S k)%nat by lia.
Qed.
(** The bound is attained by a x^n, n >= 2. *)
Theorem poly_sharp e (x : T) a n : fle 0 e -> (2 <= n)%nat -> exists y y', poly1d x (a :: repeat 0 n) = Ok y /\ fl_poly1d e x (a :: repeat 0 n) y' /\
  shp y = shp x /\ forall j, valid (shp x) j -> at_ y j = a * fpow (at_ x j) n /\ at_ y' j = fpow (1 + e) (length (a :: repeat 0 n) + 1) * at_ y j.
Proof.
  intros He Hn. destruct (poly1d_ok F x (a :: repeat 0 n)) as [y [Y1 [Y2 Y3]]]; [cbn [length]; rewrite repeat_length; lia|].
  destruct n as [|[|n]]; [lia|lia|]. clear Hn.
  assert (R : rev (a :: repeat 0 (S n)) = 0 :: repeat 0 n ++ [a]).
  { cbn [rev]. replace (rev (repeat 0 (S n))) with (repeat (@f0 F) (S n)); [reflexivity|]. clear. induction (S n) as [|k IH]; auto. cbn [repeat rev]. rewrite <- IH. clear. induction k as [|k IH]; auto. cbn [repeat app]. now rewrite <- IH. }
  assert (L : a :: repeat 0 (S (S n)) = (a :: repeat 0 (S n)) ++ [0]).
  { cbn [app]. f_equal. clear. induction (S n) as [|k IH]; auto. cbn [repeat app]. now rewrite <- IH. }
  assert (P : forall j, polynomial F (a :: repeat 0 (S (S n))) (at_ x j) = a * fpow (at_ x j) (S (S n))).
  { intros j. rewrite L, polynomial_snoc, R, tail_cons.
    assert (G : forall k i v, tail_sum (repeat 0 k ++ [a]) i v = a * fpow v (i + k + 1)).
    { clear. induction k as [|k IH]; intros i v; cbn [repeat app]; rewrite tail_cons; [unfold tail_sum; cbn [length]; change (fsum (Z.of_nat 0) _) with (@f0 F); rewrite Nat.add_0_r; ring|].
      rewrite IH. replace (S i + k)%nat with (i + S k)%nat by lia. ring. }
    rewrite G. replace (1 + n + 1)%nat with (S (S n)) by lia. ring. }
  destruct (map2_up e fmul x x He eq_refl) as [xx [X1 [X2 X3]]].
  destruct (loop_sharp e x a (Z.of_nat (S (S n))) He n 1 xx (tmap (fmul 0) x)) as [z [Z1 [Z2 Z3]]]; auto; try lia.
  { intros j Vj. cbn [tmap at_]. ring. }
  { intros j Vj. rewrite X3 by auto. cbn [fpow Nat.add]. ring. }
  exists y, (tmap (fmul (1 + e)) (tmap (fun v => v + 0) z)). split; auto. split; [|split; auto].
  - exists 0, z. split.
    { rewrite pyidx_neg with (d := f0) by (cbn [length]; rewrite repeat_length; lia). f_equal. cbn [length]. rewrite repeat_length. replace (Z.to_nat (-1 + Z.of_nat (S (S (S n))))) with (S (S n)) by lia. cbn [nth]. clear.
      change (nth (S n) (repeat 0 (S (S n))) 0 = 0). generalize (S n) (S (S n)). intros k m. revert k. induction m as [|m IH]; intros [|k]; cbn; auto. }
    split; [|now apply rounded_up]. rewrite L, removelast_last, R. cbn [length]. rewrite app_length, repeat_length. cbn [length]. replace (Z.of_nat (S (n + 1))) with (Z.of_nat (S (S n))) by lia.
    cbn [fl_poly_loop]. exists (tmap (fmul 0) x), (tmap (fmul 0) x), xx. split; [now apply rounded_refl|]. split; [reflexivity|]. split; [|exact Z1].
    destruct (Z.ltb_spec 0 (Z.of_nat (S (S n)) - 1)); [exact X1|lia].
  - intros j Vj. rewrite (Y3 j Vj), P. split; auto. cbn [tmap at_]. rewrite (Z3 j Vj). cbn [length]. rewrite repeat_length. replace (S (S (S n)) + 1)%nat with (S (1 + n + 2)) by lia. replace (1 + n + 1)%nat with (S (S n)) by lia. cbn [fpow]. ring.
Qed.
End RP.
