(** MSE and PSNR. *)
From Coq Require Import Reals Lra Permutation.
From Verif Require Export ReduceProofs PsnrModel PoolLinear.
Open Scope Z_scope.

Lemma seqb_true s t : seqb s t = true <-> s = t.
Proof. unfold seqb. destruct (list_eq_dec Z.eq_dec s t); split; intros; congruence. Qed.
Lemma seqb_refl s : seqb s s = true.
Proof. now apply seqb_true. Qed.

Section Mse.
Variable F : ofield.
Add Field Fmse : (f_field F).
Notation T := (tensor F).

Lemma feq_dec (a b : F) : a = b \/ a <> b.
Proof.
  destruct (fleb a b) eqn:E1; [|right; intros ->; rewrite f_leb_refl in E1; discriminate].
  destruct (fleb b a) eqn:E2; [|right; intros ->; rewrite f_leb_refl in E2; discriminate]. left. now apply f_leb_antisym.
Qed.
Definition sq (v : F) : F := fmul v v.
Lemma sq_nonneg (v : F) : fle f0 (sq v).
Proof. apply fsq_nonneg. Qed.
Lemma sq_zero (v : F) : sq v = f0 <-> v = f0.
Proof. split; [|intros ->; unfold sq; ring]. intros H. destruct (feq_dec v f0) as [|N]; auto. exfalso. apply N.
  transitivity (fdiv (sq v) v); [unfold sq; field; auto|]. rewrite H. field. auto. Qed.

Lemma mse_full_ok (a b : T) : shp a = shp b -> exists d, mse_full a b = Ok d /\ shp d = shp a /\
  forall i, valid (shp a) i -> at_ d i = sq (fsub (at_ a i) (at_ b i)).
Proof.
  intros H. unfold mse_full. destruct (tmap2_same fsub a b H) as [d [D1 [D2 D3]]]. rewrite D1. cbn [bind]. eexists. split; [reflexivity|].
  split; [exact D2|]. intros i Hi. cbn [tmap at_]. rewrite D3 by auto. reflexivity.
Qed.

(** reduction="none" *)
Theorem mse_none (a b : T) ax al : on_axes a ax al -> shp a = shp b -> exists d, mse_forward RNone a b ax = Ok d /\ shp d = shp a /\
  forall i, valid (shp a) i -> at_ d i = sq (fsub (at_ a i) (at_ b i)).
Proof.
  intros [A1 A2 A3] H. unfold mse_forward, metric_forward. rewrite <- H, seqb_refl. cbn [assertb bind]. rewrite A1. cbn [bind].
  destruct (mse_full_ok a b H) as [d [D1 D2]]. rewrite D1. cbn [bind metric_reduce]. eauto.
Qed.
Theorem mse_sum (a b : T) ax al : on_axes a ax al -> shp a = shp b -> exists y, mse_forward RSum a b ax = Ok y /\
  shp y = outside (reduced (ndim a) al) (shp a) /\
  forall j L, block_of (shp a) (reduced (ndim a) al) j L -> at_ y j = lsum (map (fun i => sq (fsub (at_ a i) (at_ b i))) L).
Proof.
  intros [A1 A2 A3] H. unfold mse_forward, metric_forward. rewrite <- H, seqb_refl. cbn [assertb bind]. rewrite A1. cbn [bind].
  destruct (mse_full_ok a b H) as [d [D1 [D2 D3]]]. rewrite D1. cbn [bind metric_reduce]. destruct (tsum_ok F d al false) as [y [Y1 [Y2 Y3]]]; auto.
  { intros x Hx. unfold ndim. rewrite D2. now apply A2. }
  exists y. split; [exact Y1|]. unfold ndim in *. rewrite D2 in *. split; [exact Y2|]. intros j L B. rewrite (Y3 j L B). apply lsum_ext.
  intros i Hi. apply D3. now apply B.
Qed.
Theorem mse_mean (a b : T) ax al : on_axes a ax al -> shp a = shp b -> (forall d, In d (reduced (ndim a) al) -> 0 < nth d (shp a) 0) ->
  exists y, mse_forward RMean a b ax = Ok y /\ shp y = outside (reduced (ndim a) al) (shp a) /\
  forall j L, block_of (shp a) (reduced (ndim a) al) j L ->
    at_ y j = fdiv (lsum (map (fun i => sq (fsub (at_ a i) (at_ b i))) L)) (fofZ (zprod (map (fun d => nth d (shp a) 0) (reduced (ndim a) al)))).
Proof.
  intros [A1 A2 A3] H Hp. unfold mse_forward, metric_forward. rewrite <- H, seqb_refl. cbn [assertb bind]. rewrite A1. cbn [bind].
  destruct (mse_full_ok a b H) as [d [D1 [D2 D3]]]. rewrite D1. cbn [bind metric_reduce].
  assert (N : ndim d = ndim a) by (unfold ndim; now rewrite D2). destruct (tmean_ok F d al false) as [y [Y1 [Y2 Y3]]]; auto.
  { intros x Hx. rewrite N. now apply A2. }
  { intros x Hx. rewrite D2. rewrite N in Hx. now apply Hp. }
  exists y. split; [exact Y1|]. unfold red_count in Y3. rewrite N, D2 in *. split; [exact Y2|]. intros j L B. rewrite (Y3 j L B). f_equal. apply lsum_ext.
  intros i Hi. apply D3. now apply B.
Qed.
(** The mean is the sum over the number of summands. *)
Theorem mse_count (a : T) ax al : on_axes a ax al -> (forall n, In n (shp a) -> 0 <= n) -> forall j L,
  valid (outside (reduced (ndim a) al) (shp a)) j -> block_of (shp a) (reduced (ndim a) al) j L ->
  Z.of_nat (length L) = zprod (map (fun d => nth d (shp a) 0) (reduced (ndim a) al)).
Proof.
  intros [A1 A2 A3] Hs j L V B. eapply block_length; eauto; [now apply reduced_NoDup|]. intros x Hx. now apply (reduced_in (ndim a) al).
Qed.
Theorem mse_sum_mean (a b : T) ax al : on_axes a ax al -> shp a = shp b -> (forall d, In d (reduced (ndim a) al) -> 0 < nth d (shp a) 0) ->
  exists y z, mse_forward RSum a b ax = Ok y /\ mse_forward RMean a b ax = Ok z /\ shp y = shp z /\
    forall j, valid (shp y) j -> at_ y j = fmul (fofZ (zprod (map (fun d => nth d (shp a) 0) (reduced (ndim a) al)))) (at_ z j).
Proof.
  intros A H Hp. destruct (mse_sum a b ax al A H) as [y [Y1 [Y2 Y3]]]. destruct (mse_mean a b ax al A H Hp) as [z [Z1 [Z2 Z3]]].
  exists y, z. split; auto. split; auto. split; [congruence|]. intros j Hj. pose proof (block_ok (shp a) (reduced (ndim a) al) j) as B.
  rewrite (Y3 j _ B), (Z3 j _ B). field. apply fofZ_neq0. pose proof (count_pos F a _ Hp). unfold red_count in H0. lia.
Qed.
Lemma sub_sq (a b : F) : sq (fsub a b) = sq (fsub b a). Proof. unfold sq. ring. Qed.
Theorem mse_symmetric r (a b : T) ax : (exists e, mse_forward r a b ax = Err e /\ mse_forward r b a ax = Err e) \/
  exists y z, mse_forward r a b ax = Ok y /\ mse_forward r b a ax = Ok z /\ teq y z.
Proof.
  unfold mse_forward, metric_forward. destruct (list_eq_dec Z.eq_dec (shp a) (shp b)) as [E|E].
  2:{ left. exists AssertionError. unfold seqb. destruct (list_eq_dec Z.eq_dec (shp a) (shp b)); [congruence|]. destruct (list_eq_dec Z.eq_dec (shp b) (shp a)); [congruence|]. auto. }
  rewrite E, seqb_refl. cbn [assertb bind]. unfold ndim. rewrite E. destruct (check_axes (Z.of_nat (length (shp b))) ax) as [axes|e]; [|left; exists e; split; reflexivity]. cbn [bind].
  destruct (mse_full_ok a b E) as [d [D1 [D2 D3]]]. destruct (mse_full_ok b a (eq_sym E)) as [d' [D1' [D2' D3']]]. rewrite D1, D1'. cbn [bind].
  assert (Q : forall i, valid (shp a) i -> at_ d i = at_ d' i) by (intros i Hi; rewrite D3, D3' by (auto; now rewrite <- E); apply sub_sq).
  assert (S : shp d = shp d') by congruence.
  assert (LS : forall al kd, (forall j, lsum (map (at_ d) (block (shp d) al (if kd : bool then kept al j else j))) = lsum (map (at_ d') (block (shp d') al (if kd then kept al j else j))))).
  { intros al kd j. rewrite <- S. apply lsum_ext. intros i Hi. unfold block in Hi. apply filter_In in Hi. destruct Hi as [Hi _]. apply In_tindices in Hi. apply Q. now rewrite <- D2. }
  assert (TS : (exists e, tsum d axes false = Err e /\ tsum d' axes false = Err e) \/ exists y z, tsum d axes false = Ok y /\ tsum d' axes false = Ok z /\ shp y = shp z /\ forall j, at_ y j = at_ z j).
  { unfold tsum, ndim. rewrite S. destruct (mapM _ _) as [al|e]; cbn [bind]; [|left; eauto]. destruct (negb _); [left; eauto|].
    right. do 2 eexists. split; [reflexivity|]. split; [reflexivity|]. cbn [shp at_]. split; auto. intros j. specialize (LS al false j). cbn match in LS. rewrite S in LS. exact LS. }
  destruct r; cbn [metric_reduce].
  - unfold tmean, ndim. rewrite S. destruct (mapM _ _) as [al|e]; cbn [bind]; [|left; eauto].
    destruct TS as [[e [-> ->]]|[y [z [-> [-> [Z1 Z2]]]]]]; cbn [bind]; [left; eauto|]. rewrite Z1.
    destruct ((_ =? 0) && _); [left; eauto|]. right. do 2 eexists. split; [reflexivity|]. split; [reflexivity|]. split; auto. intros j _. cbn [tmap at_]. now rewrite Z2.
  - destruct TS as [TS|[y [z [T1 [T2 [T3 T4]]]]]]; [left; auto|]. right. exists y, z. split; auto. split; auto. split; auto.
  - right. exists d, d'. split; auto. split; auto. split; auto. intros i Hi. apply Q. now rewrite <- D2.
  - left; eauto.
Qed.
(** Nonnegative; zero exactly when the images agree on the block. *)
Theorem mse_zero_sum (a b : T) ax al : on_axes a ax al -> shp a = shp b -> exists y, mse_forward RSum a b ax = Ok y /\
  forall j, valid (shp y) j -> fle f0 (at_ y j) /\
    (at_ y j = f0 <-> forall i, valid (shp a) i -> outside (reduced (ndim a) al) i = j -> at_ a i = at_ b i).
Proof.
  intros A H. destruct (mse_sum a b ax al A H) as [y [Y1 [Y2 Y3]]]. exists y. split; auto. intros j Hj.
  pose proof (block_ok (shp a) (reduced (ndim a) al) j) as B. rewrite (Y3 j _ B).
  assert (N : forall e, In e (map (fun i => sq (fsub (at_ a i) (at_ b i))) (block (shp a) (reduced (ndim a) al) j)) -> fle f0 e).
  { intros e He. apply in_map_iff in He. destruct He as [i [<- _]]. apply sq_nonneg. }
  split; [now apply lsum_nonneg|]. rewrite lsum_zero_iff by auto. split.
  - intros G i Hi E. assert (Q : sq (fsub (at_ a i) (at_ b i)) = f0). { apply G, in_map_iff. exists i. split; auto. apply B. auto. }
    apply (proj1 (sq_zero _)) in Q. transitivity (fadd (fsub (at_ a i) (at_ b i)) (at_ b i)); [ring|rewrite Q; ring].
  - intros G e He. apply in_map_iff in He. destruct He as [i [<- Hi]]. apply B in Hi. destruct Hi as [Hi E]. rewrite (G i Hi E). unfold sq. ring.
Qed.
Theorem mse_zero_mean (a b : T) ax al : on_axes a ax al -> shp a = shp b -> (forall d, In d (reduced (ndim a) al) -> 0 < nth d (shp a) 0) ->
  exists y, mse_forward RMean a b ax = Ok y /\
  forall j, valid (shp y) j -> fle f0 (at_ y j) /\
    (at_ y j = f0 <-> forall i, valid (shp a) i -> outside (reduced (ndim a) al) i = j -> at_ a i = at_ b i).
Proof.
  intros A H Hp. destruct (mse_sum_mean a b ax al A H Hp) as [y [z [Y1 [Z1 [S E]]]]]. destruct (mse_zero_sum a b ax al A H) as [y' [Y1' Y2]].
  rewrite Y1 in Y1'. injection Y1' as <-. exists z. split; auto. intros j Hj. rewrite <- S in Hj. destruct (Y2 j Hj) as [P1 P2]. specialize (E j Hj).
  pose proof (count_pos F a _ Hp) as Hc. unfold red_count in Hc. set (n := zprod _) in *. assert (Hn : @fofZ F n <> f0) by (apply fofZ_neq0; lia).
  assert (Ez : at_ z j = fdiv (at_ y j) (fofZ n)) by (rewrite E; field; auto). split.
  - rewrite Ez. apply fdiv_nonneg; auto. apply fofZ_pos. lia.
  - rewrite <- P2, Ez. split; intros G; [rewrite E, Ez, G; ring|rewrite G; field; auto].
Qed.
(** Errors: different shapes, unknown reduction. *)
Theorem mse_shape_error r (a b : T) ax : shp a <> shp b -> mse_forward r a b ax = Err AssertionError.
Proof. intros H. unfold mse_forward, metric_forward, seqb. destruct (list_eq_dec Z.eq_dec (shp a) (shp b)); [contradiction|reflexivity]. Qed.
End Mse.

(** ** PSNR *)
Section Psnr.
Open Scope R_scope.
Notation TR := (tensor RF).

Lemma R_leb_false a b : R_leb a b = false <-> b < a.
Proof. split; intros H; [apply Rnot_le_lt; intros G; apply R_leb_iff in G; congruence|]. destruct (R_leb a b) eqn:E; auto. apply R_leb_iff in E. lra. Qed.
Lemma ln10_pos : 0 < ln 10.
Proof. rewrite <- ln_1. apply ln_increasing; lra. Qed.
Lemma log10_increasing a b : 0 < a -> a < b -> log10 a < log10 b.
Proof. intros Ha H. unfold log10. apply Rmult_lt_compat_r; [apply Rinv_0_lt_compat, ln10_pos|]. now apply ln_increasing. Qed.
Lemma psnr_value m v : 0 < m -> 0 < v -> 20 * log10 m - 10 * log10 v = 10 * log10 (m * m / v).
Proof.
  intros Hm Hv. unfold log10, Rdiv at 4. rewrite ln_mult; [|nra|now apply Rinv_0_lt_compat]. rewrite ln_mult, ln_Rinv by auto. unfold Rdiv. ring.
Qed.
Lemma tany_none (t : TR) (P : RF -> bool) : (forall i, valid (shp t) i -> P (at_ t i) = false) -> tany (tmap P t) = false.
Proof.
  intros H. unfold tany. apply not_true_is_false. intros E. apply existsb_exists in E. destruct E as [i [Hi E]]. apply In_tindices in Hi. cbn [tmap at_ shp] in *.
  rewrite H in E; auto. discriminate.
Qed.
Lemma psnr_of_mse mx eps r (a b : TR) ax mse : 0 < mx -> 0 <= eps -> mse_forward r a b ax = Ok mse ->
  (forall j, valid (shp mse) j -> 0 < at_ mse j + eps) ->
  exists y, psnr_forward mx eps r a b ax = Ok y /\ shp y = shp mse /\
    forall j, valid (shp mse) j -> at_ y j = 10 * log10 (mx * mx / (at_ mse j + eps)).
Proof.
  intros Hm He E Hp. unfold psnr_forward. rewrite E. cbn [bind]. destruct (R_leb eps 0) eqn:Q.
  - apply R_leb_iff in Q. assert (eps = 0) by lra. subst eps. unfold tlog10. rewrite tany_none.
    2:{ intros i Hi. apply R_leb_false. specialize (Hp i Hi). lra. }
    cbn [bind]. replace (R_leb mx 0) with false by (symmetry; now apply R_leb_false). eexists. split; [reflexivity|]. split; [reflexivity|].
    intros j Hj. cbn [tmap at_]. specialize (Hp j Hj). rewrite Rplus_0_r in *. now apply psnr_value.
  - apply R_leb_false in Q. unfold tlog10. rewrite tany_none.
    2:{ intros i Hi. apply R_leb_false. apply Hp, Hi. }
    cbn [bind]. replace (R_leb mx 0) with false by (symmetry; now apply R_leb_false). eexists. split; [reflexivity|]. split; [reflexivity|].
    intros j Hj. cbn [tmap at_]. specialize (Hp j Hj). now apply psnr_value.
Qed.
Theorem psnr_mean mx eps (a b : TR) ax al : 0 < mx -> 0 <= eps -> on_axes a ax al -> shp a = shp b -> (forall d, In d (reduced (ndim a) al) -> (0 < nth d (shp a) 0)%Z) ->
  (eps = 0 -> forall j, valid (outside (reduced (ndim a) al) (shp a)) j ->
     exists i, valid (shp a) i /\ outside (reduced (ndim a) al) i = j /\ at_ a i <> at_ b i) ->
  exists y, psnr_forward mx eps RMean a b ax = Ok y /\ shp y = outside (reduced (ndim a) al) (shp a) /\
    forall j L, valid (shp y) j -> block_of (shp a) (reduced (ndim a) al) j L ->
      at_ y j = 10 * log10 (mx * mx / (@lsum RF (map (fun i => (at_ a i - at_ b i) * (at_ a i - at_ b i)) L) / IZR (zprod (map (fun d => nth d (shp a) 0%Z) (reduced (ndim a) al))) + eps)).
Proof.
  intros Hm He A H Hp Hd. destruct (mse_mean RF a b ax al A H Hp) as [m [M1 [M2 M3]]]. destruct (mse_zero_mean RF a b ax al A H Hp) as [m' [M1' M4]].
  rewrite M1 in M1'. injection M1' as <-.
  destruct (psnr_of_mse mx eps RMean a b ax m Hm He M1) as [y [Y1 [Y2 Y3]]].
  { intros j Hj. destruct (M4 j Hj) as [P1 P2]. apply RF_le in P1. change (@f0 RF) with 0 in P1, P2. destruct (Req_dec eps 0) as [E|E]; [|lra]. 
    assert (at_ m j <> 0). { intros Q. rewrite M2 in Hj. destruct (Hd E j Hj) as [i [I1 [I2 I3]]]. apply I3. now apply P2. } lra. }
  exists y. split; auto. split; [congruence|]. intros j L Hj B. rewrite Y3 by congruence. rewrite (M3 j L B). rewrite RF_ofZ. reflexivity.
Qed.
Theorem psnr_decreasing mx eps r (a b a' b' : TR) ax ax' m m' y y' j j' : 0 < mx -> 0 <= eps ->
  mse_forward r a b ax = Ok m -> mse_forward r a' b' ax' = Ok m' ->
  psnr_forward mx eps r a b ax = Ok y -> psnr_forward mx eps r a' b' ax' = Ok y' ->
  valid (shp m) j -> valid (shp m') j' -> at_ m j < at_ m' j' -> at_ y' j' < at_ y j.
Proof.
  assert (Q : forall mx eps r (a b : TR) ax m y, 0 < mx -> 0 <= eps -> mse_forward r a b ax = Ok m -> psnr_forward mx eps r a b ax = Ok y ->
     forall j, valid (shp m) j -> 0 < at_ m j + eps /\ at_ y j = 10 * log10 (mx * mx / (at_ m j + eps))).
  { clear. intros mx eps r a b ax m y Hm He E1 E2. assert (P : forall j, valid (shp m) j -> 0 < at_ m j + eps).
    { intros j Hj. apply Rnot_le_lt. intros G. unfold psnr_forward in E2. rewrite E1 in E2. cbn [bind] in E2.
      assert (Q : forall t : TR, shp t = shp m -> at_ t j <= 0 -> tlog10 t = Err ValueError).
      { intros t S B. unfold tlog10. replace (tany _) with true; auto. symmetry. unfold tany. apply existsb_exists. exists j. cbn [tmap shp at_]. rewrite S. split; [now apply In_tindices|now apply R_leb_iff]. }
      rewrite Q in E2; [discriminate E2| |]; destruct (R_leb eps 0) eqn:B; cbn [tmap shp at_]; auto. apply R_leb_iff in B. lra. }
    destruct (psnr_of_mse mx eps r a b ax m Hm He E1 P) as [y1 [Y1 [_ Y2]]]. rewrite E2 in Y1. injection Y1 as <-. auto. }
  intros Hm He M1 M2 Y1 Y2 Hj Hj' L. destruct (Q _ _ _ _ _ _ _ _ Hm He M1 Y1 j Hj) as [P1 E1]. destruct (Q _ _ _ _ _ _ _ _ Hm He M2 Y2 j' Hj') as [P2 E2].
  rewrite E1, E2. apply Rmult_lt_compat_l; [lra|]. apply log10_increasing.
  - apply Rdiv_lt_0_compat; nra.
  - unfold Rdiv. apply Rmult_lt_compat_l; [nra|]. apply Rinv_lt_contravar; nra.
Qed.
Theorem psnr_symmetric mx eps r (a b : TR) ax : (exists e, psnr_forward mx eps r a b ax = Err e /\ psnr_forward mx eps r b a ax = Err e) \/
  exists y z, psnr_forward mx eps r a b ax = Ok y /\ psnr_forward mx eps r b a ax = Ok z /\ teq y z.
Proof.
  unfold psnr_forward. destruct (mse_symmetric RF r a b ax) as [[e [-> ->]]|[y [z [-> [-> [S E]]]]]]; [left; exists e; split; reflexivity|]. cbn [bind].
  set (u := if R_leb eps 0 then y else _). set (v := if R_leb eps 0 then z else _).
  assert (U : shp u = shp v /\ forall j, valid (shp u) j -> at_ u j = at_ v j).
  { unfold u, v. destruct (R_leb eps 0); cbn [tmap shp at_]; split; auto. intros j Hj. now rewrite E. }
  destruct U as [U1 U2]. unfold tlog10.
  assert (A : tany (tmap (fun w : RF => R_leb w 0) u) = tany (tmap (fun w : RF => R_leb w 0) v)).
  { unfold tany. cbn [tmap shp at_]. rewrite <- U1. apply eq_true_iff_eq. rewrite !existsb_exists. split; intros [i [Hi G]]; exists i; split; auto; apply In_tindices in Hi; [rewrite <- U2|rewrite U2]; auto. }
  rewrite A. set (q := tany _). change (tany _) with q. clearbody q. destruct q; cbn [bind]; [left; exists ValueError; split; reflexivity|]. destruct (R_leb mx 0); [left; exists ValueError; split; reflexivity|].
  right. do 2 eexists. split; [reflexivity|]. split; [reflexivity|]. split; [exact U1|]. cbn [tmap shp at_]. intros j Hj. now rewrite U2.
Qed.
(** A zero mse without eps is infinite (an error in the model). *)
Theorem psnr_zero mx r (a b : TR) ax m j : mse_forward r a b ax = Ok m -> valid (shp m) j -> at_ m j = 0 -> psnr_forward mx 0 r a b ax = Err ValueError.
Proof.
  intros E Hj H. unfold psnr_forward. rewrite E. cbn [bind]. replace (R_leb 0 0) with true by (symmetry; apply R_leb_iff; lra).
  unfold tlog10. replace (tany _) with true; auto. symmetry. unfold tany. apply existsb_exists. exists j. cbn [tmap shp at_]. split; [now apply In_tindices|apply R_leb_iff; lra].
Qed.
End Psnr.

(** ** With at least one axis to reduce *)
Section Nonempty.
Variable F : ofield.
Add Field Fne : (f_field F).
Notation T := (tensor F).
Theorem mse_sum_axes (a b : T) ax al : on_axes a ax al -> al <> [] -> shp a = shp b -> exists y, mse_forward RSum a b ax = Ok y /\
  shp y = outside al (shp a) /\
  forall j L, block_of (shp a) al j L -> at_ y j = lsum (map (fun i => sq F (fsub (at_ a i) (at_ b i))) L).
Proof. intros A N H. pose proof (mse_sum F a b ax al A H) as Q. rewrite (reduced_some _ _ N) in Q. exact Q. Qed.
Theorem mse_mean_axes (a b : T) ax al : on_axes a ax al -> al <> [] -> shp a = shp b -> (forall d, In d al -> 0 < nth d (shp a) 0) ->
  exists y, mse_forward RMean a b ax = Ok y /\ shp y = outside al (shp a) /\
  forall j L, block_of (shp a) al j L -> valid (shp y) j -> (forall n, In n (shp a) -> 0 <= n) ->
    0 < Z.of_nat (length L) /\
    at_ y j = fdiv (lsum (map (fun i => sq F (fsub (at_ a i) (at_ b i))) L)) (fofZ (Z.of_nat (length L))).
Proof.
  intros A N H Hp. pose proof (mse_mean F a b ax al A H) as Q. pose proof (mse_count F a ax al A) as C. rewrite (reduced_some _ _ N) in Q, C.
  destruct (Q Hp) as [y [Y1 [Y2 Y3]]]. exists y. split; [exact Y1|]. split; [exact Y2|]. intros j L B V Hs. rewrite Y2 in V. rewrite (C Hs j L V B).
  split; [apply (count_pos F a al Hp)|]. now apply Y3.
Qed.
Theorem mse_sum_mean_axes (a b : T) ax al : on_axes a ax al -> al <> [] -> shp a = shp b -> (forall d, In d al -> 0 < nth d (shp a) 0) ->
  exists y z, mse_forward RSum a b ax = Ok y /\ mse_forward RMean a b ax = Ok z /\ shp y = shp z /\
    forall j, valid (shp y) j -> at_ y j = fmul (fofZ (zprod (map (fun d => nth d (shp a) 0) al))) (at_ z j).
Proof. intros A N H. pose proof (mse_sum_mean F a b ax al A H) as Q. rewrite (reduced_some _ _ N) in Q. exact Q. Qed.
Theorem mse_zero_axes (a b : T) ax al : on_axes a ax al -> al <> [] -> shp a = shp b -> (forall d, In d al -> 0 < nth d (shp a) 0) ->
  exists y z, mse_forward RSum a b ax = Ok y /\ mse_forward RMean a b ax = Ok z /\ shp y = shp z /\
  forall j, valid (shp y) j ->
    (fle f0 (at_ y j) /\ (at_ y j = f0 <-> forall i, valid (shp a) i -> outside al i = j -> at_ a i = at_ b i)) /\
    (fle f0 (at_ z j) /\ (at_ z j = f0 <-> forall i, valid (shp a) i -> outside al i = j -> at_ a i = at_ b i)).
Proof.
  intros A N H Hp. destruct (mse_sum_mean_axes a b ax al A N H Hp) as [y [z [Y [Z1 [S _]]]]].
  pose proof (mse_zero_sum F a b ax al A H) as Q1. pose proof (mse_zero_mean F a b ax al A H) as Q2. rewrite (reduced_some _ _ N) in Q1, Q2.
  destruct Q1 as [y' [Y' Q1]]. destruct (Q2 Hp) as [z' [Z' Q3]]. rewrite Y in Y'. rewrite Z1 in Z'. injection Y' as <-. injection Z' as <-.
  exists y, z. split; auto. split; auto. split; auto. intros j Hj. split; [now apply Q1|]. apply Q3. now rewrite <- S.
Qed.
Theorem mse_reduction_error (a b : T) ax al : on_axes a ax al -> shp a = shp b -> mse_forward ROther a b ax = Err ValueError.
Proof.
  intros [A1 _ _] H. unfold mse_forward, metric_forward. rewrite <- H, seqb_refl. cbn [assertb bind]. rewrite A1. cbn [bind].
  destruct (mse_full_ok F a b H) as [d [D1 D2]]. rewrite D1. reflexivity.
Qed.
(** An empty tuple of axes reduces every axis. *)
Theorem mse_empty_axes (a b : T) : shp a = shp b -> exists y, mse_forward RSum a b (AxSeq []) = Ok y /\ shp y = [].
Proof.
  intros H. destruct (mse_sum F a b (AxSeq []) []) as [y [Y1 [Y2 _]]]; auto; [split; [reflexivity|intros x []|constructor]|].
  exists y. split; auto. rewrite Y2. cbn [reduced]. unfold ndim, outside. replace (filter _ _) with (@nil nat); auto. symmetry.
  assert (Q : forall l n, (forall d, In d l -> (d < n)%nat) -> filter (fun d => negb (existsb (Nat.eqb d) (seq 0 n))) l = []).
  { induction l as [|d l IH]; intros n Hn; cbn [filter]; auto. rewrite (proj2 (existsb_nat d (seq 0 n))) by (apply in_seq; specialize (Hn d (or_introl eq_refl)); lia).
    cbn [negb]. apply IH. intros; apply Hn; now right. }
  apply Q. intros d Hd. apply in_seq in Hd. lia.
Qed.
End Nonempty.
Theorem mse_empty_axes_ex : exists (F : ofield) (a b : tensor F), shp a = shp b /\ on_axes a (AxSeq []) [] /\
  ~ exists y, mse_forward RSum a b (AxSeq []) = Ok y /\ shp y = outside [] (shp a).
Proof.
  exists QcF, (mkT [2] (fun _ => f0)), (mkT [2] (fun _ => f0)). split; [reflexivity|]. split; [split; [reflexivity|intros a []|constructor]|]. intros [y [Y1 Y2]].
  destruct (mse_empty_axes QcF (mkT [2] (fun _ => f0)) (mkT [2] (fun _ => f0)) eq_refl) as [z [Z1 Z2]]. rewrite Y1 in Z1. injection Z1 as <-.
  rewrite Y2 in Z2. discriminate.
Qed.
