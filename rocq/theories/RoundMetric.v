(** The MSE computed with rounding has a small relative error. *)
From Coq Require Import Sorting.Permutation.
From Verif Require Export RoundMetricModel RoundProofs MseProofs.
Open Scope Z_scope.

(** The number of roundings in one result from n pixels. *)
Definition mse_roundings (r : reduction) (n : nat) : nat :=
  match r with RMean => n + 4 | RSum => n + 2 | _ => 3 end.
(** The indices that contribute to result j. *)
Definition summands (r : reduction) (s : list Z) (al : list nat) (j : list Z) (L : list (list Z)) : Prop :=
  match r with RNone => L = [j] | _ => block_of s al j L end.

Section RMt.
Variable F : ofield.
Add Field Frmt : (f_field F).
Notation T := (tensor F).
Notation errs := (errs F).

Lemma full_err e (a b d : T) i : fle f0 e -> fl_mse_full e a b d -> valid (shp a) i ->
  let w := fmul (fsub (at_ a i) (at_ b i)) (fsub (at_ a i) (at_ b i)) in errs (fpow (fadd f1 e) 3) w (at_ d i) w.
Proof.
  intros He [_ H] V. destruct (H i V) as [u [U1 U2]]. cbv zeta. set (t := fsub (at_ a i) (at_ b i)) in *.
  assert (H1 : fle f1 (fadd f1 e)) by (apply (sub_le F f0 e); auto; ring).
  pose proof (rounds_err F e t u He U1) as E1. pose proof (err_mul F _ _ _ _ _ _ _ _ H1 E1 E1) as E2. pose proof (err_round F e _ _ _ _ _ He E2 U2) as E3.
  replace (fmul (fabs t) (fabs t)) with (fmul t t) in E3.
  - cbn [fpow]. replace (fmul (fadd f1 e) (fmul (fadd f1 e) (fmul (fadd f1 e) f1))) with (fmul (fmul (fadd f1 e) (fadd f1 e)) (fadd f1 e)) by ring. exact E3.
  - destruct (fabs_cases F t) as [[_ ->]|[_ ->]]; ring.
Qed.
Lemma total_err {A} e c (p w : A -> F) l v : fle f0 e -> fle f1 c -> fl_total e p l v -> (forall o, In o l -> errs c (w o) (p o) (w o)) ->
  errs (fmul c (fpow (fadd f1 e) (length l - 1))) (wsum (map w l)) v (wsum (map w l)).
Proof.
  intros He Hc [[-> ->]|H] HE; [|now apply (sum_err F e c p w w l v He Hc H)]. cbn. split; rewrite ?fabs_zero; [|apply fle_refl].
  replace (fsub f0 f0) with (@f0 F) by ring. rewrite fabs_zero. match goal with |- fle _ ?t => replace t with (@f0 F) by ring end. apply fle_refl.
Qed.
Lemma pow3_ge1 e : fle f0 e -> fle (@f1 F) (fpow (fadd f1 e) 3).
Proof. apply pow_ge1. Qed.
Notation sqd a b := (fun i => fmul (fsub (at_ a i) (at_ b i)) (fsub (at_ a i) (at_ b i))).
Lemma tsum_err e (a b d s : T) al : fle f0 e -> (forall c, In c al -> (c < ndim a)%nat) -> shp d = shp a ->
  fl_mse_full e a b d -> fl_tsum e d (map Z.of_nat al) s -> shp s = outside (reduced (ndim a) al) (shp a) /\
  forall j L, valid (shp s) j -> block_of (shp a) (reduced (ndim a) al) j L ->
    errs (fpow (fadd f1 e) (length L + 2)) (lsum (map (sqd a b) L)) (at_ s j) (lsum (map (sqd a b) L)).
Proof.
  intros He A Hd HF [al' [M [N [S1 S2]]]]. assert (Nd : ndim d = ndim a) by (unfold ndim; now rewrite Hd). rewrite Nd, reduced_axes in M by auto. injection M as <-. rewrite Hd in *.
  split; [rewrite S1; apply kept_outside|]. intros j L Vj BL. specialize (S2 j Vj). pose proof (block_perm _ _ _ L BL) as P.
  change (@lsum F) with (@wsum F). rewrite <- (wsum_perm F _ _ (Permutation_map (sqd a b) P)).
  assert (HB : forall i, In i (block (shp a) (reduced (ndim a) al) j) -> valid (shp a) i) by (intros i Hi; apply (block_ok (shp a) (reduced (ndim a) al) j) in Hi; tauto).
  pose proof (total_err e (fpow (fadd f1 e) 3) (at_ d) (sqd a b) _ _ He (pow3_ge1 e He) S2 (fun i Hi => full_err e a b d i He HF (HB i Hi))) as E.
  rewrite (Permutation_length P), <- pow_add in E. destruct L as [|i L]; [|eapply err_mono; [|exact E]; apply pow_mono; auto; cbn [length]; lia].
  apply Permutation_sym, Permutation_nil in P. rewrite P in *. cbn in *. destruct E as [E1 E2]. split; auto. eapply fle_trans; [exact E1|].
  match goal with |- fle ?t ?u => replace t with (@f0 F) by ring; replace u with (@f0 F) by ring end. apply fle_refl.
Qed.

Theorem mse_rounding e r (a b y' : T) ax al : fle f0 e -> on_axes a ax al -> (r = RMean -> forall d, In d (reduced (ndim a) al) -> 0 < nth d (shp a) 0) ->
  fl_mse_forward e r a b ax y' ->
  exists y, mse_forward r a b ax = Ok y /\ shp y' = shp y /\
    forall j L, valid (shp y) j -> summands r (shp a) (reduced (ndim a) al) j L -> fle f0 (at_ y j) /\
      fle (fabs (fsub (at_ y' j) (at_ y j))) (fmul (fsub (fpow (fadd f1 e) (mse_roundings r (length L))) f1) (at_ y j)).
Proof.
  intros He OA Hp [Sab [axes [d [C1 [HF HR]]]]]. pose proof OA as [A1 A2 A3]. rewrite A1 in C1. injection C1 as <-. pose proof HF as [Hd _].
  assert (Nd : ndim d = ndim a) by (unfold ndim; now rewrite Hd).
  destruct r; cbn [fl_reduce] in HR; [| | |contradiction].
  - destruct (mse_mean F a b ax al OA Sab (Hp eq_refl)) as [y [Y1 [Y2 Y3]]]. exists y. split; [exact Y1|].
    destruct HR as [al' [s [M [HS [S1 [N1 N2]]]]]]. rewrite Nd, reduced_axes in M by auto. injection M as <-. rewrite Hd in N1, N2.
    destruct (tsum_err e a b d s al He A2 Hd HF HS) as [T1 T2]. split; [congruence|]. intros j L Vj BL. cbn [summands] in BL. rewrite (Y3 j L BL).
    assert (Vs : valid (shp s) j) by congruence. assert (Vy : valid (shp y') j) by congruence. specialize (T2 j L Vs BL). destruct (N2 j Vy) as [q [Q1 Q2]].
    set (n := zprod _) in *. assert (Np : 0 < n) by (apply (count_pos F a), Hp; reflexivity).
    pose proof (rounds_err F e _ _ He Q1) as E1. rewrite (fabs_pos F (fdiv f1 (fofZ n))) in E1 by (apply fdiv_nonneg; [apply fle_01|now apply fofZ_pos]).
    pose proof (err_mul F _ _ _ _ _ _ _ _ (pow_ge1 F e (length L + 2) He) T2 E1) as E2. pose proof (err_round F e _ _ _ _ _ He E2 Q2) as [E3 E4].
    change (sq F) with (fun v : F => fmul v v). cbn [mse_roundings]. replace (length L + 4)%nat with (length L + 2 + 2)%nat by lia. rewrite pow_add. cbn [fpow].
    assert (NZ : @fofZ F n <> f0) by (apply fofZ_neq0; lia).
    replace (fdiv (lsum (map (fun i => fmul (fsub (at_ a i) (at_ b i)) (fsub (at_ a i) (at_ b i))) L)) (fofZ n)) with (fmul (lsum (map (sqd a b) L)) (fdiv f1 (fofZ n))) by (field; auto).
    match goal with E : fle ?u ?v |- _ /\ fle ?u ?w => replace w with v by ring; split; [eapply fle_trans; [apply fabs_nonneg|exact E4]|exact E] end.
  - destruct (mse_sum F a b ax al OA Sab) as [y [Y1 [Y2 Y3]]]. exists y. split; [exact Y1|].
    destruct (tsum_err e a b d y' al He A2 Hd HF HR) as [T1 T2]. split; [congruence|]. intros j L Vj BL. cbn [summands] in BL. rewrite (Y3 j L BL).
    assert (Vs : valid (shp y') j) by congruence. destruct (T2 j L Vs BL) as [E E4]. split; [eapply fle_trans; [apply fabs_nonneg|exact E4]|exact E].
  - subst y'. destruct (mse_none F a b ax al OA Sab) as [y [Y1 [Y2 Y3]]]. exists y. split; [exact Y1|]. split; [congruence|]. intros j L Vj ->. rewrite Y2 in Vj. rewrite (Y3 j Vj).
    destruct (full_err e a b d j He HF Vj) as [E E4]. split; [eapply fle_trans; [apply fabs_nonneg|exact E4]|exact E].
Qed.
(** Zero stays zero, and nothing else becomes zero. *)
Theorem mse_rounding_zero e r (a b y' : T) ax al : fle f0 e -> on_axes a ax al -> (r = RMean -> forall d, In d (reduced (ndim a) al) -> 0 < nth d (shp a) 0) ->
  fl_mse_forward e r a b ax y' ->
  forall j L, valid (shp y') j -> summands r (shp a) (reduced (ndim a) al) j L -> flt (fsub (fpow (fadd f1 e) (mse_roundings r (length L))) f1) f1 ->
  fle f0 (at_ y' j) /\ exists y, mse_forward r a b ax = Ok y /\ (at_ y' j = f0 <-> at_ y j = f0).
Proof.
  intros He OA Hp HF j L Vj SL Hq. destruct (mse_rounding e r a b y' ax al He OA Hp HF) as [y [Y1 [Y2 Y3]]]. rewrite Y2 in Vj. destruct (Y3 j L Vj SL) as [V0 Y4]. clear Y3. rename Y4 into Y3. set (q := fsub (fpow _ _) f1) in *. set (v := at_ y j) in *.
  pose proof (fabs_le F (fsub (at_ y' j) v)) as [K1 K2].
  assert (P : fle f0 (fsub f1 q)) by (apply fle_sub1; now apply flt_fle).
  assert (Lo : fle (fmul v (fsub f1 q)) (at_ y' j)).
  { pose proof (fle_trans F _ _ _ K2 Y3) as K3. apply (sub_le F _ _ _ _ K3). ring. }
  assert (Hi : fle (at_ y' j) (fmul v (fadd f1 q))).
  { pose proof (fle_trans F _ _ _ K1 Y3) as K3. apply (sub_le F _ _ _ _ K3). ring. }
  assert (L0 : fle f0 (fmul v (fsub f1 q))) by now apply fmul_nonneg.
  split; [eapply fle_trans; eauto|]. exists y. split; [exact Y1|]. split.
  - intros Z. rewrite Z in Lo. destruct (fmul_eq0 F v (fsub f1 q)) as [|Z2]; auto; [now apply fle_antisym|]. exfalso. apply (flt_ne F _ _ Hq).
    replace q with (fsub f1 (fsub f1 q)) by ring. rewrite Z2. ring.
  - intros Z. fold v in Z. rewrite Z in Lo, Hi. replace (fmul f0 (fsub f1 q)) with (@f0 F) in Lo by ring. replace (fmul f0 (fadd f1 q)) with (@f0 F) in Hi by ring. now apply fle_antisym.
Qed.

(** *** exact arithmetic is one of the possibilities *)
Lemma list_sum_exact {A} e (p : A -> F) o l : fle f0 e -> fl_sum e p (o :: l) (lsum (map p (o :: l))).
Proof.
  intros He. revert o. induction l as [|b l IH]; intros o.
  - replace (lsum (map p [o])) with (p o) by (unfold lsum; cbn; ring). constructor.
  - apply (fl_add e p [o] (b :: l) _ (p o) (lsum (map p (b :: l)))); [constructor|apply IH|reflexivity|apply rounds_refl; auto].
Qed.
Lemma total_exact {A} e (p : A -> F) l : fle f0 e -> fl_total e p l (lsum (map p l)).
Proof. intros He. destruct l as [|o l]; [left; split; reflexivity|right; now apply list_sum_exact]. Qed.
Lemma tsum_exact e (x y : T) axes : fle f0 e -> tsum x axes false = Ok y -> fl_tsum e x axes y.
Proof.
  intros He. unfold tsum, fl_tsum. destruct (mapM _ _) as [al|]; [|discriminate]. cbn [bind]. destruct (Nat.eqb_spec (length (nodup Nat.eq_dec al)) (length al)) as [E|]; [|discriminate].
  cbn [negb]. intros H. injection H as <-. exists al. split; [reflexivity|]. split; [|split; [reflexivity|]].
  - apply (@NoDup_incl_NoDup nat (nodup Nat.eq_dec al) al); [apply NoDup_nodup|lia|]. intros z Hz. apply nodup_In in Hz. auto.
  - cbn [at_ shp]. intros j Vj. now apply total_exact.
Qed.
Lemma tmean_exact e (x y : T) al : fle f0 e -> (forall a, In a al -> (a < ndim x)%nat) -> (forall d, In d (reduced (ndim x) al) -> 0 < nth d (shp x) 0) ->
  tmean x (map Z.of_nat al) false = Ok y -> fl_tmean e x (map Z.of_nat al) y.
Proof.
  intros He A Hp. unfold tmean, fl_tmean. rewrite reduced_axes by auto. cbn [bind]. destruct (tsum x (map Z.of_nat al) false) as [s|] eqn:S; [|discriminate]. cbn [bind].
  destruct (_ && _) eqn:E; [discriminate|]. intros H. injection H as <-. exists (reduced (ndim x) al), s. split; [reflexivity|]. split; [now apply tsum_exact|]. split; [reflexivity|].
  cbv zeta. set (n := zprod _). assert (Np : 0 < n) by now apply (count_pos F x). split; [lia|]. intros j Vj. exists (fdiv f1 (fofZ n)). split; [now apply rounds_refl|]. cbn [tmap at_].
  replace (fdiv (at_ s j) (fofZ n)) with (fmul (at_ s j) (fdiv f1 (fofZ n))) by (field; apply fofZ_neq0; lia). now apply rounds_refl.
Qed.
Theorem mse_exact e r (a b y : T) ax al : fle f0 e -> on_axes a ax al -> shp a = shp b -> (r = RMean -> forall d, In d (reduced (ndim a) al) -> 0 < nth d (shp a) 0) ->
  mse_forward r a b ax = Ok y -> fl_mse_forward e r a b ax y.
Proof.
  intros He [A1 A2 A3] S Hp. unfold mse_forward, metric_forward. rewrite <- S, seqb_refl. cbn [assertb bind]. rewrite A1. cbn [bind].
  destruct (mse_full_ok F a b S) as [d [D1 [D2 D3]]]. rewrite D1. cbn [bind]. intros H. split; [exact S|]. exists (map Z.of_nat al), d. split; [exact A1|].
  assert (N : ndim d = ndim a) by (unfold ndim; now rewrite D2).
  split. { split; [exact D2|]. intros i V. exists (fsub (at_ a i) (at_ b i)). split; [now apply rounds_refl|]. rewrite (D3 i V). unfold sq. now apply rounds_refl. }
  destruct r; cbn [metric_reduce fl_reduce] in *; [| |now injection H as <-|discriminate].
  - apply tmean_exact; auto; [rewrite N; auto|]. rewrite N, D2. now apply Hp.
  - now apply tsum_exact.
Qed.
End RMt.
