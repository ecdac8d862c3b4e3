(** Rounding error of separable pooling, pixel by pixel: kernels without negative entries. *)
From Verif Require Export RoundProofs.
Open Scope Z_scope.

(** Modes that copy pixels or fill in constants that are not negative. *)
Definition plain_mode {F : ofield} (m : mode F) (cv ev : F * F) : Prop :=
  match m with
  | MReplicate | MCircular | MPeriodize | MSymmetric | MReflect => True
  | MConstant => fle f0 (fst cv) /\ fle f0 (snd cv)
  | _ => False
  end.
(** No pixel of x exceeds that of m in absolute value. *)
Definition majorant {F : ofield} (x m : tensor F) : Prop := shp m = shp x /\ forall i, valid (shp x) i -> fle (fabs (at_ x i)) (at_ m i).

Section RR.
Variable F : ofield.
Add Field Frr : (f_field F).
Notation T := (tensor F).

Lemma dot_err3 e c (k : list F) f g G v : fle f0 e -> fle f1 c -> (forall b, In b k -> fle f0 b) ->
  (forall o, 0 <= o < Z.of_nat (length k) -> errs F c (G o) (f o) (g o)) -> fl_dot e k f v ->
  errs F (fmul c (fpow (fadd f1 e) (length k + 1))) (fsum (Z.of_nat (length k)) (fun o => fmul (G o) (nth (Z.to_nat o) k f0))) v
    (fsum (Z.of_nat (length k)) (fun o => fmul (g o) (nth (Z.to_nat o) k f0))).
Proof.
  intros He Hc Hk H [k' [p [K Sm]]]. assert (H1 : fle f1 (fadd f1 e)) by (apply (sub_le F f0 e); auto; ring).
  destruct (sum_err F e (fmul (fmul c (fadd f1 e)) (fadd f1 e)) p (fun o => fmul (G o) (nth (Z.to_nat o) k f0)) (fun o => fmul (g o) (nth (Z.to_nat o) k f0)) (zrange (Z.of_nat (length k))) v He) as [L E]; [|exact Sm| |].
  - assert (E1 : @f1 F = fmul (fmul f1 f1) f1) by ring. rewrite E1 at 1. assert (fle f0 (fadd f1 e)) by (eapply fle_trans; [apply fle_01|exact H1]). assert (fle f0 c) by (eapply fle_trans; [apply fle_01|exact Hc]).
    repeat apply mul_le; auto; try apply fle_01. apply fmul_nonneg; auto.
  - intros o Ho. apply In_zrange in Ho. destruct (K o Ho) as [K1 K2]. eapply err_round; eauto. apply err_mul; auto. apply rounds_err in K1; auto.
    rewrite fabs_pos in K1; [exact K1|]. apply Hk. apply nth_In. lia.
  - rewrite zrange_length in *. rewrite Nat2Z.id in *. unfold wsum in E. rewrite !fold_zrange in E.
    replace (fmul c (fpow (fadd f1 e) (length k + 1))) with (fmul (fmul (fmul c (fadd f1 e)) (fadd f1 e)) (fpow (fadd f1 e) (length k - 1))); [exact E|].
    replace (length k + 1)%nat with (2 + (length k - 1))%nat by lia. cbn [fpow Nat.add]. ring.
Qed.
Definition errs3 c (x' x X : T) : Prop := shp x' = shp x /\ shp X = shp x /\ forall j, valid (shp x) j -> errs F c (at_ X j) (at_ x' j) (at_ x j).
Lemma pass_err3 e c (x x' X u' y' : T) a k s : fle f0 e -> fle f1 c -> (forall b, In b k -> fle f0 b) -> (a < ndim x)%nat -> errs3 c x' x X ->
  tunfold a (klen k) s x' = Ok u' -> fl_matvec e u' k y' ->
  exists u y U Y, tunfold a (klen k) s x = Ok u /\ tmatvec u k = Ok y /\ tunfold a (klen k) s X = Ok U /\ tmatvec U k = Ok Y /\ errs3 (fmul c (fpow (fadd f1 e) (length k + 1))) y' y Y.
Proof.
  intros He Hc Hk Ha [Hs [Hs' HE]]. unfold tunfold, dimlen. rewrite Hs, Hs'. destruct ((0 <? s) && (0 <=? klen k) && (klen k <=? nth a (shp x) 0)) eqn:E; [|discriminate].
  intros H. injection H as <-. intros [M1 [M2 M3]]. cbn [shp at_] in *. eexists. eexists. eexists. eexists. split; [reflexivity|]. unfold tmatvec at 1. cbn [shp at_]. rewrite M1, Z.eqb_refl.
  split; [reflexivity|]. split; [reflexivity|]. unfold tmatvec. cbn [shp at_]. rewrite M1, Z.eqb_refl.
  split; [reflexivity|]. split; [exact M2|]. split; [reflexivity|]. cbn [shp at_]. rewrite removelast_last in *. intros j Vj. rewrite M2 in M3. specialize (M3 j Vj).
  apply (dot_err3 e c k (fun o => at_ x' (upd a (nth a (j ++ [o]) 0 * s + nth (ndim x') (j ++ [o]) 0) (firstn (ndim x') (j ++ [o]))))
    (fun o => at_ x (upd a (nth a (j ++ [o]) 0 * s + nth (ndim x) (j ++ [o]) 0) (firstn (ndim x) (j ++ [o]))))
    (fun o => at_ X (upd a (nth a (j ++ [o]) 0 * s + nth (ndim X) (j ++ [o]) 0) (firstn (ndim X) (j ++ [o]))))); auto.
  intros o Ho. pose proof (valid_length _ _ Vj) as L. rewrite upd_length in L. change (length j = ndim x) in L.
  assert (N : ndim x' = ndim x) by (unfold ndim; now rewrite Hs). assert (N' : ndim X = ndim x) by (unfold ndim; now rewrite Hs'). rewrite N, N'. apply HE. rewrite app_nth1 by lia. rewrite <- L at 1. rewrite app_nth2, Nat.sub_diag by lia.
  cbn [nth]. rewrite <- L, firstn_app, Nat.sub_diag, firstn_all. cbn [firstn]. rewrite app_nil_r.
  eapply valid_upd_back; [exact Vj|]. assert (Va := valid_nth _ _ a Vj). rewrite upd_length in Va. specialize (Va Ha). rewrite nth_upd_eq in Va by exact Ha.
  bdestr. eapply window_fits; eauto; unfold klen in *; lia.
Qed.
Lemma loop_err3 e m : fle f0 e -> forall axes i (x x' X y' : T) kers sts c, fle f1 c -> length kers = length axes -> length sts = length axes -> (forall k b, In k kers -> In b k -> fle f0 b) ->
  (forall r, (r < length axes)%nat -> step_ok F m (i + Z.of_nat r) (nth r kers []) (nth r sts 1)) -> errs3 c x' x X -> fl_loop e m x' i axes y' ->
  exists y Y, pool_loop m x i axes = Ok y /\ pool_loop m X i axes = Ok Y /\ errs3 (fmul c (fpow (fadd f1 e) (roundings kers))) y' y Y.
Proof.
  intros He. induction axes as [|a axes IH]; intros i x x' X y' kers sts c Hc Lk Ls Hk H HE HL.
  - destruct kers; [|discriminate]. cbn in HL. subst y'. exists x, X. split; [reflexivity|]. split; [reflexivity|]. cbn [roundings fpow]. now replace (fmul c f1) with c by ring.
  - destruct kers as [|k kers]; [discriminate|]. destruct sts as [|s sts]; [discriminate|]. cbn [length] in Lk, Ls.
    destruct (H 0%nat ltac:(cbn; lia)) as [G1 G2]. cbn [nth] in G1, G2. replace (i + Z.of_nat 0) with i in * by lia.
    assert (Hrec : forall r, (r < length axes)%nat -> step_ok F m (i + 1 + Z.of_nat r) (nth r kers []) (nth r sts 1)).
    { intros r Hr. specialize (H (S r) ltac:(cbn; lia)). cbn [nth] in H. now replace (i + 1 + Z.of_nat r) with (i + Z.of_nat (S r)) by lia. }
    assert (Hk' : forall k0 b, In k0 kers -> In b k0 -> fle f0 b) by (intros k0 b I1 I2; apply (Hk k0 b); auto; now right).
    cbn [fl_loop] in HL. destruct HL as [ks [K1 HL]]. cbn [pool_loop]. rewrite K1 in *. injection G1 as ->. cbn [bind].
    destruct k as [|b k].
    + change (klen (@nil F) =? 0) with true in *. cbn match in *. cbn [roundings]. apply (IH (i + 1) x x' X y' kers sts); auto; lia.
    + destruct (Z.eqb_spec (klen (b :: k)) 0) as [E|_]; [unfold klen in E; cbn in E; lia|].
      destruct HL as [s' [a' [u [k' [x1 [S1 [A1 [U1 [K2 [M1 HL]]]]]]]]]]. destruct G2 as [G2 [G3 G4]]; [discriminate|]. rewrite G2 in K2. injection K2 as <-. rewrite G3 in *. injection S1 as <-. cbn [bind].
      pose proof HE as [Hs [Hs' _]].
      assert (N : ndim x' = ndim x) by (unfold ndim; now rewrite Hs). assert (N' : ndim X = ndim x) by (unfold ndim; now rewrite Hs'). rewrite N in A1. rewrite N', A1. cbn [bind].
      destruct (pass_err3 e c x x' X u x1 a' (b :: k) s He Hc ltac:(intros b0 I0; apply (Hk (b :: k)); auto; now left) (axis_nat_lt _ _ _ A1) HE U1 M1) as [u0 [y0 [U0 [Y0 [V1 [V2 [V3 [V4 V5]]]]]]]].
      rewrite V1, V3. cbn [bind]. rewrite G2. cbn [bind]. rewrite V2, V4. cbn [bind].
      destruct (IH (i + 1) y0 x1 Y0 y' kers sts (fmul c (fpow (fadd f1 e) (length (b :: k) + 1)))) as [y [Y [Y1 [Y2 Y3]]]]; auto; try lia.
      { replace (@f1 F) with (fmul (@f1 F) f1) at 1 by ring. apply mul_le; auto; [apply fle_01|eapply fle_trans; [apply fle_01|exact Hc]|now apply pow_ge1]. }
      exists y, Y. split; [exact Y1|]. split; [exact Y2|]. cbn [roundings]. rewrite pow_add.
      now replace (fmul c (fmul (fpow (fadd f1 e) (length (b :: k) + 1)) (fpow (fadd f1 e) (roundings kers))))
        with (fmul (fmul c (fpow (fadd f1 e) (length (b :: k) + 1))) (fpow (fadd f1 e) (roundings kers))) by ring.
Qed.
Lemma majorant_errs (x X : T) : majorant x X -> errs3 f1 x x X.
Proof.
  intros [S H]. split; [auto|]. split; [auto|]. intros j Vj. split; [|auto]. replace (fsub (at_ x j) (at_ x j)) with (@f0 F) by ring. rewrite fabs_zero.
  replace (fmul (fsub (@f1 F) f1) (at_ X j)) with (@f0 F) by ring. apply fle_refl.
Qed.
Lemma forward_err3 e fuel junk m (x xp X Xp y' : T) ax al m' kers sts : fle f0 e -> on_axes x ax al -> shp X = shp x -> pool_par F m (length al) kers sts -> (forall k b, In k kers -> In b k -> fle f0 b) ->
  pool_pad fuel junk m x (AxSeq (map Z.of_nat al)) = (m', Ok xp) -> pool_pad fuel junk m X (AxSeq (map Z.of_nat al)) = (m', Ok Xp) ->
  pl_size m' = pl_size m -> pl_stride m' = pl_stride m -> pl_kernel m' = pl_kernel m ->
  majorant xp Xp -> fl_forward e fuel junk m x ax y' ->
  exists y Y, snd (sep_forward fuel junk m x ax) = Ok y /\ snd (sep_forward fuel junk m X ax) = Ok Y /\ errs3 (fpow (fadd f1 e) (roundings kers)) y' y Y.
Proof.
  intros He [A1 A2 A3] HX [P1 [P2 [P3 P4]]] Hk HP HP' H1 H2 H3 HB [al' [m1 [xp' [C1 [C0 [C2 C3]]]]]]. rewrite A1 in C1. injection C1 as <-. rewrite HP in C2. injection C2 as <- <-.
  assert (N : ndim X = ndim x) by (unfold ndim; now rewrite HX).
  unfold sep_forward. rewrite N, A1. assert (O : (pl_ndim m =? 0) || (pl_ndim m =? Z.of_nat (length (map Z.of_nat al))) = true) by (apply orb_true_iff; rewrite !Z.eqb_eq; tauto).
  rewrite O, HP, HP'. cbn [snd bind].
  destruct (loop_err3 e m' He (map Z.of_nat al) 0 xp xp Xp y' kers sts f1) as [y [Y [Y1 [Y2 Y3]]]]; auto; try (rewrite map_length; auto).
  { apply fle_refl. }
  { intros r Hr. destruct (P4 r Hr) as [Q1 [Q2 [Q3 Q4]]]. unfold step_ok. rewrite H1, H2, H3. cbn [Z.add]. split; auto. }
  { now apply majorant_errs. }
  exists y, Y. split; [exact Y1|]. split; [exact Y2|]. now replace (fmul f1 (fpow (fadd f1 e) (roundings kers))) with (fpow (fadd (@f1 F) e) (roundings kers)) in Y3 by ring.
Qed.
Theorem rel_valid e fuel junk (m : pool F) (x X y' : T) ax al kers sts : fle f0 e -> on_axes x ax al -> built (length al) kers sts None m ->
  (forall k b, In k kers -> In b k -> fle f0 b) -> majorant x X -> fl_forward e fuel junk m x ax y' ->
  exists y Y, snd (sep_forward fuel junk m x ax) = Ok y /\ snd (sep_forward fuel junk m X ax) = Ok Y /\ shp y' = shp y /\ shp Y = shp y /\
    forall i, valid (shp y) i -> fle (fabs (fsub (at_ y' i) (at_ y i))) (fmul (fsub (fpow (fadd f1 e) (roundings kers)) f1) (at_ Y i)).
Proof.
  intros He OA B0 Hk HM HF. destruct (built_par _ _ _ _ _ _ B0) as [PP [Pd _]].
  assert (HP : forall t : T, ndim t = ndim x -> pool_pad fuel junk m t (AxSeq (map Z.of_nat al)) = (m, Ok t)).
  { intros t Ht. unfold pool_pad. destruct OA as [A1 A2 A3]. rewrite Ht, check_axes_seq_nat by auto. now rewrite Pd. }
  pose proof HM as [S _].
  destruct (forward_err3 e fuel junk m x x X X y' ax al m kers sts) as [y [Y [Y1 [Y2 [Y3 [Y4 Y5]]]]]]; auto.
  { apply HP. unfold ndim. now rewrite S. }
  exists y, Y. do 4 (split; auto). intros i Vi. apply (Y5 i Vi).
Qed.
Ltac pick H Hn := destruct Hn as [Hn|Hn]; [|discriminate]; apply H.
Lemma preserves_majorant : preserves F (par_of plain_mode) (fun a b _ => fle (fabs a) b).
Proof.
  unfold preserves, par_of, plain_mode. intros q e n f h k t He Hl Hn Hb Ha Ht H. destruct (ap_mode q) eqn:Em; simpl in He; try contradiction; injection He as <-.
  - pick H Hn. lia.
  - pick H Hn. apply Z.mod_pos_bound. lia.
  - unfold ext_periodize, ext_circular. destruct Hn as [Hn|]; [|discriminate].
    assert (0 <= t mod (n + n mod 2)) by (apply Z.mod_pos_bound; pose proof (Z.mod_pos_bound n 2); lia). zcase; apply H; lia.
  - unfold ext_symmetric. cbv zeta. destruct Hn as [Hn|]; [|discriminate]. pose proof (Z.mod_pos_bound t (2 * n)). zcase; apply H; lia.
  - unfold ext_reflect. cbv zeta. destruct Hn as [Hn|]; [|discriminate]. destruct (Z.eqb_spec n 1); [apply H; lia|].
    pose proof (Z.mod_pos_bound t (2 * n - 2)). zcase; apply H; lia.
  - unfold ext_constant. destruct Hl as [L1 L2]. repeat zcase; auto; try (rewrite fabs_pos; auto; apply fle_refl); apply H; lia.
Qed.
(** The padded image of a call that keeps the size. *)
Lemma same_pool_pad fuel junk (m : pool F) (x : T) ax al kers sts p ms : built (length al) kers sts (Some p) m -> same_call F fuel p x ax al ms kers sts ->
  exists ws xp, length ws = length al /\ (forall r, (r < length al)%nat -> is_same_width (klen (nth r kers [])) (nth r sts 1) (nth (nth r al 0%nat) (shp x) 0) (nth r ws (0, 0))) /\
    pad_call fuel (with_width p ws) x ax al /\ all_fine F (with_width p ws) x al /\ no_empty_mode F (with_width p ws) al /\
    padder_forward fuel junk (with_width p ws) x ax = Ok xp /\ pool_pad fuel junk m x (AxSeq (map Z.of_nat al)) = (set_padder m (with_width p ws), Ok xp).
Proof.
  intros B0 SC. destruct (built_par _ _ _ _ _ _ B0) as [PP [Hp [He1 [He2 _]]]].
  destruct (sep_forward_same F fuel junk m x ax al kers sts p ms PP He1 He2 Hp SC) as [ws [xp [y [X1 [X2 [X3 [X4 [X5 [X6 [X7 [X8 _]]]]]]]]]]].
  exists ws, xp. do 6 (split; auto). pose proof SC as [OA N0 _ _ SS PF _ _]. pose proof OA as [A1 A2 A3].
  pose proof X8 as X. unfold sep_forward in X. rewrite A1 in X. destruct (_ || _); [|discriminate].
  destruct (pool_pad fuel junk m x (AxSeq (map Z.of_nat al))) as [m' r] eqn:Q. destruct r as [xp'|]; [|discriminate]. cbn [bind] in X. assert (M : m' = set_padder m (with_width p ws)) by congruence. clear X.
  f_equal; [exact M|]. unfold pool_pad in Q. rewrite check_axes_seq_nat in Q by auto. rewrite Hp in Q. destruct (mapM _ _) as [ish|]; [|discriminate].
  destruct (to_same _ _ _ _) as [p' r]. destruct r as [t|]; [|discriminate]. cbn [bind] in Q. injection Q as Q1 Q2. rewrite <- Q1 in M. assert (M' : p' = with_width p ws) by (apply (f_equal (@pl_padder F)) in M; cbn in M; congruence).
  subst p'. rewrite (padder_forward_axes F fuel junk _ x _ ax) in Q2 by (rewrite A1; apply check_axes_seq_nat; auto). congruence.
Qed.
Lemma rel_same_errs e fuel junk (m : pool F) (x X y' : T) ax al kers sts p ms : fle f0 e -> built (length al) kers sts (Some p) m ->
  same_call F fuel p x ax al ms kers sts -> every_axis (length al) p plain_mode ->
  (forall k b, In k kers -> In b k -> fle f0 b) -> majorant x X -> fl_forward e fuel junk m x ax y' ->
  exists y Y, snd (sep_forward fuel junk m x ax) = Ok y /\ snd (sep_forward fuel junk m X ax) = Ok Y /\ errs3 (fpow (fadd f1 e) (roundings kers)) y' y Y.
Proof.
  intros He B0 SC EA Hk HM HF. pose proof HM as [S HM']. destruct (built_par _ _ _ _ _ _ B0) as [PP _].
  destruct (same_pool_pad fuel junk m x ax al kers sts p ms B0 SC) as [ws [xp [W1 [W2 [W3 [W4 [W5 [W6 W7]]]]]]]].
  destruct (same_pool_pad fuel junk m X ax al kers sts p ms B0 (same_call_shape _ _ _ _ _ _ _ _ _ _ S SC)) as [ws' [Xp [V1 [V2 [V3 [V4 [V5 [V6 V7]]]]]]]].
  pose proof SC as [OA N0 _ _ SS PF _ _]. pose proof OA as [A1 A2 A3].
  assert (ws' = ws). { apply list_ext with (d := (0,0)); [lia|]. intros r Hr. eapply same_width_unique; [apply (SS r)|apply (V2 r)|rewrite S; apply (W2 r)]; lia. } subst ws'.
  assert (R : related (fun a b _ : F => fle (fabs a) b) x X x) by (split; [|split]; auto).
  destruct (forward_rel F (par_of plain_mode) (fun a b _ => fle (fabs a) b) fuel junk (with_width p ws) x X x ax al) as [x1 [x2 [x3 [E1 [E2 [_ [R1 [_ R3]]]]]]]]; auto.
  { apply preserves_majorant. }
  { eapply every_axis_par; eauto. }
  rewrite W6 in E1. injection E1 as <-. rewrite V6 in E2. injection E2 as <-.
  apply (forward_err3 e fuel junk m x xp X Xp y' ax al (set_padder m (with_width p ws)) kers sts); auto. split; auto.
Qed.
Theorem rel_same e fuel junk (m : pool F) (x X y' : T) ax al kers sts p ms : fle f0 e -> built (length al) kers sts (Some p) m ->
  same_call F fuel p x ax al ms kers sts -> every_axis (length al) p plain_mode ->
  (forall k b, In k kers -> In b k -> fle f0 b) -> majorant x X -> fl_forward e fuel junk m x ax y' ->
  exists y Y, snd (sep_forward fuel junk m x ax) = Ok y /\ snd (sep_forward fuel junk m X ax) = Ok Y /\ shp y' = shp y /\ shp Y = shp y /\
    forall i, valid (shp y) i -> fle (fabs (fsub (at_ y' i) (at_ y i))) (fmul (fsub (fpow (fadd f1 e) (roundings kers)) f1) (at_ Y i)).
Proof.
  intros He B0 SC EA Hk HM HF. destruct (rel_same_errs e fuel junk m x X y' ax al kers sts p ms He B0 SC EA Hk HM HF) as [y [Y [Y1 [Y2 [Y3 [Y4 Y5]]]]]].
  exists y, Y. do 4 (split; auto). intros i Vi. apply (Y5 i Vi).
Qed.
Lemma majorant_self (x : T) : (forall i, valid (shp x) i -> fle f0 (at_ x i)) -> majorant x x.
Proof. intros H. split; auto. intros i Vi. rewrite fabs_pos; auto. apply fle_refl. Qed.
(** Images without negative pixels: the error is relative. *)
Theorem rel_valid_nonneg e fuel junk (m : pool F) (x y' : T) ax al kers sts : fle f0 e -> on_axes x ax al -> built (length al) kers sts None m ->
  (forall k b, In k kers -> In b k -> fle f0 b) -> (forall i, valid (shp x) i -> fle f0 (at_ x i)) -> fl_forward e fuel junk m x ax y' ->
  exists y, snd (sep_forward fuel junk m x ax) = Ok y /\ shp y' = shp y /\
    forall i, valid (shp y) i -> fle (fabs (fsub (at_ y' i) (at_ y i))) (fmul (fsub (fpow (fadd f1 e) (roundings kers)) f1) (at_ y i)).
Proof.
  intros He OA B0 Hk HM HF. destruct (rel_valid e fuel junk m x x y' ax al kers sts He OA B0 Hk (majorant_self x HM) HF) as [y [Y [Y1 [Y2 [Y3 [_ Y5]]]]]].
  rewrite Y1 in Y2. injection Y2 as <-. eauto.
Qed.
Theorem rel_same_nonneg e fuel junk (m : pool F) (x y' : T) ax al kers sts p ms : fle f0 e -> built (length al) kers sts (Some p) m ->
  same_call F fuel p x ax al ms kers sts -> every_axis (length al) p plain_mode ->
  (forall k b, In k kers -> In b k -> fle f0 b) -> (forall i, valid (shp x) i -> fle f0 (at_ x i)) -> fl_forward e fuel junk m x ax y' ->
  exists y, snd (sep_forward fuel junk m x ax) = Ok y /\ shp y' = shp y /\
    forall i, valid (shp y) i -> fle (fabs (fsub (at_ y' i) (at_ y i))) (fmul (fsub (fpow (fadd f1 e) (roundings kers)) f1) (at_ y i)).
Proof.
  intros He B0 SC EA Hk HM HF. destruct (rel_same e fuel junk m x x y' ax al kers sts p ms He B0 SC EA Hk (majorant_self x HM) HF) as [y [Y [Y1 [Y2 [Y3 [_ Y5]]]]]].
  rewrite Y1 in Y2. injection Y2 as <-. eauto.
Qed.
End RR.
