(** How far rounding can take an edge filter from the exact result (C146). *)
From Verif Require Export RoundEdgeModel EdgeFlip EdgeAffine RoundProofs.
Open Scope Z_scope.

(** Modes that copy or negate pixels; constants within the bound. *)
Definition copy_mode {F : ofield} (B : F) (m : mode F) (cv ev : F * F) : Prop :=
  match m with
  | MReplicate | MCircular | MPeriodize | MSymmetric | MReflect | MAntisymmetric => True
  | MConstant => fle (fabs (fst cv)) B /\ fle (fabs (snd cv)) B
  | _ => False
  end.
(** A Padder with single items and such a mode. *)
Definition copy_padder {F : ofield} (B : F) (p : padder F) (m : mode F) : Prop :=
  exists c e, p_const p = NItem c /\ p_end p = NItem e /\ copy_mode B m c e.
(** The roundings of one pixel on the three ways of _conv_edge. *)
Definition edge_roundings {F : ofield} (trunc : F -> Z) (ker : list F) : nat :=
  if zlist_eqb (map trunc ker) [-1; 0; 1] then 1
  else if zlist_eqb (map trunc ker) [1; -2; 1] then 2
  else length ker + 1.

Section RE.
Variable F : ofield.
Add Field Fre : (f_field F).
Notation T := (tensor F).
Variable trunc : F -> Z.

Lemma err_opp c S v w : errs F c S v w -> errs F c S (fopp v) (fopp w).
Proof.
  intros [E1 E2]. split; [|now rewrite fabs_opp]. replace (fsub (fopp v) (fopp w)) with (fopp (fsub v w)) by ring. now rewrite fabs_opp.
Qed.
Lemma err_sub c S S' v v' w w' : errs F c S v w -> errs F c S' v' w' -> errs F c (fadd S S') (fsub v v') (fsub w w').
Proof.
  intros H H'. replace (fsub v v') with (fadd v (fopp v')) by ring. replace (fsub w w') with (fadd w (fopp w')) by ring.
  apply err_add; auto. now apply err_opp.
Qed.
Lemma err_const c S v : fle f1 c -> fle (fabs v) S -> errs F c S v v.
Proof.
  intros Hc H. split; auto. replace (fsub v v) with (@f0 F) by ring. rewrite fabs_zero. apply fmul_nonneg.
  - now apply fle_sub1.
  - eapply fle_trans; [apply fabs_nonneg|exact H].
Qed.
Ltac pick H Hn := destruct Hn as [Hn|Hn]; [|discriminate]; apply H.
Lemma preserves_err C S : fle f1 C -> preserves F (par_of (copy_mode S)) (fun a b _ => errs F C S b a).
Proof.
  intros HC. unfold preserves, par_of, copy_mode. intros q e n f h k t He Hl Hn Hb Ha Ht H. destruct (ap_mode q) eqn:Em; simpl in He; try contradiction; injection He as <-.
  - pick H Hn. lia.
  - pick H Hn. apply Z.mod_pos_bound. lia.
  - unfold ext_periodize, ext_circular. destruct Hn as [Hn|]; [|discriminate].
    assert (0 <= t mod (n + n mod 2)) by (apply Z.mod_pos_bound; pose proof (Z.mod_pos_bound n 2); lia). zcase; apply H; lia.
  - unfold ext_symmetric. cbv zeta. destruct Hn as [Hn|]; [|discriminate]. pose proof (Z.mod_pos_bound t (2 * n)). zcase; apply H; lia.
  - unfold ext_reflect. cbv zeta. destruct Hn as [Hn|]; [|discriminate]. destruct (Z.eqb_spec n 1); [apply H; lia|].
    pose proof (Z.mod_pos_bound t (2 * n - 2)). zcase; apply H; lia.
  - unfold ext_antisymmetric. cbv zeta. destruct Hn as [Hn|]; [|discriminate]. pose proof (Z.mod_pos_bound t (2 * n)). zcase; [apply H; lia|]. apply err_opp. apply H; lia.
  - unfold ext_constant. destruct Hl as [L1 L2]. repeat zcase; try (apply H; lia); now apply err_const.
Qed.

(** *** a filter on a perturbed image *)
Lemma pad_seq fuel junk (m : pool F) (x : T) ax al : check_axes (Z.of_nat (ndim x)) ax = Ok (map Z.of_nat al) -> NoDup al ->
  (forall b, In b al -> (b < ndim x)%nat) ->
  pool_pad fuel junk m x (AxSeq (map Z.of_nat al)) = pool_pad fuel junk m x ax.
Proof.
  intros A1 A3 A2. unfold pool_pad. rewrite A1. rewrite check_axes_seq_nat by auto. destruct (pl_padder m) as [p|]; [|reflexivity].
  destruct (mapM _ _) as [ns|]; [|reflexivity]. destruct (to_same _ _ _ _) as [p' r]. destruct r as [[]|]; [|reflexivity]. cbn [bind].
  rewrite (padder_forward_axes F fuel junk p' x (AxSeq (map Z.of_nat al)) ax); [reflexivity|]. rewrite A1. apply check_axes_seq_nat; auto.
Qed.
Lemma round_rel e fuel junk (m : pool F) (x x' y' : T) ax al kers sts p ms c S : fle f0 e -> fle f1 c -> built (length al) kers sts (Some p) m ->
  same_call F fuel p x ax al ms kers sts -> every_axis (length al) p (copy_mode S) -> shp x' = shp x ->
  (forall j, valid (shp x) j -> errs F c S (at_ x' j) (at_ x j)) -> fl_forward e fuel junk m x' ax y' ->
  exists y, snd (sep_forward fuel junk m x ax) = Ok y /\ shp y' = shp y /\
    forall j, valid (shp y) j -> errs F (fmul c (fpow (fadd f1 e) (roundings kers))) (fmul (gain kers) S) (at_ y' j) (at_ y j).
Proof.
  intros He Hc B0 SC EA Sx HE HF. destruct (built_par _ _ _ _ _ _ B0) as [PP [Hp [He1 [He2 _]]]].
  pose proof (same_call_shape F fuel p x x' ax al ms kers sts Sx SC) as SC'.
  pose proof SC as [OA N0 _ _ SS PF _ _]. pose proof OA as [A1 A2 A3]. pose proof PP as [P1 [P2 [P3 P4]]].
  assert (N' : ndim x' = ndim x) by (unfold ndim; now rewrite Sx).
  destruct (pool_pad_same F fuel junk m x ax al kers sts p ms PP He1 He2 Hp SC) as [ws [xp [W1 [W2 [W3 [W4 [W5 [W6 [W7 W8]]]]]]]]].
  destruct (pool_pad_same F fuel junk m x' ax al kers sts p ms PP He1 He2 Hp SC') as [vs [xp' [V1 [V2 [V3 [V4 [V5 [V6 [V7 V8]]]]]]]]].
  assert (vs = ws).
  { apply nth_ext with (d := (0, 0)) (d' := (0, 0)); [lia|]. intros r Hr. rewrite V1 in Hr. specialize (W2 r Hr). specialize (V2 r Hr). rewrite Sx in V2.
    eapply same_width_unique; [|exact V2|exact W2]. now apply SS. }
  subst vs.
  assert (AL : all_par F (par_of (copy_mode S)) (with_width p ws) al) by (eapply every_axis_par; eauto).
  destruct (forward_rel F (par_of (copy_mode S)) (fun a b _ => errs F c S b a) fuel junk (with_width p ws) x x' x' ax al (preserves_err c S Hc) W3 W4 W5 AL) as [x1 [x2 [x3 [E1 [E2 [_ [R1 [_ R2]]]]]]]].
  { split; [auto|split; auto]. }
  rewrite W6 in E1. rewrite V6 in E2. injection E1 as <-. injection E2 as <-.
  destruct HF as [al' [m1 [xq [C1 [C0 [C2 C3]]]]]]. rewrite N', A1 in C1. injection C1 as <-.
  rewrite (pad_seq fuel junk m x' ax al) in C2 by (rewrite ?N'; auto). rewrite V8 in C2. injection C2 as <- <-.
  destruct (loop_err F e (set_padder m (with_width p ws)) He (map Z.of_nat al) 0 xp xp' y' kers sts c S) as [y [Y1 [Y2 Y3]]]; auto; try (rewrite map_length; auto).
  { intros r Hr. destruct (P4 r Hr) as [Q1 [Q2 [Q3 Q4]]]. unfold step_ok. cbn [set_padder pl_size pl_stride pl_kernel Z.add]. split; auto. }
  exists y. split; [|split; auto]. unfold sep_forward. rewrite A1. rewrite (pad_seq fuel junk m x ax al), W8 by auto.
  destruct C0 as [C0|C0]; rewrite C0, ?map_length.
  - cbn [Z.eqb orb snd bind]. exact Y1.
  - rewrite Z.eqb_refl, orb_true_r. exact Y1.
Qed.
(** Padding widths of earlier calls do not matter. *)
Lemma loop_like e (m m' : pool F) axes : pl_size m = pl_size m' -> pl_stride m = pl_stride m' -> pl_kernel m = pl_kernel m' ->
  forall i (x y : T), fl_loop e m x i axes y -> fl_loop e m' x i axes y.
Proof.
  intros E1 E2 E3. induction axes as [|a axes IH]; intros i x y; cbn [fl_loop]; auto. rewrite <- E1, <- E2, <- E3.
  intros [ks [H1 H2]]. exists ks. split; auto. destruct (ks =? 0); auto.
  destruct H2 as [s [a' [u [k [x' [Q1 [Q2 [Q3 [Q4 [Q5 Q6]]]]]]]]]]. exists s, a', u, k, x'. do 5 (split; auto).
Qed.
Lemma forward_like e fuel junk (m m' : pool F) (x y : T) ax : mlike F m m' -> fl_forward e fuel junk m x ax y -> fl_forward e fuel junk m' x ax y.
Proof.
  intros L [al [m1 [xp [H1 [H2 [H3 H4]]]]]]. exists al, m1, xp. destruct (pool_pad_like F fuel junk m m' x (AxSeq al) L) as [Q1 [_ Q3]].
  pose proof L as [L1 [L2 [L3 [L4 L5]]]]. rewrite H3 in Q1, Q3. cbn [fst snd] in *. split; auto. split; [congruence|]. split; auto.
  rewrite (surjective_pairing (pool_pad fuel junk m' x (AxSeq al))). rewrite <- Q1, <- Q3 by eauto. reflexivity.
Qed.

(** *** _conv_edge *)
Lemma uniform_copy n (p : padder F) m B : uniform p m -> copy_padder B p m -> every_axis n p (copy_mode B).
Proof.
  intros [H1 _] [c [e [H2 [H3 H]]]]. exists (repeat m n), (repeat c n), (repeat e n). rewrite H1, H2, H3. do 3 (split; [reflexivity|]).
  intros r Hr. assert (G : forall A (v d : A), nth r (repeat v n) d = v).
  { intros A v d. apply (repeat_spec n). apply nth_In. now rewrite repeat_length. }
  now rewrite !G.
Qed.
Lemma abs_one : fabs (@f1 F) = f1. Proof. apply fabs_pos, fle_01. Qed.
Lemma abs_central : abs_sum (@central_kernel F) = fadd f1 f1.
Proof.
  unfold abs_sum, central_kernel, ints. cbn [map]. change (fofZ (-1)) with (fopp (@f1 F)). change (fofZ 0) with (@f0 F). change (fofZ 1) with (@f1 F).
  rewrite fabs_opp, fabs_zero, abs_one. unfold wsum. cbn [fold_right]. ring.
Qed.
Lemma abs_laplace : abs_sum (@laplace_kernel F) = fadd (fadd f1 f1) (fadd f1 f1).
Proof.
  unfold abs_sum, laplace_kernel, ints. cbn [map]. change (fofZ (-2)) with (fopp (@fofZ F 2)). change (fofZ 1) with (@f1 F).
  rewrite fabs_opp, abs_one. rewrite (fabs_pos F (fofZ 2)) by (apply fofZ_nonneg; lia). unfold wsum. cbn [fold_right]. unfold fofZ. cbn [fofpos]. ring.
Qed.
Lemma conv_err e fuel junk ker smooth normalize p m shared (g : edge_filter F) (x z' : T) ax al k c B :
  fle f0 e -> edge_init (NItem ker) smooth normalize (Some p) shared = Ok g -> ker <> [] -> In c al ->
  edge_image fuel p m x ax al (k + 1) -> klen ker <= k -> copy_padder B p m -> bounded B x ->
  fl_conv_edge trunc e fuel junk g x (Z.of_nat c) z' ->
  exists z, snd (conv_edge trunc fuel junk g x (Z.of_nat c)) = Ok z /\ shp z' = shp z /\ (forall j, valid (shp z) j -> errs F (fpow (fadd f1 e) (edge_roundings trunc ker)) (fmul (abs_sum (used_kernel trunc ker)) B) (at_ z' j) (at_ z j)) /\ ndim z = ndim x /\ (forall d, (d < ndim x)%nat -> nth d (shp x) 0 <= nth d (shp z) 0 <= nth d (shp x) 0 + 1).
Proof.
  intros He HI Hk Hin EI Hlk CP HB HF. pose proof EI as [[A1 A2 A3] P0 Pos1 U M FU].
  pose proof (edge_image_one F fuel p m x ax al (k + 1) c ker EI Hin ltac:(lia)) as SC.
  destruct (conv_edge_same F trunc fuel junk ker smooth normalize p shared g x c [m] HI Hk SC) as
    [w [xp [z [W1 [W2 [W3 [W4 [W5 [W6 [C1 [C2 [CX [CB [C3 C4]]]]]]]]]]]]]].
  destruct (edge_init_built F _ _ _ _ _ _ HI) as [I1 [I2 [I3 _]]]. destruct (built_par _ _ _ _ _ _ I3) as [PP [Hp [He1 [He2 _]]]].
  destruct (pool_pad_same F fuel junk (ef_edge g) x _ [c] [ker] [1] p [m] PP He1 He2 Hp SC) as [ws [xp0 [V1 [V2 [_ [_ [_ [V6 [_ V8]]]]]]]]].
  assert (ws = [w]).
  { destruct ws as [|w0 [|? ?]]; try discriminate. specialize (V2 0%nat ltac:(cbn; lia)). cbn [nth] in V2.
    f_equal. eapply same_width_unique; [|exact V2|exact W1]; lia. }
  subst ws. rewrite W6 in V6. injection V6 as <-.
  assert (EA : every_axis 1 p (copy_mode B)) by (apply (uniform_copy 1 p m B); auto).
  assert (HX : forall j, valid (shp xp) j -> errs F f1 B (at_ xp j) (at_ xp j)).
  { destruct (forward_rel F (par_of (copy_mode B)) (fun a b _ => errs F f1 B b a) fuel junk (with_width p [w]) x x x (AxInt (Z.of_nat c)) [c] (preserves_err f1 B (fle_refl F f1)) W2 W3 W4) as [x1 [x2 [x3 [E1 [E2 [_ [R1 [_ R2]]]]]]]].
    - eapply (every_axis_par F 1 p [m] [w] [c]); auto; [apply (uniform_for F 1); auto|constructor; [intros []|constructor]].
    - split; [auto|split; auto]. intros j Vj. now apply err_self.
    - rewrite W6 in E1, E2. injection E1 as <-. injection E2 as <-. exact R2. }
  assert (Hc : (c < ndim x)%nat) by auto.
  assert (Nxp : ndim xp = ndim x) by (unfold ndim; rewrite CX; apply upd_length).
  assert (Hcp : (c < ndim xp)%nat) by lia.
  assert (K1 : 1 <= klen ker) by (unfold klen; destruct ker; [congruence|simpl; lia]).
  assert (NN : nonneg_shape F xp).
  { intros d Hd. rewrite CX, nth_upd. destruct (_ && _); [specialize (P0 c Hc); lia|]. apply P0. unfold ndim in *. lia. }
  assert (VX : forall j q, valid (shp z) j -> 0 <= q < klen ker -> valid (shp xp) (upd c (nth c j 0 + q) j)).
  { intros j q Vj Hq. rewrite CX. rewrite C2 in Vj. pose proof (valid_nth _ _ c Vj) as Vn. rewrite upd_length in Vn. unfold ndim in Hc. specialize (Vn Hc).
    rewrite nth_upd_eq in Vn by auto.
    replace (upd c (nth c (shp xp) 0) (shp x)) with (upd c (nth c (shp xp) 0) (upd c (nth c (shp xp) 0 - klen ker + 1) (shp x))) by apply upd_upd.
    apply valid_upd; auto. lia. }
  assert (Szp : shp z = upd c (nth c (shp xp) 0 - klen ker + 1) (shp xp)) by (rewrite C2, CX, upd_upd; reflexivity).
  pose proof (P0 c Hc) as Pc. exists z. split; auto.
  match goal with |- ?P /\ ?Q /\ ?R => cut (P /\ Q); [intros [HP HQ]; split; [exact HP|split; [exact HQ|]]|] end.
  { split; [unfold ndim; rewrite C2; apply upd_length|].
    intros d Hd. rewrite C2, nth_upd. destruct (Nat.eqb_spec c d); cbn [andb]; [|lia]. subst. destruct (Nat.ltb_spec d (length (shp x))); lia. }
  unfold fl_conv_edge in HF. rewrite I1 in HF. unfold edge_roundings, used_kernel in *.
  assert (Fit3 : forall l, zlist_eqb (map trunc ker) l = true -> length l = 3%nat -> klen ker = 3).
  { intros l H L. apply zlist_eqb_spec in H. apply (f_equal (@length Z)) in H. rewrite map_length in H. unfold klen. lia. }
  destruct (zlist_eqb _ [-1; 0; 1]) eqn:Z1; [|destruct (zlist_eqb _ [1; -2; 1]) eqn:Z2].
  - specialize (Fit3 _ Z1 eq_refl). rewrite Fit3 in *. destruct HF as [m1 [xq [hi [lo [F1 [F2 [F3 [d [F4 [F5 F6]]]]]]]]]]. rewrite V8 in F1. injection F1 as <- <-.
    destruct (slice_axis_ok F xp (mkS (Some 2) None 1) c 2 (nth c (shp xp) 0 - 2)) as [hi' [H1 [H2 H3]]]; auto; [apply resolve_hi; lia|].
    destruct (slice_axis_ok F xp (mkS (Some 0) (Some (-2)) 1) c 0 (nth c (shp xp) 0 - 2)) as [lo' [L1 [L2 L3]]]; auto; [apply resolve_lo; lia|].
    rewrite H1 in F2. injection F2 as <-. rewrite L1 in F3. injection F3 as <-.
    destruct (TensorLemmas.tmap2_same fsub hi' lo') as [d' [D1 [D2 D3]]]; [congruence|]. rewrite D1 in F4. injection F4 as <-.
    assert (Sd : shp d' = shp z) by (rewrite D2, H2, Szp; f_equal; lia).
    split; [congruence|]. intros j Vj. assert (Lj : length j = ndim xp) by (rewrite (valid_length _ _ Vj), Szp, upd_length; auto).
    rewrite abs_central. cbn [fpow]. replace (fmul (fadd f1 e) f1) with (fmul f1 (fadd f1 e)) by ring.
    replace (fmul (fadd f1 f1) B) with (fadd B B) by ring.
    apply (err_round F e f1 _ (at_ d' j)); auto; [|apply F6; congruence].
    rewrite C4 by auto. unfold central_kernel, ints. cbn [map]. rewrite line_corr3. rewrite D3 by congruence. rewrite H3, L3 by auto.
    pose proof (HX _ (VX j 2 Vj ltac:(lia))) as G2. pose proof (HX _ (VX j 0 Vj ltac:(lia))) as G0. rewrite Z.add_0_r in G0.
    rewrite (Z.add_comm 2), (Z.add_comm 0), !Z.add_0_r.
    match goal with |- errs _ _ _ ?a ?b => replace b with a by (unfold fofZ; cbn [fofpos]; ring) end.
    now apply err_sub.
  - specialize (Fit3 _ Z2 eq_refl). rewrite Fit3 in *. destruct HF as [m1 [xq [hi [lo [mid [s [t [F1 [F2 [F3 [[d [F4 [F5 F6]]] [F7 [[F8 F9] [d2 [F10 [F11 F12]]]]]]]]]]]]]]]]. rewrite V8 in F1. injection F1 as <- <-.
    destruct (slice_axis_ok F xp (mkS (Some 2) None 1) c 2 (nth c (shp xp) 0 - 2)) as [hi' [H1 [H2 H3]]]; auto; [apply resolve_hi; lia|].
    destruct (slice_axis_ok F xp (mkS (Some 0) (Some (-2)) 1) c 0 (nth c (shp xp) 0 - 2)) as [lo' [L1 [L2 L3]]]; auto; [apply resolve_lo; lia|].
    destruct (slice_axis_ok F xp (mkS (Some 1) (Some (-1)) 1) c 1 (nth c (shp xp) 0 - 2)) as [mid' [M1 [M2 M3]]]; auto; [apply resolve_mid; lia|].
    rewrite H1 in F2. injection F2 as <-. rewrite L1 in F3. injection F3 as <-. rewrite M1 in F7. injection F7 as <-.
    destruct (TensorLemmas.tmap2_same fadd hi' lo') as [d' [D1 [D2 D3]]]; [congruence|]. rewrite D1 in F4. injection F4 as <-.
    assert (Sd : shp d' = shp z) by (rewrite D2, H2, Szp; f_equal; lia). cbn [tmap shp at_] in F8, F9.
    assert (Sm : shp mid' = shp z) by (rewrite M2, Szp; f_equal; lia).
    destruct (TensorLemmas.tmap2_same fsub s t) as [d'' [B1 [B2 B3]]]; [congruence|]. rewrite B1 in F10. injection F10 as <-.
    assert (Sd2 : shp d'' = shp z) by congruence.
    split; [congruence|]. intros j Vj. assert (Lj : length j = ndim xp) by (rewrite (valid_length _ _ Vj), Szp, upd_length; auto).
    rewrite abs_laplace. cbn [fpow]. replace (fmul (fadd f1 e) (fmul (fadd f1 e) f1)) with (fmul (fmul f1 (fadd f1 e)) (fadd f1 e)) by ring.
    replace (fmul (fadd (fadd f1 f1) (fadd f1 f1)) B) with (fadd (fadd B B) (fadd B B)) by ring.
    apply (err_round F e _ _ (at_ d'' j)); auto; [|apply F12; congruence].
    rewrite C4 by auto. unfold laplace_kernel, ints. cbn [map]. rewrite line_corr3. rewrite B3 by congruence.
    pose proof (HX _ (VX j 2 Vj ltac:(lia))) as G2. pose proof (HX _ (VX j 1 Vj ltac:(lia))) as G1. pose proof (HX _ (VX j 0 Vj ltac:(lia))) as G0. rewrite Z.add_0_r in G0.
    match goal with |- errs _ _ _ _ ?b => replace b with (fsub (fadd (at_ hi' j) (at_ lo' j)) (fmul (fofZ 2) (at_ mid' j))) end.
    2:{ rewrite H3, L3, M3 by auto. rewrite (Z.add_comm 2), (Z.add_comm 1), (Z.add_comm 0), !Z.add_0_r. unfold fofZ; cbn [fofpos]; ring. }
    apply err_sub.
    + apply (err_round F e f1 _ (at_ d' j)); auto; [|apply F6; congruence]. rewrite D3 by congruence.
      apply err_add; rewrite ?H3, ?L3 by auto; rewrite (Z.add_comm _ (nth c j 0)), ?Z.add_0_r; auto.
    + apply (err_round F e f1 _ (fmul (fofZ 2) (at_ mid' j))); auto; [|apply F9; congruence].
      replace (fmul (fofZ 2) (at_ mid' j)) with (fadd (at_ mid' j) (at_ mid' j)) by (unfold fofZ; cbn [fofpos]; ring).
      apply err_add; rewrite M3 by auto; rewrite (Z.add_comm _ (nth c j 0)); auto.
  - destruct (round_rel e fuel junk (ef_edge g) x x z' (AxInt (Z.of_nat c)) [c] [ker] [1] p [m] f1 B He (fle_refl F f1) I3 SC EA eq_refl (err_self F B x HB) HF) as [y [Y1 [Y2 Y3]]].
    unfold conv_edge in C1. rewrite I1, Z1, Z2 in C1. destruct (sep_forward _ _ _ _ _) as [m1 r]. cbn [snd] in *. rewrite C1 in Y1. injection Y1 as <-.
    split; auto. intros j Vj. specialize (Y3 j Vj). destruct ker as [|b ker]; [congruence|]. cbn [roundings gain] in Y3. rewrite Nat.add_0_r in Y3.
    replace (fmul f1 (fpow (fadd f1 e) (length (b :: ker) + 1))) with (fpow (fadd (@f1 F) e) (length (b :: ker) + 1)) in Y3 by ring.
    replace (fmul (fmul (abs_sum (b :: ker)) f1) B) with (fmul (abs_sum (b :: ker)) B) in Y3 by ring. exact Y3.
Qed.

(** *** component *)
Lemma component_err e fuel junk ker smooth raw normalize p m shared (g : edge_filter F) (x y' : T) ea ax ax' c al k B :
  fle f0 e -> edge_init (NItem ker) smooth normalize (Some p) shared = Ok g -> ker <> [] ->
  check_axes (Z.of_nat (ndim x)) ea = Ok [Z.of_nat c] -> In c al ->
  edge_image fuel p m x ax al (k + 1) -> check_axes (Z.of_nat (ndim x)) ax' = Ok (map Z.of_nat al) -> klen ker <= k ->
  expand (length (without c al)) smooth = Some raw -> (forall s, In s raw -> klen s <= k) ->
  copy_padder B p m -> copy_padder (fmul (abs_sum (used_kernel trunc ker)) B) p m -> bounded B x ->
  fl_component trunc e fuel junk g x ea ax' y' ->
  exists y, snd (component trunc fuel junk g x ea ax') = Ok y /\ shp y' = shp y /\ forall j, valid (shp y) j ->
    errs F (fpow (fadd f1 e) (edge_roundings trunc ker + roundings (smoothers normalize raw)))
      (fmul (gain (smoothers normalize raw)) (fmul (abs_sum (used_kernel trunc ker)) B)) (at_ y' j) (at_ y j).
Proof.
  intros He HI Hk Ha Hin EI Hax Hlk Hr Hs CP CP2 HB [a [sa [z' [Q1 [Q2 [Q3 Q4]]]]]].
  assert (K0 : 0 <= k) by (unfold klen in Hlk; lia). pose proof EI as [[A1 A2 A3] _ _ U _ _].
  rewrite Ha in Q1. injection Q1 as <-. rewrite Hax in Q2. injection Q2 as <-. rewrite filter_nat in Q4.
  destruct (conv_err e fuel junk ker smooth normalize p m shared g x z' ax al k c B He HI Hk Hin EI Hlk CP HB Q3) as [z [C1 [C2 [C3 [Nd Dn]]]]].
  destruct (edge_init_built F _ _ _ _ _ _ HI) as [_ [_ [_ I4]]]. specialize (I4 _ _ Hr).
  pose proof (edge_image_rest F fuel p m z _ al k c (smoothers normalize raw) (edge_image_shape F _ _ _ _ _ _ _ _ EI Nd Dn) Hin K0 (smoothers_len F normalize raw k Hs)) as SC2.
  destruct (conv_edge_like F trunc fuel junk g g x (Z.of_nat c) (elike_refl F g) (init_coh F _ _ _ _ _ _ HI)) as [_ [_ [_ [_ L]]]].
  apply (forward_like e fuel junk _ (ef_smooth g)) in Q4; [|apply mlike_sym; exact L].
  destruct (round_rel e fuel junk (ef_smooth g) z z' y' _ (without c al) _ _ p _ (fpow (fadd f1 e) (edge_roundings trunc ker)) (fmul (abs_sum (used_kernel trunc ker)) B) He (pow_ge1 F e _ He) I4 SC2) as [y [Y1 [Y2 Y3]]]; auto.
  { apply (uniform_copy _ p m); auto. }
  exists y. rewrite (component_smooths F trunc fuel junk ker smooth normalize (Some p) shared g x z ea ax' c al) by auto. split; auto. split; auto.
  intros j Vj. rewrite pow_add. auto.
Qed.
Theorem component_rounding e fuel junk ker smooth raw normalize p m shared (g : edge_filter F) (x y' : T) ea ax ax' c al k B :
  fle f0 e -> edge_init (NItem ker) smooth normalize (Some p) shared = Ok g -> ker <> [] ->
  check_axes (Z.of_nat (ndim x)) ea = Ok [Z.of_nat c] -> In c al ->
  edge_image fuel p m x ax al (k + 1) -> check_axes (Z.of_nat (ndim x)) ax' = Ok (map Z.of_nat al) -> klen ker <= k ->
  expand (length (without c al)) smooth = Some raw -> (forall s, In s raw -> klen s <= k) ->
  copy_padder B p m -> copy_padder (fmul (abs_sum (used_kernel trunc ker)) B) p m -> bounded B x ->
  fl_component trunc e fuel junk g x ea ax' y' ->
  exists y, snd (component trunc fuel junk g x ea ax') = Ok y /\
    within (fmul (fsub (fpow (fadd f1 e) (edge_roundings trunc ker + roundings (smoothers normalize raw))) f1)
                 (fmul (gain (smoothers normalize raw)) (fmul (abs_sum (used_kernel trunc ker)) B))) y' y.
Proof.
  intros He HI Hk Ha Hin EI Hax Hlk Hr Hs CP CP2 HB HF.
  destruct (component_err e fuel junk ker smooth raw normalize p m shared g x y' ea ax ax' c al k B He HI Hk Ha Hin EI Hax Hlk Hr Hs CP CP2 HB HF) as [y [Y1 [Y2 Y3]]].
  exists y. split; auto. now apply err_within.
Qed.
(** The exact result is one of the possible ones. *)
Lemma rounded_refl e (d : T) : fle f0 e -> rounded e d d.
Proof. intros He. split; auto. intros j _. now apply rounds_refl. Qed.
(** On the fast ways the last operation may be rounded. *)
Lemma conv_last e fuel junk (g : edge_filter F) (x c c' : T) a : fle f0 e -> snd (conv_edge trunc fuel junk g x a) = Ok c ->
  zlist_eqb (map trunc (ef_kernel g)) [-1; 0; 1] = true \/ zlist_eqb (map trunc (ef_kernel g)) [1; -2; 1] = true \/ c' = c ->
  rounded e c c' -> fl_conv_edge trunc e fuel junk g x a c'.
Proof.
  intros He C Hz R. unfold fl_conv_edge, conv_edge, fl_map2 in *. destruct (zlist_eqb _ [-1; 0; 1]); [|destruct (zlist_eqb _ _)].
  - destruct (pool_pad _ _ _ _ _) as [m r]. cbn [snd] in C. destruct r as [xp|]; [|discriminate]. cbn [bind] in C.
    destruct (slice_axis xp (mkS (Some 2) None 1) a) as [hi|] eqn:E1; [|discriminate]. cbn [bind] in C.
    destruct (slice_axis xp (mkS (Some 0) (Some (-2)) 1) a) as [lo|] eqn:E2; [|discriminate]. cbn [bind] in C.
    exists m, xp, hi, lo. do 3 (split; auto). exists c. auto.
  - destruct (pool_pad _ _ _ _ _) as [m r]. cbn [snd] in C. destruct r as [xp|]; [|discriminate]. cbn [bind] in C.
    destruct (slice_axis xp (mkS (Some 2) None 1) a) as [hi|] eqn:E1; [|discriminate]. cbn [bind] in C.
    destruct (slice_axis xp (mkS (Some 0) (Some (-2)) 1) a) as [lo|] eqn:E2; [|discriminate]. cbn [bind] in C.
    destruct (tmap2 fadd hi lo) as [s|] eqn:E4; [|discriminate]. cbn [bind] in C.
    destruct (slice_axis xp (mkS (Some 1) (Some (-1)) 1) a) as [mid|] eqn:E3; [|discriminate]. cbn [bind] in C.
    exists m, xp, hi, lo, mid, s, (tmap (fmul (fofZ 2)) mid). do 3 (split; auto). split; [exists s; split; auto; now apply rounded_refl|]. split; auto.
    split; [now apply rounded_refl|]. exists c. auto.
  - destruct Hz as [Hz|[Hz|Hz]]; try discriminate. subst c'. apply forward_exact; auto. destruct (sep_forward _ _ _ _ _) as [m r]. exact C.
Qed.
Lemma component_last e fuel junk (g : edge_filter F) (x c c' y : T) ea ax a sa : fle f0 e ->
  check_axes (Z.of_nat (ndim x)) ea = Ok [a] -> check_axes (Z.of_nat (ndim x)) ax = Ok sa ->
  snd (conv_edge trunc fuel junk g x a) = Ok c ->
  zlist_eqb (map trunc (ef_kernel g)) [-1; 0; 1] = true \/ zlist_eqb (map trunc (ef_kernel g)) [1; -2; 1] = true \/ c' = c ->
  rounded e c c' ->
  snd (sep_forward fuel junk (ef_smooth (fst (conv_edge trunc fuel junk g x a))) c' (AxSeq (filter (fun b => negb (b =? a)) sa))) = Ok y ->
  fl_component trunc e fuel junk g x ea ax y.
Proof. intros He Ha Hs C Hz R H. exists a, sa, c'. split; auto. split; auto. split; [eapply conv_last; eauto|]. now apply forward_exact. Qed.
Theorem component_exact e fuel junk (g : edge_filter F) (x y : T) ea ax : fle f0 e ->
  snd (component trunc fuel junk g x ea ax) = Ok y -> fl_component trunc e fuel junk g x ea ax y.
Proof.
  intros He. unfold component. destruct (check_axes _ ea) as [[|a [|? ?]]|] eqn:E1; try discriminate. destruct (check_axes _ ax) as [sa|] eqn:E2; [|discriminate]. cbv zeta.
  destruct (conv_edge trunc fuel junk g x a) as [g1 r] eqn:C. destruct r as [c|]; [|discriminate].
  intros H. apply (component_last e fuel junk g x c c y ea ax a sa); auto; try (rewrite C; auto); [now apply rounded_refl|].
  cbn [fst]. destruct (sep_forward _ _ _ _ _) as [m r]. exact H.
Qed.

(** *** the named filters *)
Lemma copy_double (p : padder F) m B B' : B' = fadd B B \/ B' = fadd (fadd B B) (fadd B B) -> copy_padder B p m -> copy_padder B' p m.
Proof.
  intros HB [c [e [H1 [H2 H3]]]]. exists c, e. do 2 (split; auto). destruct m; auto. destruct H3 as [H3 H4].
  assert (B0 : fle f0 B) by (eapply fle_trans; [apply fabs_nonneg|exact H3]).
  assert (B1 : forall D, fle f0 D -> fle D (fadd D D)) by (intros D HD; apply (sub_le F f0 D); auto; ring).
  assert (B2 : fle B (fadd B B)) by auto. assert (B3 : fle f0 (fadd B B)) by (eapply fle_trans; eauto).
  assert (L : fle B B') by (destruct HB as [->| ->]; auto; eapply fle_trans; [exact B2|auto]). split; eapply fle_trans; eauto.
Qed.
Lemma roundings_repeat (k : list F) n : k <> [] -> roundings (repeat k n) = (n * (length k + 1))%nat.
Proof. intros Hk. induction n as [|n IH]; cbn [repeat roundings]; auto. destruct k; [congruence|]. rewrite IH. cbn [Nat.mul]. lia. Qed.
Lemma roundings_nil n : roundings (repeat (@nil F) n) = 0%nat.
Proof. induction n; cbn; auto. Qed.
Lemma gain_nil n : gain (repeat (@nil F) n) = f1.
Proof. induction n; cbn; auto. Qed.
Lemma wsum_div (l : list F) d : d <> f0 -> wsum (map (fun v => fdiv v d) l) = fdiv (wsum l) d.
Proof.
  intros Hd. induction l as [|v l IH]; [unfold wsum; cbn; field; auto|]. cbn [map].
  change (fadd (fdiv v d) (wsum (map (fun v => fdiv v d) l)) = fdiv (fadd v (wsum l)) d). rewrite IH. field; auto.
Qed.
Lemma three_taps (l : list Z) n : length l = 3%nat -> (forall z, In z l -> 0 < z) ->
  gain (smoothers true (repeat (@ints F l) n)) = f1 /\ roundings (smoothers true (repeat (@ints F l) n)) = (4 * n)%nat.
Proof.
  intros L P. unfold smoothers. assert (S0 : flt f0 (wsum (@ints F l))).
  { rewrite ints_sum. apply fofZ_pos. destruct l as [|a [|b [|c [|? ?]]]]; try discriminate. pose proof (P a ltac:(cbn; auto)). pose proof (P b ltac:(cbn; auto)). pose proof (P c ltac:(cbn; auto)). cbn. lia. }
  assert (N0 : wsum (@ints F l) <> f0) by (intros E; rewrite E in S0; now apply (flt_ne F f0 f0)).
  rewrite map_repeat'. set (k := map (fun v => fdiv v (wsum (ints l))) (ints l)).
  assert (Lk : length k = 3%nat) by (unfold k, ints; rewrite !map_length; auto). split.
  - apply gain_one.
    + intros k' v Hk Hv. apply repeat_spec in Hk. subst k'. unfold k in Hv. apply in_map_iff in Hv as [u [<- Hu]]. apply fdiv_nonneg; auto.
      unfold ints in Hu. apply in_map_iff in Hu as [z [<- Hz]]. specialize (P z Hz). apply fofZ_nonneg. lia.
    + intros k' Hk. apply repeat_spec in Hk. subst k'. right. unfold k. rewrite wsum_div by auto. field. auto.
  - rewrite roundings_repeat by (intros E; rewrite E in Lk; discriminate). rewrite Lk. lia.
Qed.
Lemma edge_one : truncates trunc -> edge_roundings trunc (@central_kernel F) = 1%nat.
Proof. intros TR. unfold edge_roundings, central_kernel, ints. cbn [map]. rewrite !trunc_int by auto. reflexivity. Qed.
Lemma edge_two : truncates trunc -> edge_roundings trunc (@laplace_kernel F) = 2%nat.
Proof. intros TR. unfold edge_roundings, laplace_kernel, ints. cbn [map]. rewrite !trunc_int by auto. reflexivity. Qed.
(** Sobel, Prewitt and Scharr, normalized. *)
Theorem sobel_rounding e fuel junk p m shared (g : edge_filter F) (x y' : T) smooth ea ax ax' c al B : truncates trunc -> fle f0 e ->
  named true (Some p) shared g central_kernel smooth ->
  check_axes (Z.of_nat (ndim x)) ea = Ok [Z.of_nat c] -> In c al ->
  edge_image fuel p m x ax al 6 -> check_axes (Z.of_nat (ndim x)) ax' = Ok (map Z.of_nat al) ->
  copy_padder B p m -> bounded B x -> fl_component trunc e fuel junk g x ea ax' y' ->
  exists y, snd (component trunc fuel junk g x ea ax') = Ok y /\
    within (fmul (fsub (fpow (fadd f1 e) (1 + 4 * length (without c al))) f1) (fmul (fofZ 2) B)) y' y.
Proof.
  intros TR He N Ha Hin EI Hax CP HB HF. pose proof (named_len F _ _ _ _ _ _ N) as [K1 K2]. pose proof (named_init F _ _ _ _ _ _ N) as HI.
  pose proof (named_used F trunc _ _ _ _ _ _ TR N) as UK.
  assert (E2 : fmul (abs_sum (used_kernel trunc central_kernel)) B = fadd B B) by (rewrite UK, abs_central; ring).
  destruct (component_rounding e fuel junk central_kernel (NItem smooth) (repeat smooth (length (without c al))) true p m shared g x y' ea ax ax' c al 5 B) as [y [Y1 Y2]]; auto.
  - discriminate.
  - intros s Hs. apply repeat_spec in Hs. now subst.
  - apply (copy_double p m B); auto.
  - exists y. split; auto. rewrite E2, edge_one in Y2 by auto.
    assert (G : gain (smoothers true (repeat smooth (length (without c al)))) = f1 /\ roundings (smoothers true (repeat smooth (length (without c al)))) = (4 * length (without c al))%nat).
    { inversion N; subst; try discriminate; try (apply three_taps; [reflexivity|]; intros z Hz; repeat (destruct Hz as [<-|Hz]; [lia|]); destruct Hz). }
    destruct G as [G1 G2]. rewrite G1, G2 in Y2. replace (fmul (fofZ 2) B) with (fmul f1 (fadd B B)) by (unfold fofZ; cbn [fofpos]; ring). exact Y2.
Qed.
Theorem laplace_rounding e fuel junk p m shared (g : edge_filter F) (x y' : T) ea ax ax' c al B : truncates trunc -> fle f0 e ->
  laplace_init (Some p) shared = Ok g ->
  check_axes (Z.of_nat (ndim x)) ea = Ok [Z.of_nat c] -> In c al ->
  edge_image fuel p m x ax al 6 -> check_axes (Z.of_nat (ndim x)) ax' = Ok (map Z.of_nat al) ->
  copy_padder B p m -> bounded B x -> fl_component trunc e fuel junk g x ea ax' y' ->
  exists y, snd (component trunc fuel junk g x ea ax') = Ok y /\
    within (fmul (fsub (fpow (fadd f1 e) 2) f1) (fmul (fofZ 4) B)) y' y.
Proof.
  intros TR He N Ha Hin EI Hax CP HB HF. assert (N' : named false (Some p) shared g laplace_kernel []) by now apply n_laplace.
  pose proof (named_init F _ _ _ _ _ _ N') as HI. pose proof (named_used F trunc _ _ _ _ _ _ TR N') as UK.
  assert (E2 : fmul (abs_sum (used_kernel trunc laplace_kernel)) B = fadd (fadd B B) (fadd B B)) by (rewrite UK, abs_laplace; ring).
  destruct (component_rounding e fuel junk laplace_kernel (NItem []) (repeat [] (length (without c al))) false p m shared g x y' ea ax ax' c al 5 B) as [y [Y1 Y2]]; auto.
  - discriminate.
  - unfold klen. cbn. lia.
  - intros s Hs. apply repeat_spec in Hs. subst. unfold klen. cbn. lia.
  - apply (copy_double p m B); auto.
  - exists y. split; auto. unfold smoothers in Y2. rewrite E2, edge_two, gain_nil, roundings_nil, Nat.add_0_r in Y2 by auto.
    replace (fmul (fofZ 4) B) with (fmul f1 (fadd (fadd B B) (fadd B B))) by (unfold fofZ; cbn [fofpos]; ring). exact Y2.
Qed.
End RE.
