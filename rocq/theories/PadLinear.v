(** Padding as an operator on images: linear modes, constant images, value range. *)
From Verif Require Export PadSeq.
Open Scope Z_scope.

(** z = a x + b y, elementwise. *)
Definition combination {F : ofield} (a b : F) (x y z : tensor F) : Prop :=
  shp y = shp x /\ shp z = shp x /\
  forall i, valid (shp x) i -> at_ z i = fadd (fmul a (at_ x i)) (fmul b (at_ y i)).
Definition constant_image {F : ofield} (c : F) (x : tensor F) : Prop := forall i, valid (shp x) i -> at_ x i = c.
Definition in_range {F : ofield} (lo hi : F) (x : tensor F) : Prop :=
  forall i, valid (shp x) i -> fle lo (at_ x i) /\ fle (at_ x i) hi.

(** Modes whose padding is a linear function of the image. *)
Definition linear_mode {F : ofield} (m : mode F) (cv ev : F * F) : Prop :=
  match m with
  | MStat SMean => True
  | MStat _ => False
  | MConstant => cv = (f0, f0)
  | MLinearRamp => ev = (f0, f0)
  | MZeros | MEmpty | MFun _ | MUnknown => False
  | _ => True
  end.
(** Modes that extend a constant line by the same constant. *)
Definition const_mode {F : ofield} (m : mode F) (cv ev : F * F) : Prop :=
  match m with
  | MAntisymmetric | MConstant | MLinearRamp | MZeros | MEmpty | MFun _ | MUnknown => False
  | _ => True
  end.
(** Modes that never leave the range of the image (and of the constant / end values). *)
Definition range_mode {F : ofield} (lo hi : F) (m : mode F) (cv ev : F * F) : Prop :=
  match m with
  | MAntisymmetric | MOddReflect | MOddSymmetric | MSmooth | MZeros | MEmpty | MFun _ | MUnknown => False
  | MConstant => fle lo (fst cv) /\ fle (fst cv) hi /\ fle lo (snd cv) /\ fle (snd cv) hi
  | MLinearRamp => fle lo (fst ev) /\ fle (fst ev) hi /\ fle lo (snd ev) /\ fle (snd ev) hi
  | _ => True
  end.
Definition par_of {F : ofield} (P : mode F -> F * F -> F * F -> Prop) (q : axis_params F) : Prop := P (ap_mode q) (ap_const q) (ap_end q).
Notation linear_par := (par_of linear_mode).
Notation const_par := (par_of const_mode).
Notation range_par lo hi := (par_of (range_mode lo hi)).

Section L.
Variable F : ofield.
Add Field Flin : (f_field F).
Notation T := (tensor F).

(** Case analysis of spec_axis, once and for all: identity, or one extension of every line. *)
Lemma spec_axis_cases (q : axis_params F) a (x s : T) : spec_axis q a x = Some s ->
  (s = x /\ forall y, shp y = shp x -> spec_axis q a y = Some y) \/
  exists e pa, mode_ext (ap_mode q) (ap_before q) (ap_after q) (ap_const q) (ap_end q) (ap_stat q) = Some e /\
    0 <= ap_before q /\ 0 <= pa /\ ap_after q <= pa /\ (ap_mode q <> MPeriodize -> pa = ap_after q) /\
    (1 <= nth a (shp x) 0 \/ ap_mode q = MConstant) /\
    s = pad1 e a (ap_before q) pa x /\ forall y, shp y = shp x -> spec_axis q a y = Some (pad1 e a (ap_before q) pa y).
Proof.
  unfold spec_axis. intros H. destruct (negb _) eqn:E0; [discriminate|]. bdestr.
  destruct ((ap_before q =? 0) && (ap_after q =? 0)) eqn:Ez; [inv H; left; auto|].
  destruct ((nth a (shp x) 0 <=? 0) && negb (empty_ok (ap_mode q))) eqn:En; [discriminate|].
  assert (Hn : 1 <= nth a (shp x) 0 \/ empty_ok (ap_mode q) = true).
  { apply andb_false_iff in En. destruct En as [En|En].
    - left. apply Z.leb_gt in En. lia.
    - right. now apply negb_false_iff in En. }
  destruct (ap_mode q) eqn:Em; try discriminate.
  all: cbn [mode_ext] in *; try discriminate.
  all: try (injection H as <-; right; eexists; eexists; split; [reflexivity|]; split; [lia|];
    pose proof (Z.mod_pos_bound (nth a (shp x) 0) 2);
    split; [|split; [|split; [|split; [|split; [reflexivity|]]]]]; cbn [parity_slot];
    first [lia | solve [intros; exfalso; congruence] | intros; lia | solve [destruct Hn as [Hn|Hn]; [now left|discriminate]]
    | now right | intros y Hy; rewrite Hy, En; reflexivity]).
  inv H. left. split; auto. intros y Hy. rewrite Hy, En. reflexivity.
Qed.

Lemma fold_map_lin {A} (a b : F) (f g : A -> F) l :
  fold_right fadd f0 (map (fun k => fadd (fmul a (f k)) (fmul b (g k))) l) =
  fadd (fmul a (fold_right fadd f0 (map f l))) (fmul b (fold_right fadd f0 (map g l))).
Proof. induction l as [|k l IH]; simpl; [ring|]. rewrite IH. ring. Qed.

Lemma ext_linear (q : axis_params F) e pb pa a b n f g t :
  mode_ext (ap_mode q) pb pa (ap_const q) (ap_end q) (ap_stat q) = Some e -> linear_par q -> 1 <= n \/ ap_mode q = MConstant ->
  e n (fun u => fadd (fmul a (f u)) (fmul b (g u))) t = fadd (fmul a (e n f t)) (fmul b (e n g t)).
Proof.
  unfold par_of, linear_mode. intros H Hl Hn. destruct (ap_mode q); simpl in H; try contradiction; try discriminate; injection H as <-.
  - reflexivity.
  - unfold ext_smooth. repeat zcase; ring.
  - reflexivity.
  - unfold ext_periodize, ext_circular. repeat zcase; ring.
  - unfold ext_symmetric. cbv zeta. repeat zcase; ring.
  - unfold ext_reflect. cbv zeta. repeat zcase; ring.
  - unfold ext_antisymmetric. cbv zeta. repeat zcase; ring.
  - unfold ext_odd_reflect. cbv zeta. repeat zcase; ring.
  - unfold ext_odd_symmetric. cbv zeta. repeat zcase; ring.
  - destruct m; try contradiction. destruct Hn as [Hn|Hn]; [|discriminate].
    assert (L : forall w, 1 <= clip_window n w) by (intros [w|]; unfold clip_window; lia).
    unfold ext_stat. repeat zcase; auto.
    + cbn [stat_fun]. unfold lmean, lsum. rewrite !map_length, fold_map_lin. field.
      apply fofZ_neq0. rewrite zrange_length. specialize (L (fst (ap_stat q))). lia.
    + cbn [stat_fun]. unfold lmean, lsum. rewrite !map_length.
      rewrite (fold_map_lin a b (fun k => f (n - clip_window n (snd (ap_stat q)) + k)) (fun k => g (n - clip_window n (snd (ap_stat q)) + k))).
      field. apply fofZ_neq0. rewrite zrange_length. specialize (L (snd (ap_stat q))). lia.
  - rewrite Hl. unfold ext_constant. cbn [fst snd]. repeat zcase; ring.
  - rewrite Hl. unfold ext_linear_ramp. cbn [fst snd]. 
    assert (D : forall c d : F, fdiv c d = fmul c (finv d)) by (intros; apply (Fdiv_def (f_field F))).
    rewrite !D. repeat zcase; ring.
Qed.

Lemma spec_axis_lin (q : axis_params F) ax a b (x y z s : T) : (ax < length (shp x))%nat -> linear_par q ->
  combination a b x y z -> spec_axis q ax x = Some s ->
  exists sy sz, spec_axis q ax y = Some sy /\ spec_axis q ax z = Some sz /\ combination a b s sy sz.
Proof.
  intros Ha Hl [S1 [S2 E]] H. destruct (spec_axis_cases q ax x s H) as [[-> G]|[e [pa [He [B1 [B2 [B3 [_ [Hn [-> G]]]]]]]]]].
  - exists y, z. repeat split; auto.
  - eexists. eexists. split; [apply G; auto|]. split; [apply G; auto|].
    unfold pad1. split; [|split]; cbn [shp at_].
    + now rewrite S1.
    + now rewrite S2.
    + intros i V. rewrite S1, S2. rewrite <- (ext_linear q e _ _ a b _ _ _ _ He Hl Hn).
      apply (mode_ext_extl F _ _ _ _ _ _ _ _ He).
      { destruct Hn as [Hn|Hn]; auto. right. now rewrite Hn. }
      intros u Hu. apply E. eapply valid_upd_back; eauto.
Qed.
Lemma spec_axes_lin (p : padder F) a b : forall rest (x y z s : T), NoDup rest ->
  (forall c, In c rest -> (c < length (shp x))%nat /\ forall q, axis_par p rest c = Some q -> linear_par q) ->
  combination a b x y z -> spec_axes p x rest = Some s ->
  exists sy sz, spec_axes p y rest = Some sy /\ spec_axes p z rest = Some sz /\ combination a b s sy sz.
Proof.
  induction rest as [|c rest IH]; intros x y z s Hn H C Hs; cbn [spec_axes] in *.
  - inv Hs. eauto.
  - inv Hn. destruct (params p (length rest)) as [q|] eqn:Hq; [|discriminate].
    destruct (spec_axis q c x) as [x1|] eqn:Hx; [|discriminate].
    destruct (H c (or_introl eq_refl)) as [Hc Hl]. simpl in Hl. rewrite Nat.eqb_refl in Hl. specialize (Hl q Hq).
    destruct (spec_axis_lin q c a b x y z x1 Hc Hl C Hx) as [y1 [z1 [Y1 [Z1 C1]]]]. rewrite Y1, Z1.
    apply (IH x1); auto. intros d Hd. destruct (H d (or_intror Hd)) as [D1 D2].
    rewrite (spec_axis_length F _ _ _ _ Hx). split; auto. intros q' Hq'. apply D2. simpl.
    destruct (Nat.eqb_spec d c); [subst; contradiction|auto].
Qed.

(** All padded axes have parameters satisfying P. *)
Definition all_par (P : axis_params F -> Prop) (p : padder F) (al : list nat) : Prop :=
  forall a q, In a al -> axis_par p (last_axes p al) a = Some q -> P q.

Theorem forward_linear fuel junk p a b (x y z : T) ax al : pad_call fuel p x ax al -> all_fine F p x al ->
  no_empty_mode F p al -> all_par linear_par p al -> combination a b x y z ->
  exists x' y' z', padder_forward fuel junk p x ax = Ok x' /\ padder_forward fuel junk p y ax = Ok y' /\
    padder_forward fuel junk p z ax = Ok z' /\ combination a b x' y' z'.
Proof.
  intros PC AF NE AL C. pose proof C as [S1 [S2 _]].
  destruct (pad_spec_some F p x al (pc_nodup _ _ _ _ _ PC) AF) as [s Hs].
  destruct (spec_axes_lin p a b (last_axes p al) x y z s) as [sy [sz [Hy [Hz C']]]]; auto.
  { apply last_axes_nodup, (pc_nodup _ _ _ _ _ PC). }
  { intros c Hc. split; [apply (pc_lt _ _ _ _ _ PC); eapply last_axes_in; eauto|]. intros q Hq. eapply AL; eauto. eapply last_axes_in; eauto. }
  assert (PCy : pad_call fuel p y ax al) by (destruct PC; constructor; unfold ndim in *; try rewrite S1; auto).
  assert (PCz : pad_call fuel p z ax al) by (destruct PC; constructor; unfold ndim in *; try rewrite S2; auto).
  destruct (forward_call F fuel junk p x s ax al PC Hs) as [x' [X1 [_ [_ X2]]]].
  destruct (forward_call F fuel junk p y sy ax al PCy Hy) as [y' [Y1 [_ [_ Y2]]]].
  destruct (forward_call F fuel junk p z sz ax al PCz Hz) as [z' [Z1 [_ [_ Z2]]]].
  exists x', y', z'. split; [auto|]. split; [auto|]. split; [auto|]. specialize (X2 NE). specialize (Y2 NE). specialize (Z2 NE).
  destruct X2 as [A1 A2], Y2 as [B1 B2], Z2 as [D1 D2], C' as [E1 [E2 E3]].
  split; [congruence|]. split; [congruence|]. intros i V. rewrite A2, B2, D2.
  - apply E3. congruence.
  - congruence.
  - congruence.
  - auto.
Qed.

(** Constant images. *)
Lemma stat_const s (l : list F) c : l <> [] -> (forall e, In e l -> e = c) -> stat_fun s l = c.
Proof.
  intros Hl H. pose proof (stat_fun_rel F s l Hl) as R. destruct (stat_rel_bounds F s l _ Hl R) as [[lo [L1 L2]] [hi [H1 H2]]].
  assert (lo = c) by (apply H, L1). assert (hi = c) by (apply H, H1). subst lo hi. now apply fle_antisym.
Qed.
Lemma map_zrange_ne (g : Z -> F) m : 1 <= m -> map g (zrange m) <> [].
Proof.
  intros H E. apply (f_equal (@length F)) in E. rewrite map_length, zrange_length in E. simpl in E. lia.
Qed.
Lemma ext_const (q : axis_params F) e pb pa n c t :
  mode_ext (ap_mode q) pb pa (ap_const q) (ap_end q) (ap_stat q) = Some e -> const_par q -> 1 <= n \/ ap_mode q = MConstant ->
  e n (fun _ => c) t = c.
Proof.
  unfold par_of, const_mode. intros H Hl Hn. destruct (ap_mode q); simpl in H; try contradiction; try discriminate; injection H as <-.
  - reflexivity.
  - unfold ext_smooth. repeat zcase; ring.
  - reflexivity.
  - unfold ext_periodize, ext_circular. repeat zcase; ring.
  - unfold ext_symmetric. cbv zeta. repeat zcase; ring.
  - unfold ext_reflect. cbv zeta. repeat zcase; ring.
  - unfold ext_odd_reflect. cbv zeta. change (fofZ 2) with (fadd f1 f1 : F). repeat zcase; ring.
  - unfold ext_odd_symmetric. cbv zeta. change (fofZ 2) with (fadd f1 f1 : F). repeat zcase; ring.
  - destruct Hn as [Hn|Hn]; [|discriminate].
    assert (L : forall w, 1 <= clip_window n w) by (intros [w|]; unfold clip_window; lia).
    unfold ext_stat. repeat zcase; auto; apply stat_const; try (apply map_zrange_ne; apply L);
    intros e He; apply in_map_iff in He; destruct He as [k [<- _]]; auto.
Qed.
Lemma spec_axis_const (q : axis_params F) a c (x s : T) : (a < length (shp x))%nat -> const_par q ->
  constant_image c x -> spec_axis q a x = Some s -> constant_image c s.
Proof.
  intros Ha Hl C H. destruct (spec_axis_cases q a x s H) as [[-> _]|[e [pa [He [B1 [B2 [B3 [_ [Hn [-> _]]]]]]]]]]; auto.
  unfold pad1, constant_image. cbn [shp at_]. intros i V.
  rewrite <- (ext_const q e _ _ (nth a (shp x) 0) c (nth a i 0 - ap_before q) He Hl Hn).
  apply (mode_ext_extl F _ _ _ _ _ _ _ _ He).
  { destruct Hn as [Hn|Hn]; auto. right. now rewrite Hn. }
  intros u Hu. apply C. eapply valid_upd_back; eauto.
Qed.

(** Value range. *)
Lemma fdiv_ratio (a b : Z) : 0 <= a <= b -> 0 < b -> fle (@f0 F) (fdiv (fofZ a) (fofZ b)) /\ fle (fdiv (fofZ a) (fofZ b)) (@f1 F).
Proof.
  intros H Hb. pose proof (fofZ_pos F b Hb) as P. split.
  - apply fdiv_nonneg; auto. apply fofZ_nonneg. lia.
  - replace (@f1 F) with (fdiv (fofZ b) (fofZ b) : F) by (field; apply fofZ_neq0; lia).
    apply fdiv_le; auto. apply fofZ_le. lia.
Qed.
Lemma convex_range (lo hi u v t : F) : fle f0 t -> fle t f1 -> fle lo u -> fle u hi -> fle lo v -> fle v hi ->
  fle lo (fadd u (fmul t (fsub v u))) /\ fle (fadd u (fmul t (fsub v u))) hi.
Proof.
  intros T0 T1 U1 U2 V1 V2. apply fle_sub1 in T1.
  assert (G : forall a b c d : F, fle a b -> fle c d -> fle f0 t -> fle f0 (fsub f1 t) -> 
     fle (fadd (fmul (fsub f1 t) a) (fmul t c)) (fadd (fmul (fsub f1 t) b) (fmul t d))).
  { intros a b c d A C Q1 Q2. apply fle_add; apply fmul_le_l; auto. }
  replace (fadd u (fmul t (fsub v u))) with (fadd (fmul (fsub f1 t) u) (fmul t v)) by ring. split.
  - replace lo with (fadd (fmul (fsub f1 t) lo) (fmul t lo)) by ring. apply G; auto.
  - replace hi with (fadd (fmul (fsub f1 t) hi) (fmul t hi)) by ring. apply G; auto.
Qed.
Lemma ext_range (q : axis_params F) e pb pa n lo hi f t :
  mode_ext (ap_mode q) pb pa (ap_const q) (ap_end q) (ap_stat q) = Some e -> range_par lo hi q -> 1 <= n \/ ap_mode q = MConstant ->
  0 <= pb -> 0 <= pa -> (ap_mode q <> MPeriodize -> - pb <= t < n + pa) ->
  (forall u, 0 <= u < n -> fle lo (f u) /\ fle (f u) hi) -> fle lo (e n f t) /\ fle (e n f t) hi.
Proof.
  unfold par_of, range_mode. intros H Hl Hn Hpb Hpa Ht R. destruct (ap_mode q) eqn:Em; simpl in H; try contradiction; try discriminate; injection H as <-.
  - unfold ext_replicate. apply R. destruct Hn; [lia|discriminate].
  - unfold ext_circular. apply R. apply Z.mod_pos_bound. destruct Hn; [lia|discriminate].
  - unfold ext_periodize, ext_circular. destruct Hn as [Hn|]; [|discriminate].
    assert (0 <= t mod (n + n mod 2)) by (apply Z.mod_pos_bound; pose proof (Z.mod_pos_bound n 2); lia).
    zcase; apply R; lia.
  - unfold ext_symmetric. cbv zeta. destruct Hn as [Hn|]; [|discriminate].
    pose proof (Z.mod_pos_bound t (2 * n)). zcase; apply R; lia.
  - unfold ext_reflect. cbv zeta. destruct Hn as [Hn|]; [|discriminate]. destruct (Z.eqb_spec n 1); [apply R; lia|].
    pose proof (Z.mod_pos_bound t (2 * n - 2)). zcase; apply R; lia.
  - destruct Hn as [Hn|]; [|discriminate].
    assert (L : forall w, 1 <= clip_window n w <= n) by (intros [w|]; unfold clip_window; lia).
    assert (G : forall l, l <> [] -> (forall e, In e l -> fle lo e /\ fle e hi) -> fle lo (stat_fun m l) /\ fle (stat_fun m l) hi).
    { intros l Hne B. destruct (stat_rel_bounds F m l _ Hne (stat_fun_rel F m l Hne)) as [[u [U1 U2]] [v [V1 V2]]]. split.
      - eapply fle_trans; [apply (B u), U1|auto].
      - eapply fle_trans; [|apply (B v), V1]. auto. }
    unfold ext_stat. cbv zeta. repeat zcase.
    + apply G; [apply map_zrange_ne, L|]. intros e He. apply in_map_iff in He. destruct He as [k [<- Hk]].
      apply In_zrange in Hk. apply R. specialize (L (fst (ap_stat q))). lia.
    + apply R. lia.
    + apply G; [apply map_zrange_ne, L|]. intros e He. apply in_map_iff in He. destruct He as [k [<- Hk]].
      apply In_zrange in Hk. apply R. specialize (L (snd (ap_stat q))). lia.
  - unfold ext_constant. repeat zcase; [tauto|apply R; lia|tauto].
  - destruct Hn as [Hn|]; [|discriminate]. specialize (Ht ltac:(discriminate)). unfold ext_linear_ramp. repeat zcase.
    + destruct (fdiv_ratio (- t) pb) as [Q1 Q2]; try lia. apply convex_range; auto; try tauto; apply R; lia.
    + apply R. lia.
    + destruct (fdiv_ratio (t - (n - 1)) pa) as [Q1 Q2]; try lia. apply convex_range; auto; try tauto; apply R; lia.
Qed.
Lemma spec_axis_range (q : axis_params F) a lo hi (x s : T) : (a < length (shp x))%nat -> range_par lo hi q ->
  0 <= ap_after q -> in_range lo hi x -> spec_axis q a x = Some s -> in_range lo hi s.
Proof.
  intros Ha Hl H0 C H. destruct (spec_axis_cases q a x s H) as [[-> _]|[e [pa [He [B1 [B2 [B3 [B4 [Hn [-> _]]]]]]]]]]; auto.
  unfold pad1, in_range. cbn [shp at_]. intros i V.
  apply (ext_range q e _ _ _ lo hi _ _ He Hl Hn B1 H0).
  - intros Hm. rewrite <- (B4 Hm). pose proof (valid_nth _ _ a V) as Va. rewrite upd_length in Va. specialize (Va Ha).
    rewrite nth_upd_eq in Va by auto. lia.
  - intros u Hu. apply C. eapply valid_upd_back; eauto.
Qed.

Lemma spec_axes_inv (p : padder F) (P : axis_params F -> Prop) (Q : T -> Prop) :
  (forall q a (x s : T), (a < length (shp x))%nat -> P q -> Q x -> spec_axis q a x = Some s -> Q s) ->
  forall rest (x s : T), NoDup rest ->
  (forall c, In c rest -> (c < length (shp x))%nat /\ forall q, axis_par p rest c = Some q -> P q) ->
  Q x -> spec_axes p x rest = Some s -> Q s.
Proof.
  intros St. induction rest as [|c rest IH]; intros x s Hn H C Hs; cbn [spec_axes] in *.
  - inv Hs. auto.
  - inv Hn. destruct (params p (length rest)) as [q|] eqn:Hq; [|discriminate].
    destruct (spec_axis q c x) as [x1|] eqn:Hx; [|discriminate].
    destruct (H c (or_introl eq_refl)) as [Hc Hl]. simpl in Hl. rewrite Nat.eqb_refl in Hl. specialize (Hl q Hq).
    apply (IH x1 s); auto.
    + intros d Hd. destruct (H d (or_intror Hd)) as [D1 D2].
      rewrite (spec_axis_length F _ _ _ _ Hx). split; auto. intros q' Hq'. apply D2. simpl.
      destruct (Nat.eqb_spec d c); [subst; contradiction|auto].
    + eapply St; eauto.
Qed.
Lemma forward_inv fuel junk p (P : axis_params F -> Prop) (Q : T -> Prop) (x : T) ax al :
  (forall q a (x s : T), (a < length (shp x))%nat -> P q /\ 0 <= ap_after q -> Q x -> spec_axis q a x = Some s -> Q s) ->
  (forall t u, teq t u -> Q t -> Q u) ->
  pad_call fuel p x ax al -> all_fine F p x al -> no_empty_mode F p al -> all_par P p al -> Q x ->
  exists x', padder_forward fuel junk p x ax = Ok x' /\ Q x'.
Proof.
  intros St Te PC AF NE AL C.
  destruct (pad_spec_some F p x al (pc_nodup _ _ _ _ _ PC) AF) as [s Hs].
  destruct (forward_call F fuel junk p x s ax al PC Hs) as [x' [X1 [_ [_ X2]]]].
  exists x'. split; auto. apply (Te s); [apply teq_sym, X2, NE|].
  apply (spec_axes_inv p _ Q St (last_axes p al) x s); auto.
  { apply last_axes_nodup, (pc_nodup _ _ _ _ _ PC). }
  intros c Hc. split; [apply (pc_lt _ _ _ _ _ PC); eapply last_axes_in; eauto|]. intros q Hq.
  split; [eapply AL; eauto; eapply last_axes_in; eauto|].
  destruct (AF c Hc) as [q' [Hq' [_ [Q2 _]]]]. congruence.
Qed.
Theorem forward_constant fuel junk p c (x : T) ax al : pad_call fuel p x ax al -> all_fine F p x al ->
  no_empty_mode F p al -> all_par const_par p al -> constant_image c x ->
  exists x', padder_forward fuel junk p x ax = Ok x' /\ constant_image c x'.
Proof.
  apply forward_inv.
  - intros q a x0 s Ha [Hq _]. apply spec_axis_const; auto.
  - intros t u [E1 E2] H i V. rewrite <- E2; [apply H|]; congruence.
Qed.
Theorem forward_range fuel junk p lo hi (x : T) ax al : pad_call fuel p x ax al -> all_fine F p x al ->
  no_empty_mode F p al -> all_par (range_par lo hi) p al -> in_range lo hi x ->
  exists x', padder_forward fuel junk p x ax = Ok x' /\ in_range lo hi x'.
Proof.
  apply forward_inv.
  - intros q a x0 s Ha [Hq H0]. apply spec_axis_range; auto.
  - intros t u [E1 E2] H i V. rewrite <- E2; [apply H|]; congruence.
Qed.

(** The same without the hypothesis on the mode empty, which the three classes of modes exclude. *)
Lemma no_empty_all (P : axis_params F -> Prop) fuel p (x : T) ax al : pad_call fuel p x ax al ->
  (forall q, P q -> is_empty_mode F (ap_mode q) = false) -> all_par P p al -> no_empty_mode F p al.
Proof.
  intros PC H AL. apply no_empty_by_par; [apply last_axes_nodup, (pc_nodup _ _ _ _ _ PC)|].
  intros a q Ha Hq. apply H. eapply AL; eauto. eapply last_axes_in; eauto.
Qed.
Lemma padding_linear fuel junk p a b (x y z : T) ax al : pad_call fuel p x ax al -> all_fine F p x al ->
  all_par linear_par p al -> combination a b x y z ->
  exists x' y' z', padder_forward fuel junk p x ax = Ok x' /\ padder_forward fuel junk p y ax = Ok y' /\
    padder_forward fuel junk p z ax = Ok z' /\ combination a b x' y' z'.
Proof.
  intros PC AF AL C. eapply forward_linear; eauto. eapply no_empty_all; eauto.
  unfold par_of, linear_mode. intros q. destruct (ap_mode q); simpl; tauto.
Qed.
Lemma padding_constant fuel junk p c (x : T) ax al : pad_call fuel p x ax al -> all_fine F p x al ->
  all_par const_par p al -> constant_image c x ->
  exists x', padder_forward fuel junk p x ax = Ok x' /\ constant_image c x'.
Proof.
  intros PC AF AL C. eapply forward_constant; eauto. eapply no_empty_all; eauto.
  unfold par_of, const_mode. intros q. destruct (ap_mode q); simpl; tauto.
Qed.
Lemma padding_range fuel junk p lo hi (x : T) ax al : pad_call fuel p x ax al -> all_fine F p x al ->
  all_par (range_par lo hi) p al -> in_range lo hi x ->
  exists x', padder_forward fuel junk p x ax = Ok x' /\ in_range lo hi x'.
Proof.
  intros PC AF AL C. eapply forward_range; eauto. eapply no_empty_all; eauto.
  unfold par_of, range_mode. intros q. destruct (ap_mode q); simpl; tauto.
Qed.
End L.
