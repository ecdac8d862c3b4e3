(** Padding of three images that are related pixel by pixel: products, squares. *)
From Verif Require Export PadLinear.
Open Scope Z_scope.

(** Same shape, and R holds at every pixel. *)
Definition related {F : ofield} (R : F -> F -> F -> Prop) (x y z : tensor F) : Prop :=
  shp y = shp x /\ shp z = shp x /\ forall i, valid (shp x) i -> R (at_ x i) (at_ y i) (at_ z i).
(** z = x y, elementwise. *)
Definition product_of {F : ofield} : tensor F -> tensor F -> tensor F -> Prop := related (fun a b c => c = fmul a b).

(** Modes that copy pixels, or fill in 0 or 1: padding commutes with products. *)
Definition product_mode {F : ofield} (m : mode F) (cv ev : F * F) : Prop :=
  match m with
  | MReplicate | MCircular | MPeriodize | MSymmetric | MReflect => True
  | MConstant => (fst cv = f0 \/ fst cv = f1) /\ (snd cv = f0 \/ snd cv = f1)
  | _ => False
  end.
(** Linear modes whose padding values are averages of pixels and zeros. *)
Definition average_mode {F : ofield} (m : mode F) (cv ev : F * F) : Prop :=
  match m with
  | MReplicate | MCircular | MPeriodize | MSymmetric | MReflect => True
  | MStat SMean => True
  | MConstant => cv = (f0, f0)
  | MLinearRamp => ev = (f0, f0)
  | _ => False
  end.

Section R.
Variable F : ofield.
Add Field Frel : (f_field F).
Notation T := (tensor F).

Definition preserves (P : axis_params F -> Prop) (R : F -> F -> F -> Prop) : Prop :=
  forall q e n f g h t, mode_ext (ap_mode q) (ap_before q) (ap_after q) (ap_const q) (ap_end q) (ap_stat q) = Some e -> P q ->
  (1 <= n \/ ap_mode q = MConstant) -> 0 <= ap_before q -> 0 <= ap_after q ->
  (ap_mode q <> MPeriodize -> - ap_before q <= t < n + ap_after q) ->
  (forall u, 0 <= u < n -> R (f u) (g u) (h u)) -> R (e n f t) (e n g t) (e n h t).

Lemma spec_axis_rel P R (q : axis_params F) a (x y z s : T) : preserves P R -> (a < length (shp x))%nat -> P q -> 0 <= ap_after q ->
  related R x y z -> spec_axis q a x = Some s ->
  exists sy sz, spec_axis q a y = Some sy /\ spec_axis q a z = Some sz /\ related R s sy sz.
Proof.
  intros Pr Ha Hl H0 [S1 [S2 E]] H. destruct (spec_axis_cases F q a x s H) as [[-> G]|[e [pa [He [B1 [B2 [B3 [B4 [Hn [-> G]]]]]]]]]].
  - exists y, z. repeat split; auto.
  - eexists. eexists. split; [apply G; auto|]. split; [apply G; auto|].
    unfold pad1. split; [|split]; cbn [shp at_].
    + now rewrite S1.
    + now rewrite S2.
    + intros i V. rewrite S1, S2. apply (Pr q e); auto.
      * intros Hm. rewrite <- (B4 Hm). pose proof (valid_nth _ _ a V) as Va. rewrite upd_length in Va. specialize (Va Ha).
        rewrite nth_upd_eq in Va by auto. lia.
      * intros u Hu. apply E. eapply valid_upd_back; eauto.
Qed.
Lemma spec_axes_rel P R (p : padder F) : preserves P R -> forall rest (x y z s : T), NoDup rest ->
  (forall c, In c rest -> (c < length (shp x))%nat /\ forall q, axis_par p rest c = Some q -> P q /\ 0 <= ap_after q) ->
  related R x y z -> spec_axes p x rest = Some s ->
  exists sy sz, spec_axes p y rest = Some sy /\ spec_axes p z rest = Some sz /\ related R s sy sz.
Proof.
  intros Pr. induction rest as [|c rest IH]; intros x y z s Hn H C Hs; cbn [spec_axes] in *.
  - inv Hs. eauto.
  - inv Hn. destruct (params p (length rest)) as [q|] eqn:Hq; [|discriminate].
    destruct (spec_axis q c x) as [x1|] eqn:Hx; [|discriminate].
    destruct (H c (or_introl eq_refl)) as [Hc Hl]. simpl in Hl. rewrite Nat.eqb_refl in Hl. destruct (Hl q Hq) as [Hl1 Hl2].
    destruct (spec_axis_rel P R q c x y z x1 Pr Hc Hl1 Hl2 C Hx) as [y1 [z1 [Y1 [Z1 C1]]]]. rewrite Y1, Z1.
    apply (IH x1); auto. intros d Hd. destruct (H d (or_intror Hd)) as [D1 D2].
    rewrite (spec_axis_length F _ _ _ _ Hx). split; auto. intros q' Hq'. apply D2. simpl.
    destruct (Nat.eqb_spec d c); [subst; contradiction|auto].
Qed.
Theorem forward_rel P R fuel junk p (x y z : T) ax al : preserves P R -> pad_call fuel p x ax al -> all_fine F p x al ->
  no_empty_mode F p al -> all_par F P p al -> related R x y z ->
  exists x' y' z', padder_forward fuel junk p x ax = Ok x' /\ padder_forward fuel junk p y ax = Ok y' /\
    padder_forward fuel junk p z ax = Ok z' /\ related R x' y' z'.
Proof.
  intros Pr PC AF NE AL C. pose proof C as [S1 [S2 _]].
  destruct (pad_spec_some F p x al (pc_nodup _ _ _ _ _ PC) AF) as [s Hs].
  destruct (spec_axes_rel P R p Pr (last_axes p al) x y z s) as [sy [sz [Hy [Hz C']]]]; auto.
  { apply last_axes_nodup, (pc_nodup _ _ _ _ _ PC). }
  { intros c Hc. split; [apply (pc_lt _ _ _ _ _ PC); eapply last_axes_in; eauto|]. intros q Hq.
    split; [eapply AL; eauto; eapply last_axes_in; eauto|]. destruct (AF c Hc) as [q' [Hq' [_ [Q2 _]]]]. congruence. }
  assert (PCy : pad_call fuel p y ax al) by (destruct PC; constructor; unfold ndim in *; try rewrite S1; auto).
  assert (PCz : pad_call fuel p z ax al) by (destruct PC; constructor; unfold ndim in *; try rewrite S2; auto).
  destruct (forward_call F fuel junk p x s ax al PC Hs) as [x' [X1 [_ [_ X2]]]].
  destruct (forward_call F fuel junk p y sy ax al PCy Hy) as [y' [Y1 [_ [_ Y2]]]].
  destruct (forward_call F fuel junk p z sz ax al PCz Hz) as [z' [Z1 [_ [_ Z2]]]].
  exists x', y', z'. split; [auto|]. split; [auto|]. split; [auto|]. specialize (X2 NE). specialize (Y2 NE). specialize (Z2 NE).
  destruct X2 as [A1 A2], Y2 as [B1 B2], Z2 as [D1 D2], C' as [E1 [E2 E3]].
  split; [congruence|]. split; [congruence|]. intros i V. rewrite A2, B2, D2.
  - apply E3. congruence.
  - congruence.
  - congruence.
  - auto.
Qed.

(** *** instances *)
(** Equal images have equal paddings, in every mode. *)
Lemma preserves_eq : preserves (fun _ => True) (fun a b c => a = b).
Proof.
  intros q e n f g h t He _ Hn _ _ _ H. apply (mode_ext_extl F _ _ _ _ _ _ _ _ He); auto.
  destruct Hn as [Hn|Hn]; auto. right. now rewrite Hn.
Qed.
Ltac pick H Hn := destruct Hn as [Hn|Hn]; [|discriminate]; apply H.
Lemma preserves_product : preserves (par_of product_mode) (fun a b c => c = fmul a b).
Proof.
  unfold preserves, par_of, product_mode. intros q e n f g h t He Hl Hn Hb Ha Ht H. destruct (ap_mode q) eqn:Em; simpl in He; try contradiction; injection He as <-.
  - pick H Hn. lia.
  - pick H Hn. apply Z.mod_pos_bound. lia.
  - unfold ext_periodize, ext_circular. destruct Hn as [Hn|]; [|discriminate].
    assert (0 <= t mod (n + n mod 2)) by (apply Z.mod_pos_bound; pose proof (Z.mod_pos_bound n 2); lia). zcase; apply H; lia.
  - unfold ext_symmetric. cbv zeta. destruct Hn as [Hn|]; [|discriminate]. pose proof (Z.mod_pos_bound t (2 * n)). zcase; apply H; lia.
  - unfold ext_reflect. cbv zeta. destruct Hn as [Hn|]; [|discriminate]. destruct (Z.eqb_spec n 1); [apply H; lia|].
    pose proof (Z.mod_pos_bound t (2 * n - 2)). zcase; apply H; lia.
  - unfold ext_constant. destruct Hl as [L1 L2]. repeat zcase; [destruct L1 as [-> | ->]; ring|apply H; lia|destruct L2 as [-> | ->]; ring].
Qed.
(** Jensen's inequality for an average of a list. *)
Lemma lsum_square (l m : list F) : length l = length m -> (forall k, (k < length l)%nat -> fle (fmul (nth k l f0) (nth k l f0)) (nth k m f0)) ->
  fle (fmul (lsum l) (lsum l)) (fmul (fofZ (Z.of_nat (length l))) (lsum m)).
Proof.
  revert m. induction l as [|a l IH]; intros [|b m] L H; try discriminate.
  - cbn. replace (fmul f0 f0 : F) with (fmul (f0 : F) f0) by ring. apply fle_refl.
  - cbn [length] in L. assert (L' : length l = length m) by lia. specialize (IH m L' ltac:(intros k Hk; apply (H (S k)); cbn; lia)).
    assert (Hab : fle (fmul a a) b) by (apply (H 0%nat); cbn; lia).
    change (lsum (a :: l)) with (fadd a (lsum l)). change (lsum (b :: m)) with (fadd b (lsum m)). cbn [length].
    set (n := Z.of_nat (length l)) in *. replace (Z.of_nat (S (length l))) with (n + 1) by lia. rewrite fofZ_add, fofZ_1.
    set (s := lsum l) in *. set (w := lsum m) in *. set (N := @fofZ F n) in *. apply fle_sub2.
    (* (N+1)(b+w) - (a+s)^2 = N b + b - a^2 + (N w - s^2) + w - 2 a s ; if N = 0 then s = w = 0 *)
    destruct (Z.eq_dec n 0) as [E|E].
    + assert (l = []) by (destruct l; auto; unfold n in E; cbn [length] in E; lia). subst l. assert (m = []) by (destruct m; auto; discriminate). subst m.
      unfold s, w, N, lsum. rewrite E. cbn [fold_right]. rewrite fofZ_0. replace (fsub (fmul (fadd f0 f1) (fadd b f0)) (fmul (fadd a f0) (fadd a f0))) with (fsub b (fmul a a)) by ring. now apply fle_sub1.
    + assert (Np : flt f0 N) by (apply fofZ_pos; unfold n in *; lia). assert (Nn : N <> f0) by (apply fofZ_neq0; auto).
      replace (fsub (fmul (fadd N f1) (fadd b w)) (fmul (fadd a s) (fadd a s)))
        with (fadd (fmul (fadd N f1) (fsub b (fmul a a))) (fadd (fmul (fadd f1 (fdiv f1 N)) (fsub (fmul N w) (fmul s s))) (fdiv (fmul (fsub (fmul N a) s) (fsub (fmul N a) s)) N))) by (field; auto).
      assert (N1 : fle f0 (fadd N f1)) by (replace (@f0 F) with (fadd (@f0 F) f0) by ring; apply fle_add; [now apply flt_fle|apply fle_01]).
      replace (@f0 F) with (fadd (@f0 F) (fadd f0 f0)) by ring. apply fle_add; [|apply fle_add].
      * apply fmul_nonneg; auto. now apply fle_sub1.
      * apply fmul_nonneg; [|now apply fle_sub1]. replace (@f0 F) with (fadd (@f0 F) f0) by ring. apply fle_add; [apply fle_01|]. apply fdiv_nonneg; [apply fle_01|auto].
      * apply fdiv_nonneg; auto. apply fsq_nonneg.
Qed.
Lemma preserves_square : preserves (par_of average_mode) (fun a b c => fle (fmul a a) b).
Proof.
  unfold preserves, par_of, average_mode. intros q e n f g h t He Hl Hn Hb Ha Ht H. destruct (ap_mode q) eqn:Em; simpl in He; try contradiction; injection He as <-.
  - pick H Hn. lia.
  - pick H Hn. apply Z.mod_pos_bound. lia.
  - unfold ext_periodize, ext_circular. destruct Hn as [Hn|]; [|discriminate].
    assert (0 <= t mod (n + n mod 2)) by (apply Z.mod_pos_bound; pose proof (Z.mod_pos_bound n 2); lia). zcase; apply H; lia.
  - unfold ext_symmetric. cbv zeta. destruct Hn as [Hn|]; [|discriminate]. pose proof (Z.mod_pos_bound t (2 * n)). zcase; apply H; lia.
  - unfold ext_reflect. cbv zeta. destruct Hn as [Hn|]; [|discriminate]. destruct (Z.eqb_spec n 1); [apply H; lia|].
    pose proof (Z.mod_pos_bound t (2 * n - 2)). zcase; apply H; lia.
  - destruct m; try contradiction. destruct Hn as [Hn|Hn]; [|discriminate].
    assert (L : forall w, 1 <= clip_window n w <= n) by (intros [w|]; unfold clip_window; lia).
    assert (G : forall l m : list F, length l = length m -> (0 < length l)%nat -> (forall k, (k < length l)%nat -> fle (fmul (nth k l f0) (nth k l f0)) (nth k m f0)) -> fle (fmul (lmean l) (lmean l)) (lmean m)).
    { intros l m Hlm Hp Q. pose proof (lsum_square l m Hlm Q) as S. unfold lmean. rewrite <- Hlm. set (N := @fofZ F (Z.of_nat (length l))) in *.
      assert (Np : flt f0 N) by (apply fofZ_pos; lia). assert (Nn : N <> f0) by (apply fofZ_neq0; lia).
      replace (fmul (fdiv (lsum l) N) (fdiv (lsum l) N)) with (fdiv (fdiv (fmul (lsum l) (lsum l)) N) N) by (field; auto).
      replace (fdiv (lsum m) N) with (fdiv (fdiv (fmul N (lsum m)) N) N) by (field; auto). apply fdiv_le; auto. apply fdiv_le; auto. }
    assert (G2 : forall (u : Z -> Z) w, 1 <= w -> (forall k, 0 <= k < w -> 0 <= u k < n) -> fle (fmul (lmean (map (fun k => f (u k)) (zrange w))) (lmean (map (fun k => f (u k)) (zrange w)))) (lmean (map (fun k => g (u k)) (zrange w)))).
    { intros u w Hw Hu. apply G; rewrite ?map_length, ?zrange_length; auto; [lia|]. intros k Hk.
      rewrite (nth_indep _ f0 (f (u 0))) by (now rewrite map_length, zrange_length). rewrite (nth_indep (map _ _) f0 (g (u 0))) by (now rewrite map_length, zrange_length).
      rewrite (map_nth (fun k => f (u k))), (map_nth (fun k => g (u k))). rewrite nth_zrange by auto. apply H, Hu. lia. }
    unfold ext_stat. cbv zeta. repeat zcase; [|apply H; lia|]; cbn [stat_fun].
    + apply (G2 (fun k => k)); [apply L|]. intros k Hk. specialize (L (fst (ap_stat q))). lia.
    + apply (G2 (fun k => n - clip_window n (snd (ap_stat q)) + k)); [apply L|]. intros k Hk. specialize (L (snd (ap_stat q))). lia.
  - rewrite Hl. unfold ext_constant. cbn [fst snd]. repeat zcase; [|apply H; lia|]; replace (fmul f0 f0 : F) with (f0 : F) by ring; apply fle_refl.
  - destruct Hn as [Hn|]; [|discriminate]. specialize (Ht ltac:(discriminate)). rewrite Hl. unfold ext_linear_ramp. cbn [fst snd].
    assert (G : forall r a b : F, fle f0 r -> fle r f1 -> fle (fmul a a) b -> fle (fmul (fadd a (fmul r (fsub f0 a))) (fadd a (fmul r (fsub f0 a)))) (fadd b (fmul r (fsub f0 b)))).
    { intros r a b R0 R1 Q. apply fle_sub2. apply fle_sub1 in R1. apply fle_sub1 in Q.
      replace (fsub (fadd b (fmul r (fsub f0 b))) (fmul (fadd a (fmul r (fsub f0 a))) (fadd a (fmul r (fsub f0 a))))) with (fadd (fmul (fsub f1 r) (fsub b (fmul a a))) (fmul (fmul r (fsub f1 r)) (fmul a a))) by ring.
      replace (@f0 F) with (fadd (@f0 F) f0) by ring. apply fle_add; apply fmul_nonneg; auto; [now apply fmul_nonneg|apply fsq_nonneg]. }
    repeat zcase; [|apply H; lia|].
    + destruct (fdiv_ratio F (- t) (ap_before q)) as [Q1 Q2]; try lia. apply G; auto. apply H. lia.
    + destruct (fdiv_ratio F (t - (n - 1)) (ap_after q)) as [Q1 Q2]; try lia. apply G; auto. apply H. lia.
Qed.
Lemma average_linear (m : mode F) cv ev : average_mode m cv ev -> linear_mode m cv ev.
Proof. destruct m; simpl; auto; try contradiction. Qed.
End R.
