(** Padding and pooling keep the order of images, and do not enlarge the largest difference of two images. *)
From Coq Require Import Sorting.Sorted Sorting.Permutation.
From Verif Require Export PoolPropLemmas.
Open Scope Z_scope.

(** No pixel of x exceeds the same pixel of y by more than d. *)
Definition below_by {F : ofield} (d : F) (x y : tensor F) : Prop :=
  shp y = shp x /\ forall i, valid (shp x) i -> fle (at_ x i) (fadd (at_ y i) d).
Definition below {F : ofield} (x y : tensor F) : Prop :=
  shp y = shp x /\ forall i, valid (shp x) i -> fle (at_ x i) (at_ y i).
(** Corresponding pixels differ by at most d. *)
Definition close {F : ofield} (d : F) (x y : tensor F) : Prop :=
  shp y = shp x /\ forall i, valid (shp x) i -> fle (fopp d) (fsub (at_ x i) (at_ y i)) /\ fle (fsub (at_ x i) (at_ y i)) d.
(** The modes that keep the order. *)
Definition mono_mode {F : ofield} (m : mode F) (cv ev : F * F) : Prop :=
  match m with
  | MAntisymmetric | MOddReflect | MOddSymmetric | MSmooth | MZeros | MEmpty | MFun _ | MUnknown => False
  | _ => True
  end.
Notation mono_par := (par_of mono_mode).

Section Mono.
Variable F : ofield.
Add Field Fmono : (f_field F).
Notation T := (tensor F).

Section By.
Variable d : F.
Hypothesis Hd : fle f0 d.
Notation R := (fun u v : F => fle u (fadd v d)).
Notation le := (fun a b : F => fleb a b = true).

Lemma by_le (u v : F) : fle u v -> R u v.
Proof. intros H. replace u with (fadd u f0) by ring. now apply fle_add. Qed.
Lemma by_left (u v w : F) : fle u v -> R v w -> R u w.
Proof. intros H1 H2. eapply fle_trans; eauto. Qed.
Lemma by_right (u v w : F) : R u v -> fle v w -> R u w.
Proof. intros H1 H2. eapply fle_trans; [exact H1|]. apply fle_add; auto. apply fle_refl. Qed.

(** Sorting keeps the order position by position. *)
Lemma sorted_head (h : F) t u : Sorted le (h :: t) -> In u t -> fle h u.
Proof.
  revert h u. induction t as [|a t IH]; intros h u S Hu; [destruct Hu|]. inversion S as [|? ? S1 S2]; subst. inversion S2; subst. destruct Hu as [E|E]; [subst; assumption|].
  apply (fle_trans F h a); [assumption|auto].
Qed.
Lemma insert_right (a : F) : forall t t' h, Sorted le t' -> R h a -> (forall u, In u t' -> R h u) -> Forall2 R t t' -> Forall2 R (h :: t) (linsert a t').
Proof.
  intros t t' h St Ra Rt H. revert h Ra Rt. induction H as [|u u' t t' Ru H IH]; intros h Ra Rt; cbn [linsert]; [constructor; auto|].
  destruct (fleb a u') eqn:E; [constructor; auto|].
  assert (L : fle u' a) by (destruct (fle_total F a u'); [unfold fle in *; congruence|auto]).
  constructor; [apply Rt; now left|]. inversion St; subst. apply IH; auto.
  - apply (by_right _ u'); auto.
  - intros w Hw. apply (by_right _ u'); auto. eapply sorted_head; eauto.
Qed.
Lemma insert_left (a : F) : forall t t' h', Sorted le (h' :: t') -> R a h' -> Forall2 R t t' -> Forall2 R (linsert a t) (h' :: t').
Proof.
  intros t t' h' St Ra H. revert h' St Ra. induction H as [|u u' t t' Ru H IH]; intros h' St Ra; cbn [linsert]; [constructor; auto|].
  destruct (fleb a u) eqn:E; [constructor; auto|].
  assert (L : fle u a) by (destruct (fle_total F a u); [unfold fle in *; congruence|auto]).
  inversion St as [|? ? S1 S2]; subst. inversion S2; subst. constructor; [eapply by_left; eauto|]. apply IH; auto. apply (by_right _ h'); auto.
Qed.
Lemma insert_both (a a' : F) l l' : Sorted le l -> Sorted le l' -> R a a' -> Forall2 R l l' -> Forall2 R (linsert a l) (linsert a' l').
Proof.
  intros S S' Ra H. revert S S'. induction H as [|u u' t t' Ru H IH]; intros S S'; cbn [linsert]; [constructor; auto|].
  inversion S as [|? ? S1 S2]; subst. inversion S' as [|? ? S1' S2']; subst.
  destruct (fleb a u) eqn:E, (fleb a' u') eqn:E'.
  - constructor; auto.
  - assert (L : fle u' a') by (destruct (fle_total F a' u'); [unfold fle in *; congruence|auto]).
    constructor; [apply (by_left _ u); auto|]. apply insert_right; auto; [apply (by_right _ u'); auto|].
    intros w Hw. apply (by_right _ u'); auto. eapply sorted_head; eauto.
  - assert (L : fle u a) by (destruct (fle_total F a u); [unfold fle in *; congruence|auto]).
    constructor; [apply (by_left _ a); auto|]. apply insert_left; auto. apply (by_right _ a'); auto.
  - constructor; auto.
Qed.
Lemma sort_mono l l' : Forall2 R l l' -> Forall2 R (lsort l) (lsort l').
Proof. induction 1; cbn [lsort fold_right]; [constructor|]. apply insert_both; auto; apply lsort_sorted. Qed.
Lemma Forall2_nth_R l l' k : Forall2 R l l' -> R (nth k l f0) (nth k l' f0).
Proof.
  intros H. revert k. induction H; intros [|k]; cbn [nth]; auto. all: replace (fadd f0 d) with d by ring; auto.
Qed.
Lemma Forall2_in1 l l' u : Forall2 R l l' -> In u l -> exists v, In v l' /\ R u v.
Proof. induction 1 as [|a b l l' Hab H IH]; intros E; [destruct E|]; destruct E as [E|E]; [subst; exists b; split; [now left|auto]|]. destruct (IH E) as [v [V1 V2]]. exists v. split; [now right|auto]. Qed.
Lemma Forall2_in2 l l' v : Forall2 R l l' -> In v l' -> exists u, In u l /\ R u v.
Proof. induction 1 as [|a b l l' Hab H IH]; intros E; [destruct E|]; destruct E as [E|E]; [subst; exists a; split; [now left|auto]|]. destruct (IH E) as [u [V1 V2]]. exists u. split; [now right|auto]. Qed.
Lemma sum_mono l l' : Forall2 R l l' -> fle (lsum l) (fadd (lsum l') (fmul (fofZ (Z.of_nat (length l))) d)).
Proof.
  induction 1 as [|u v l l' H0 H IH]; unfold lsum in *; cbn [fold_right length].
  - replace (fadd f0 _) with (@f0 F); [apply fle_refl|]. change (fofZ (Z.of_nat 0)) with (@f0 F). ring.
  - rewrite Nat2Z.inj_succ. unfold Z.succ. rewrite fofZ_succ. set (k := fofZ (Z.of_nat (length l))) in *.
    replace (fadd (fadd v _) _) with (fadd (fadd v d) (fadd (fold_right fadd f0 l') (fmul k d))) by ring. apply fle_add; auto.
Qed.
Lemma stat_mono s l l' : l <> [] -> Forall2 R l l' -> R (stat_fun s l) (stat_fun s l').
Proof.
  intros Hl H. assert (Ln : length l = length l') by (clear Hl; induction H; simpl; congruence). assert (Hl' : l' <> []) by (destruct l, l'; cbn in *; congruence).
  destruct s.
  - cbn [stat_fun]. unfold lmean. pose proof (sum_mono l l' H) as S. rewrite <- Ln. set (k := @fofZ F (Z.of_nat (length l))) in *.
    assert (Kp : flt (@f0 F) k) by (apply fofZ_pos; destruct l; [congruence|simpl; lia]).
    assert (Kn : k <> f0) by (now apply len_neq0). apply (fdiv_le _ _ _ k Kp) in S.
    replace (fdiv (fadd (lsum l') (fmul k d)) k) with (fadd (fdiv (lsum l') k) d) in S by (field; auto). exact S.
  - cbn [stat_fun]. unfold lmedian. rewrite <- Ln. apply Forall2_nth_R. now apply sort_mono.
  - destruct (stat_fun_rel F SMax l Hl) as [I _]. destruct (stat_fun_rel F SMax l' Hl') as [_ M]. destruct (Forall2_in1 _ _ _ H I) as [v [V1 V2]]. apply (by_right _ v); auto. apply M; auto.
  - destruct (stat_fun_rel F SMin l Hl) as [_ M]. destruct (stat_fun_rel F SMin l' Hl') as [I _]. destruct (Forall2_in2 _ _ _ H I) as [u [U1 U2]]. apply (by_left _ u); auto. apply M; auto.
Qed.
Lemma Forall2_map_R {A} (f g : A -> F) l : (forall k, In k l -> R (f k) (g k)) -> Forall2 R (map f l) (map g l).
Proof. induction l as [|a l IH]; intros H; cbn [map]; constructor; [apply H; now left|apply IH; intros; apply H; now right]. Qed.
Lemma ramp_mono (t a b c : F) : fle f0 t -> fle t f1 -> R a b -> R (fadd a (fmul t (fsub c a))) (fadd b (fmul t (fsub c b))).
Proof.
  intros T0 T1 H. cbv beta in *. apply fle_sub1 in T1.
  replace (fadd a (fmul t (fsub c a))) with (fadd (fmul (fsub f1 t) a) (fmul t c)) by ring.
  replace (fadd (fadd b (fmul t (fsub c b))) d) with (fadd (fadd (fmul (fsub f1 t) (fadd b d)) (fmul t c)) (fmul t d)) by ring.
  replace (fadd (fmul (fsub f1 t) a) (fmul t c)) with (fadd (fadd (fmul (fsub f1 t) a) (fmul t c)) f0) by ring.
  apply fle_add; [apply fle_add; [now apply fmul_le_l|apply fle_refl]|]. now apply fmul_nonneg.
Qed.

Lemma ext_mono (q : axis_params F) e pb pa n f g t :
  mode_ext (ap_mode q) pb pa (ap_const q) (ap_end q) (ap_stat q) = Some e -> mono_par q -> 1 <= n \/ ap_mode q = MConstant ->
  0 <= pb -> 0 <= pa -> (ap_mode q <> MPeriodize -> - pb <= t < n + pa) ->
  (forall u, 0 <= u < n -> R (f u) (g u)) -> R (e n f t) (e n g t).
Proof.
  unfold par_of, mono_mode. intros H Hl Hn Hpb Hpa Ht G. destruct (ap_mode q) eqn:Em; simpl in H; try contradiction; try discriminate; injection H as <-.
  - unfold ext_replicate. apply G. destruct Hn; [lia|discriminate].
  - unfold ext_circular. apply G. apply Z.mod_pos_bound. destruct Hn; [lia|discriminate].
  - unfold ext_periodize, ext_circular. destruct Hn as [Hn|]; [|discriminate].
    assert (0 <= t mod (n + n mod 2)) by (apply Z.mod_pos_bound; pose proof (Z.mod_pos_bound n 2); lia).
    zcase; apply G; lia.
  - unfold ext_symmetric. cbv zeta. destruct Hn as [Hn|]; [|discriminate].
    pose proof (Z.mod_pos_bound t (2 * n)). zcase; apply G; lia.
  - unfold ext_reflect. cbv zeta. destruct Hn as [Hn|]; [|discriminate]. destruct (Z.eqb_spec n 1); [apply G; lia|].
    pose proof (Z.mod_pos_bound t (2 * n - 2)). zcase; apply G; lia.
  - destruct Hn as [Hn|]; [|discriminate].
    assert (L : forall w, 1 <= clip_window n w <= n) by (intros [w|]; unfold clip_window; lia).
    unfold ext_stat. cbv zeta. repeat zcase.
    + apply stat_mono; [apply map_zrange_ne, L|]. apply Forall2_map_R. intros k Hk. apply In_zrange in Hk. apply G. specialize (L (fst (ap_stat q))). lia.
    + apply G. lia.
    + apply stat_mono; [apply map_zrange_ne, L|]. apply Forall2_map_R. intros k Hk. apply In_zrange in Hk. apply G. specialize (L (snd (ap_stat q))). lia.
  - unfold ext_constant. repeat zcase; [apply by_le, fle_refl|apply G; lia|apply by_le, fle_refl].
  - destruct Hn as [Hn|]; [|discriminate]. specialize (Ht ltac:(discriminate)). unfold ext_linear_ramp. repeat zcase.
    + destruct (fdiv_ratio F (- t) pb) as [Q1 Q2]; try lia. apply ramp_mono; auto. apply G; lia.
    + apply G. lia.
    + destruct (fdiv_ratio F (t - (n - 1)) pa) as [Q1 Q2]; try lia. apply ramp_mono; auto. apply G; lia.
Qed.
Lemma spec_axis_mono (q : axis_params F) a (x y s : T) : (a < length (shp x))%nat -> mono_par q ->
  0 <= ap_after q -> below_by d x y -> spec_axis q a x = Some s -> exists s', spec_axis q a y = Some s' /\ below_by d s s'.
Proof.
  intros Ha Hl H0 [C1 C2] H. destruct (spec_axis_cases F q a x s H) as [[-> Hy]|[e [pa [He [B1 [B2 [B3 [B4 [Hn [-> Hy]]]]]]]]]].
  - exists y. split; [auto|split; auto].
  - exists (pad1 e a (ap_before q) pa y). split; [auto|]. unfold pad1, below_by. cbn [shp at_]. rewrite C1. split; auto. intros i V.
    apply (ext_mono q e _ _ _ _ _ _ He Hl Hn B1 H0).
    + intros Hm. rewrite <- (B4 Hm). pose proof (valid_nth _ _ a V) as Va. rewrite upd_length in Va. specialize (Va Ha).
      rewrite nth_upd_eq in Va by auto. lia.
    + intros u Hu. apply C2. eapply valid_upd_back; eauto.
Qed.
Lemma spec_axes_mono (p : padder F) : forall rest (x y s : T), NoDup rest ->
  (forall c, In c rest -> (c < length (shp x))%nat /\ forall q, axis_par p rest c = Some q -> mono_par q /\ 0 <= ap_after q) ->
  below_by d x y -> spec_axes p x rest = Some s -> exists s', spec_axes p y rest = Some s' /\ below_by d s s'.
Proof.
  induction rest as [|c rest IH]; intros x y s Hn H C Hs; cbn [spec_axes] in *.
  - inv Hs. eauto.
  - inv Hn. destruct (params p (length rest)) as [q|] eqn:Hq; [|discriminate].
    destruct (spec_axis q c x) as [x1|] eqn:Hx; [|discriminate].
    destruct (H c (or_introl eq_refl)) as [Hc Hl]. simpl in Hl. rewrite Nat.eqb_refl in Hl. destruct (Hl q Hq) as [Hl1 Hl2].
    destruct (spec_axis_mono q c x y x1 Hc Hl1 Hl2 C Hx) as [y1 [-> C1]].
    apply (IH x1); auto. intros b Hb. destruct (H b (or_intror Hb)) as [D1 D2].
    rewrite (spec_axis_length F _ _ _ _ Hx). split; auto. intros q' Hq'. apply D2. simpl.
    destruct (Nat.eqb_spec b c); [subst; contradiction|auto].
Qed.
Lemma below_teq (t t' u u' : T) : teq t' t -> teq u' u -> below_by d t u -> below_by d t' u'.
Proof. intros [A1 A2] [B1 B2] [C1 C2]. split; [congruence|]. intros i V. rewrite A2, B2 by congruence. apply C2. congruence. Qed.
Lemma pad_mono fuel junk junk' p (x y : T) ax al : pad_call fuel p x ax al -> all_fine F p x al ->
  all_par F mono_par p al -> below_by d x y ->
  exists x' y', padder_forward fuel junk p x ax = Ok x' /\ padder_forward fuel junk' p y ax = Ok y' /\ below_by d x' y'.
Proof.
  intros PC AF AL C. pose proof C as [S1 _].
  assert (NE : no_empty_mode F p al).
  { eapply no_empty_all; eauto. unfold par_of, mono_mode. intros q. destruct (ap_mode q); simpl; tauto. }
  destruct (pad_spec_some F p x al (pc_nodup _ _ _ _ _ PC) AF) as [s Hs].
  destruct (spec_axes_mono p (last_axes p al) x y s) as [s' [Hs' C']]; auto.
  { apply last_axes_nodup, (pc_nodup _ _ _ _ _ PC). }
  { intros c Hc. split; [apply (pc_lt _ _ _ _ _ PC); eapply last_axes_in; eauto|]. intros q Hq. split; [eapply AL; eauto; eapply last_axes_in; eauto|].
    destruct (AF c Hc) as [q' [Hq' [_ [Q2 _]]]]. congruence. }
  assert (PCy : pad_call fuel p y ax al) by (destruct PC; constructor; unfold ndim in *; try rewrite S1; auto).
  destruct (forward_call F fuel junk p x s ax al PC Hs) as [x' [X1 [_ [_ X2]]]].
  destruct (forward_call F fuel junk' p y s' ax al PCy Hs') as [y' [Y1 [_ [_ Y2]]]].
  exists x', y'. split; auto. split; auto. eapply below_teq; eauto.
Qed.

Lemma correlate_mono al (kers : list (list F)) sts (x y : T) : steps_ok F al kers sts (shp x) ->
  (forall k e, In k kers -> In e k -> fle f0 e) -> (d = f0 \/ forall k, In k kers -> wsum k = f1) ->
  below_by d x y -> below_by d (correlate al kers sts x) (correlate al kers sts y).
Proof.
  intros [Hn [Hl [Hk [Hs Hw]]]] H2 HW [C1 C2]. unfold below_by, correlate. cbn [shp at_]. rewrite C1. split; auto. intros j Vj.
  assert (E : bsum (map klen kers) (fun o => fmul (weight kers o) d) = d).
  { destruct HW as [->|HW].
    - rewrite (bsum_ext F _ _ (fun o => fmul f0 (weight kers o))) by (intros; ring). rewrite bsum_mul. ring.
    - rewrite (bsum_ext F _ _ (fun o => fmul d (weight kers o))) by (intros; ring). rewrite bsum_mul, (weight_sum F kers HW). ring. }
  rewrite <- E at 1. rewrite <- bsum_add. apply bsum_le. intros o Vo.
  replace (fadd (fmul _ _) (fmul _ d)) with (fmul (weight kers o) (fadd (at_ y (place al sts j o)) d)) by ring.
  apply fmul_le_l; [apply weight_nonneg; auto|]. apply C2. eapply place_valid; eauto.
Qed.
Lemma eff_sums (kers : list (list F)) : (d = f0 \/ forall k, In k kers -> k = [] \/ wsum k = f1) -> d = f0 \/ forall k, In k (map eff_kernel kers) -> wsum k = f1.
Proof. intros [H|H]; auto. right. now apply eff_sum. Qed.
Lemma pool_mono_valid fuel junk junk' (m : pool F) (x y : T) ax al kers sts : on_axes x ax al -> built (length al) kers sts None m ->
  (forall r, (r < length al)%nat -> klen (nth r kers []) <= nth (nth r al 0%nat) (shp x) 0) ->
  (forall k e, In k kers -> In e k -> fle f0 e) -> (d = f0 \/ forall k, In k kers -> k = [] \/ wsum k = f1) -> below_by d x y ->
  exists x' y', snd (sep_forward fuel junk m x ax) = Ok x' /\ snd (sep_forward fuel junk' m y ax) = Ok y' /\ below_by d x' y'.
Proof.
  intros OA B Hf Hk HW C. pose proof C as [S1 _]. destruct (built_par _ _ _ _ _ _ B) as [PP [Pd _]].
  destruct (sep_forward_valid F fuel junk m x ax al kers sts OA PP Pd Hf) as [x' [X1 X2]].
  destruct (sep_forward_valid F fuel junk' m y ax al kers sts (on_axes_shape _ _ _ _ _ S1 OA) PP Pd) as [y' [Y1 Y2]]; [now rewrite S1|].
  exists x', y'. rewrite X1, Y1. split; auto. split; auto. apply (below_teq _ _ _ _ X2 Y2).
  apply correlate_mono; auto; [|now apply eff_nonneg|now apply eff_sums]. destruct OA as [A1 A2 A3]. apply (eff_steps F m); auto.
Qed.
Lemma pool_mono_same fuel junk junk' (m : pool F) (x y : T) ax al kers sts p ms : built (length al) kers sts (Some p) m ->
  same_call F fuel p x ax al ms kers sts -> every_axis (length al) p mono_mode ->
  (forall k e, In k kers -> In e k -> fle f0 e) -> (d = f0 \/ forall k, In k kers -> k = [] \/ wsum k = f1) -> below_by d x y ->
  exists x' y', snd (sep_forward fuel junk m x ax) = Ok x' /\ snd (sep_forward fuel junk' m y ax) = Ok y' /\ below_by d x' y'.
Proof.
  intros B SC EA Hk HW C. pose proof C as [S1 _]. destruct (built_par _ _ _ _ _ _ B) as [PP [Hp [He1 [He2 _]]]].
  destruct (sep_forward_same F fuel junk m x ax al kers sts p ms PP He1 He2 Hp SC) as [wx [xp [x' [X1 [X2 [X3 [X4 [X5 [X6 [X7 [X8 [X9 _]]]]]]]]]]]].
  destruct (sep_forward_same F fuel junk' m y ax al kers sts p ms PP He1 He2 Hp (same_call_shape _ _ _ _ _ _ _ _ _ _ S1 SC)) as [wy [yp [y' [Y1 [Y2 [Y3 [Y4 [Y5 [Y6 [Y7 [Y8 [Y9 _]]]]]]]]]]]].
  pose proof SC as [OA N0 _ _ SS PF _ _].
  assert (wy = wx). { apply list_ext with (d := (0,0)); [lia|]. intros r Hr. eapply same_width_unique; [apply (SS r)|apply (Y2 r)|rewrite S1; apply (X2 r)]; lia. }
  subst wy. exists x', y'. rewrite X8, Y8. split; auto. split; auto. apply (below_teq _ _ _ _ X9 Y9). pose proof OA as [A1 A2 A3].
  destruct (pad_mono fuel junk junk' (with_width p wx) x y ax al X3 X4) as [x1 [y1 [E1 [E2 E3]]]]; auto.
  { eapply every_axis_par; eauto. }
  rewrite X6 in E1. rewrite Y6 in E2. inv E1. inv E2.
  apply correlate_mono; auto; [|now apply eff_nonneg|now apply eff_sums]. apply (eff_steps F m); auto. intros c Hc. rewrite X7.
  unfold full_shape. rewrite map_length, seq_length. apply A2; auto.
Qed.
End By.

(** *** order and closeness *)
Lemma below_0 (x y : T) : below x y <-> below_by f0 x y.
Proof. unfold below, below_by. split; intros [S H]; (split; [auto|]); intros i V; specialize (H i V); replace (fadd (at_ y i) f0) with (at_ y i) in * by ring; auto. Qed.
Lemma close_both (d : F) (x y : T) : close d x y <-> below_by d x y /\ below_by d y x.
Proof.
  split.
  - intros [S H]. split; (split; [congruence|]); intros i V.
    + destruct (H i V) as [_ H2]. apply fle_sub2. apply fle_sub1 in H2. replace (fsub (fadd (at_ y i) d) (at_ x i)) with (fsub d (fsub (at_ x i) (at_ y i))) by ring. exact H2.
    + rewrite S in V. destruct (H i V) as [H1 _]. apply fle_sub2. apply fle_sub1 in H1. replace (fsub (fadd (at_ x i) d) (at_ y i)) with (fsub (fsub (at_ x i) (at_ y i)) (fopp d)) by ring. exact H1.
  - intros [[S H1] [_ H2]]. split; [auto|]. intros i V. specialize (H1 i V). rewrite S in H2. specialize (H2 i V). apply fle_sub1 in H1. apply fle_sub1 in H2. split; apply fle_sub2.
    + replace (fsub (fsub (at_ x i) (at_ y i)) (fopp d)) with (fsub (fadd (at_ x i) d) (at_ y i)) by ring. exact H2.
    + replace (fsub d (fsub (at_ x i) (at_ y i))) with (fsub (fadd (at_ y i) d) (at_ x i)) by ring. exact H1.
Qed.

Theorem pad_order fuel junk junk' p (x y : T) ax al : pad_call fuel p x ax al -> all_fine F p x al -> all_par F mono_par p al -> below x y ->
  exists x' y', padder_forward fuel junk p x ax = Ok x' /\ padder_forward fuel junk' p y ax = Ok y' /\ below x' y'.
Proof.
  intros PC AF AL C. apply below_0 in C. destruct (pad_mono f0 (fle_refl F f0) fuel junk junk' p x y ax al PC AF AL C) as [x' [y' [E1 [E2 E3]]]].
  exists x', y'. split; [auto|]. split; [auto|]. now apply below_0.
Qed.
Theorem pool_order_valid fuel junk junk' (m : pool F) (x y : T) ax al kers sts : on_axes x ax al -> built (length al) kers sts None m ->
  (forall r, (r < length al)%nat -> klen (nth r kers []) <= nth (nth r al 0%nat) (shp x) 0) ->
  (forall k e, In k kers -> In e k -> fle f0 e) -> below x y ->
  exists x' y', snd (sep_forward fuel junk m x ax) = Ok x' /\ snd (sep_forward fuel junk' m y ax) = Ok y' /\ below x' y'.
Proof.
  intros OA B Hf Hk C. apply below_0 in C. destruct (pool_mono_valid f0 (fle_refl F f0) fuel junk junk' m x y ax al kers sts OA B Hf Hk (or_introl eq_refl) C) as [x' [y' [E1 [E2 E3]]]].
  exists x', y'. split; [auto|]. split; [auto|]. now apply below_0.
Qed.
Theorem pool_order_same fuel junk junk' (m : pool F) (x y : T) ax al kers sts p ms : built (length al) kers sts (Some p) m ->
  same_call F fuel p x ax al ms kers sts -> every_axis (length al) p mono_mode ->
  (forall k e, In k kers -> In e k -> fle f0 e) -> below x y ->
  exists x' y', snd (sep_forward fuel junk m x ax) = Ok x' /\ snd (sep_forward fuel junk' m y ax) = Ok y' /\ below x' y'.
Proof.
  intros B SC EA Hk C. apply below_0 in C. destruct (pool_mono_same f0 (fle_refl F f0) fuel junk junk' m x y ax al kers sts p ms B SC EA Hk (or_introl eq_refl) C) as [x' [y' [E1 [E2 E3]]]].
  exists x', y'. split; [auto|]. split; [auto|]. now apply below_0.
Qed.

Theorem pad_close fuel junk junk' p d (x y : T) ax al : fle f0 d -> pad_call fuel p x ax al -> all_fine F p x al -> all_par F mono_par p al -> close d x y ->
  exists x' y', padder_forward fuel junk p x ax = Ok x' /\ padder_forward fuel junk' p y ax = Ok y' /\ close d x' y'.
Proof.
  intros Hd PC AF AL C. apply close_both in C as [C1 C2]. destruct (pad_mono d Hd fuel junk junk' p x y ax al PC AF AL C1) as [x' [y' [E1 [E2 E3]]]].
  pose proof C1 as [S1 _].
  assert (PCy : pad_call fuel p y ax al) by (destruct PC; constructor; unfold ndim in *; try rewrite S1; auto).
  assert (AFy : all_fine F p y al) by (unfold all_fine in *; now rewrite S1).
  destruct (pad_mono d Hd fuel junk' junk p y x ax al PCy AFy AL C2) as [y'' [x'' [E1' [E2' E3']]]].
  rewrite E1 in E2'. rewrite E2 in E1'. inv E2'. inv E1'. exists x'', y''. split; [auto|]. split; [auto|]. apply close_both. auto.
Qed.
Theorem pool_close_valid fuel junk junk' (m : pool F) d (x y : T) ax al kers sts : fle f0 d -> on_axes x ax al -> built (length al) kers sts None m ->
  (forall r, (r < length al)%nat -> klen (nth r kers []) <= nth (nth r al 0%nat) (shp x) 0) ->
  (forall k e, In k kers -> In e k -> fle f0 e) -> (forall k, In k kers -> k = [] \/ wsum k = f1) -> close d x y ->
  exists x' y', snd (sep_forward fuel junk m x ax) = Ok x' /\ snd (sep_forward fuel junk' m y ax) = Ok y' /\ close d x' y'.
Proof.
  intros Hd OA B Hf Hk HW C. apply close_both in C as [C1 C2]. pose proof C1 as [S1 _].
  destruct (pool_mono_valid d Hd fuel junk junk' m x y ax al kers sts OA B Hf Hk (or_intror HW) C1) as [x' [y' [E1 [E2 E3]]]].
  destruct (pool_mono_valid d Hd fuel junk' junk m y x ax al kers sts (on_axes_shape _ _ _ _ _ S1 OA) B) as [y'' [x'' [E1' [E2' E3']]]]; auto; [now rewrite S1|].
  rewrite E1 in E2'. rewrite E2 in E1'. inv E2'. inv E1'. exists x'', y''. split; [auto|]. split; [auto|]. apply close_both. auto.
Qed.
Theorem pool_close_same fuel junk junk' (m : pool F) d (x y : T) ax al kers sts p ms : fle f0 d -> built (length al) kers sts (Some p) m ->
  same_call F fuel p x ax al ms kers sts -> every_axis (length al) p mono_mode ->
  (forall k e, In k kers -> In e k -> fle f0 e) -> (forall k, In k kers -> k = [] \/ wsum k = f1) -> close d x y ->
  exists x' y', snd (sep_forward fuel junk m x ax) = Ok x' /\ snd (sep_forward fuel junk' m y ax) = Ok y' /\ close d x' y'.
Proof.
  intros Hd B SC EA Hk HW C. apply close_both in C as [C1 C2]. pose proof C1 as [S1 _].
  destruct (pool_mono_same d Hd fuel junk junk' m x y ax al kers sts p ms B SC EA Hk (or_intror HW) C1) as [x' [y' [E1 [E2 E3]]]].
  destruct (pool_mono_same d Hd fuel junk' junk m y x ax al kers sts p ms B (same_call_shape _ _ _ _ _ _ _ _ _ _ S1 SC)) as [y'' [x'' [E1' [E2' E3']]]]; auto.
  rewrite E1 in E2'. rewrite E2 in E1'. inv E2'. inv E1'. exists x'', y''. split; [auto|]. split; [auto|]. apply close_both. auto.
Qed.
End Mono.
