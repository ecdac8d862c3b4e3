(** Edge filters on constant images (C45). *)
From Verif Require Export EdgeComponent.
Open Scope Z_scope.

(** A filter whose edge kernel, also after the fast path's truncation, sums to zero. *)
Definition balanced {F : ofield} (trunc : F -> Z) (ker : list F) : Prop := ker <> [] /\ wsum (used_kernel trunc ker) = f0.

(** The named filters (edges.py:139-163, 213-215), with kernel and smoothing kernel. *)
Inductive named {F : ofield} (normalize : bool) (pd : option (padder F)) (shared : bool) (e : edge_filter F) : list F -> list F -> Prop :=
| n_sobel : sobel_init normalize pd shared = Ok e -> named normalize pd shared e central_kernel (ints [1; 2; 1])
| n_prewitt : prewitt_init normalize pd shared = Ok e -> named normalize pd shared e central_kernel (ints [1; 1; 1])
| n_scharr : scharr_init normalize pd shared = Ok e -> named normalize pd shared e central_kernel (ints [3; 10; 3])
| n_farid : farid_init normalize pd shared = Ok e -> named normalize pd shared e farid_edge farid_smooth
| n_laplace : laplace_init pd shared = Ok e -> normalize = false -> named normalize pd shared e laplace_kernel [].

Section EK.
Variable F : ofield.
Add Field Fek : (f_field F).
Notation T := (tensor F).
Variable trunc : F -> Z.

Lemma correlate_zero al (kers : list (list F)) sts (x : T) : steps_ok F al kers sts (shp x) ->
  constant_image f0 x -> constant_image f0 (correlate al kers sts x).
Proof.
  intros [Hn [Hl [Hk [Hs Hw]]]] C j Vj. cbn [correlate shp at_] in *.
  rewrite (bsum_ext F _ _ (fun o => fmul f0 (weight kers o))).
  - rewrite bsum_mul. ring.
  - intros o Vo. rewrite C by (eapply place_valid; eauto). ring.
Qed.
Lemma line_const (xp : T) ker a j c : (forall q, 0 <= q < klen ker -> at_ xp (upd a (nth a j 0 + q) j) = c) ->
  line_corr F xp ker a j = fmul c (wsum ker).
Proof.
  intros H. unfold line_corr. rewrite (fsum_ext F _ _ (fun q => fmul c (nth (Z.to_nat q) ker f0))).
  - rewrite fsum_mul. f_equal. unfold klen. symmetry. apply wsum_fsum.
  - intros q Hq. rewrite H by auto. ring.
Qed.
Lemma uniform_every n (p : padder F) m (P : mode F -> Prop) : uniform p m -> P m -> every_axis n p (fun m _ _ => P m).
Proof.
  intros [H1 [[c H2] [[d H3] _]]] H. exists (repeat m n), (repeat c n), (repeat d n). rewrite H1, H2, H3. do 3 (split; [reflexivity|]).
  intros r Hr. destruct (Nat.lt_ge_cases r (length (repeat m n))) as [L|L]; rewrite repeat_length in L; [|lia].
  replace (nth r (repeat m n) MUnknown) with m; auto. symmetry. eapply repeat_spec. apply nth_In. now rewrite repeat_length.
Qed.
Definition keeps_constants (m : mode F) : Prop := const_mode m (f0, f0) (f0, f0).
Lemma uniform_const n (p : padder F) m : uniform p m -> keeps_constants m -> every_axis n p const_mode.
Proof. intros H C. destruct (uniform_every n p m keeps_constants H C) as [ms [cs [es [E1 [E2 [E3 E4]]]]]]. exists ms, cs, es. auto. Qed.
Lemma const_fills m : keeps_constants m -> fills m.
Proof. destruct m; cbn; auto. Qed.

(** *** with a padder *)
Lemma rest_in a al b : In b (without a al) -> In b al /\ b <> a.
Proof.
  unfold without. intros H. apply filter_In in H. destruct H as [H1 H2]. split; auto. intros ->. now rewrite Nat.eqb_refl in H2.
Qed.
Lemma smoothers_len normalize (raw : list (list F)) k : (forall s, In s raw -> klen s <= k) -> forall s, In s (smoothers normalize raw) -> klen s <= k.
Proof.
  intros H s. unfold smoothers. destruct normalize; auto. intros I. apply in_map_iff in I. destruct I as [s' [<- I]].
  unfold klen. rewrite map_length. apply H. auto.
Qed.
(** Zero images stay zero under any smoothing. *)
Lemma smooth_zero fuel junk (m : pool F) p md (x : T) ax al kers : built (length al) kers (repeat 1 (length al)) (Some p) m ->
  same_call F fuel p x ax al (repeat md (length al)) kers (repeat 1 (length al)) -> uniform p md -> keeps_constants md -> constant_image f0 x ->
  exists y, snd (sep_forward fuel junk m x ax) = Ok y /\ constant_image f0 y.
Proof.
  intros B SC U KC Hx. destruct (built_par F _ _ _ _ _ B) as [PP [Pd [E1 [E2 _]]]].
  eapply (pool_inv_same F fuel junk m (constant_image f0) const_mode); eauto.
  - intros. eapply forward_constant; eauto.
  - intros. apply correlate_zero; auto.
  - intros t u. apply const_teq.
  - eapply uniform_const; eauto.
Qed.
Theorem component_zero fuel junk ker smooth raw normalize p m shared (e : edge_filter F) (x : T) ea ax ax' a al k c :
  edge_init (NItem ker) smooth normalize (Some p) shared = Ok e -> balanced trunc ker ->
  check_axes (Z.of_nat (ndim x)) ea = Ok [Z.of_nat a] -> In a al ->
  edge_image fuel p m x ax al (k + 1) -> check_axes (Z.of_nat (ndim x)) ax' = Ok (map Z.of_nat al) -> klen ker <= k -> keeps_constants m ->
  expand (length (without a al)) smooth = Some raw -> (forall s, In s raw -> klen s <= k) ->
  constant_image c x ->
  exists y, snd (component trunc fuel junk e x ea ax') = Ok y /\ constant_image f0 y /\ (m <> MPeriodize -> shp y = shp x).
Proof.
  intros HI [Hk Hb] Ha Hin EI Hax Hlk KC Hr Hs Hc. pose proof EI as [[A1 A2 A3] P0 Pos1 U M FU].
  assert (K0 : 0 <= k) by (unfold klen in Hlk; lia).
  pose proof (edge_image_one F fuel p m x ax al (k + 1) a ker EI Hin ltac:(lia)) as SC.
  destruct (conv_edge_same F trunc fuel junk ker smooth normalize p shared e x a [m] HI Hk SC) as
    [w [xp [d [W1 [W2 [W3 [W4 [W5 [W6 [C1 [C2 [CX [CB [C3 C4]]]]]]]]]]]]]].
  assert (Hd0 : constant_image f0 d).
  { intros j Vj. rewrite C4 by auto.
    destruct (forward_constant F fuel junk (with_width p [w]) c x _ [a] W2 W3 W4) as [xp' [X1 X2]]; auto.
    { eapply (every_axis_par F 1 p [m] [w] [a] const_mode); auto.
      - apply (uniform_for F 1); auto.
      - apply (uniform_const 1 p m); auto.
      - constructor; [intros []|constructor]. }
    rewrite W6 in X1. injection X1 as <-.
    rewrite (line_const xp _ a j c).
    - rewrite Hb. ring.
    - intros q Hq. apply X2. rewrite used_klen in Hq. rewrite CX. rewrite C2 in Vj.
      pose proof (valid_nth _ _ a Vj) as Vn. rewrite upd_length in Vn. specialize (A2 a Hin). unfold ndim in A2. specialize (Vn A2).
      rewrite nth_upd_eq in Vn by auto.
      replace (upd a (nth a (shp xp) 0) (shp x)) with (upd a (nth a (shp xp) 0) (upd a (nth a (shp xp) 0 - klen ker + 1) (shp x))) by apply upd_upd.
      apply valid_upd; auto. lia. }
  destruct (edge_init_built F _ _ _ _ _ _ HI) as [I1 [I2 [I3 I4]]]. specialize (I4 _ _ Hr).
  assert (Nd : ndim d = ndim x) by (unfold ndim; rewrite C2; apply upd_length).
  assert (Dn : forall b, (b < ndim x)%nat -> nth b (shp x) 0 <= nth b (shp d) 0 <= nth b (shp x) 0 + 1).
  { intros b Hb2. rewrite C2, nth_upd. destruct (Nat.eqb_spec a b); cbn [andb]; [|lia]. subst. destruct (Nat.ltb_spec b (length (shp x))); lia. }
  assert (EI2 : edge_image fuel p m d (AxSeq (map Z.of_nat al)) al k).
  { split; auto.
    - split; auto.
      + rewrite Nd. apply check_axes_seq_nat; auto.
      + intros b Hb2. rewrite Nd. auto.
    - intros b Hb2. rewrite Nd in Hb2. specialize (P0 b Hb2). specialize (Dn b Hb2). lia.
    - intros b Hb2. specialize (Pos1 b Hb2). specialize (Dn b (A2 b Hb2)). lia.
    - intros b Hb2. rewrite Nd in Hb2. specialize (FU b Hb2). specialize (Dn b Hb2). lia. }
  pose proof (edge_image_rest F fuel p m d _ al k a (smoothers normalize raw) EI2 Hin K0 (smoothers_len normalize raw k Hs)) as SC2.
  destruct (smooth_zero fuel junk (ef_smooth e) p m d _ (without a al) _ I4 SC2 U KC Hd0) as [y [Y1 Y2]].
  exists y. rewrite (component_smooths F trunc fuel junk ker smooth normalize (Some p) shared e x d ea ax' a al) by auto.
  split; auto. split; auto. intros Hm.
  destruct (pool_same F fuel junk (ef_smooth e) d _ _ _ _ p _ I4 SC2) as [ws [cp [y' [Q1 [Q2 [Q3 [Q4 [Q5 [Q6 [Q7 [Q8 Q9]]]]]]]]]]].
  rewrite Y1 in Q4. injection Q4 as <-. assert (Sd : shp d = shp x) by (apply C3; intros [?|[]]; auto).
  apply list_ext with (d := 0); [unfold ndim in *; congruence|]. intros b Hb2. rewrite <- Sd.
  destruct (in_dec Nat.eq_dec b (without a al)) as [Hi|Hi]; [|auto].
  destruct (In_pos b _ 0%nat Hi) as [r [Hr2 <-]]. destruct (nth r (smoothers normalize raw) []) as [|k0 ks] eqn:Ek; [auto|].
  apply Q6; auto.
  - rewrite Ek. discriminate.
  - intros E. apply Hm. assert (In (nth r (repeat m (length (without a al))) MUnknown) (repeat m (length (without a al)))) by (apply nth_In; now rewrite repeat_length).
    rewrite E in H. symmetry. eapply repeat_spec; eauto.
  - rewrite nth_repeat. unfold is_ceil_div. lia.
Qed.

(** *** without a padder *)
Theorem component_zero_valid fuel junk ker smooth raw normalize shared (e : edge_filter F) (x : T) ea sx a al c :
  edge_init (NItem ker) smooth normalize None shared = Ok e -> balanced trunc ker ->
  check_axes (Z.of_nat (ndim x)) ea = Ok [Z.of_nat a] -> check_axes (Z.of_nat (ndim x)) sx = Ok (map Z.of_nat al) ->
  (a < ndim x)%nat -> (forall b, In b al -> (b < ndim x)%nat) -> NoDup al ->
  (forall d, (d < ndim x)%nat -> 0 <= nth d (shp x) 0) -> klen ker <= nth a (shp x) 0 ->
  expand (length (without a al)) smooth = Some raw ->
  (forall r, (r < length (without a al))%nat -> klen (nth r raw []) <= nth (nth r (without a al) 0%nat) (shp x) 0) ->
  constant_image c x ->
  exists y, snd (component trunc fuel junk e x ea sx) = Ok y /\ constant_image f0 y.
Proof.
  intros HI [Hk Hb] Ha Hs Hlt Hin Hnd Hnn Hfit Hr Hfit2 Hc.
  assert (Hfit3 : forall r, (r < length (without a al))%nat -> klen (nth r (smoothers normalize raw) []) <= nth (nth r (without a al) 0%nat) (shp x) 0).
  { intros r Hr2. specialize (Hfit2 r Hr2). unfold smoothers. destruct normalize; auto.
    assert (E : klen (nth r (map (fun k => map (fun v => (v / wsum k)%F) k) raw) []) = klen (nth r raw [])); [|now rewrite E].
    clear. revert r. induction raw as [|k l IH]; intros [|r]; cbn [map nth]; auto. unfold klen. now rewrite map_length. }
  destruct (conv_edge_valid F trunc fuel junk ker smooth normalize shared e x a HI Hk Hlt Hnn Hfit) as [d [C1 [C2 C3]]].
  destruct (edge_init_built F _ _ _ _ _ _ HI) as [I1 [I2 [I3 I4]]]. specialize (I4 _ _ Hr).
  assert (Nc : ndim d = ndim x) by (unfold ndim; rewrite C2; apply upd_length).
  assert (OA : on_axes d (AxSeq (map Z.of_nat (without a al))) (without a al)).
  { split; [apply check_axes_seq_nat|..]; try (intros b Hb2; rewrite Nc; apply Hin; eapply rest_in; eauto). apply NoDup_filter. auto. }
  destruct (built_par F _ _ _ _ _ I4) as [PP [Pd _]].
  assert (Fit : forall r, (r < length (without a al))%nat -> klen (nth r (smoothers normalize raw) []) <= nth (nth r (without a al) 0%nat) (shp d) 0).
  { intros r Hr2. rewrite C2, nth_upd_ne; auto. intros E. destruct (rest_in a al (nth r (without a al) 0%nat)); [apply nth_In; auto|]. auto. }
  assert (D0 : constant_image f0 d).
  { intros j Vj. rewrite C3 by auto. rewrite (line_const x _ a j c).
    - rewrite Hb. ring.
    - intros q Hq. apply Hc. rewrite used_klen in Hq. rewrite C2 in Vj.
      pose proof (valid_nth _ _ a Vj) as Vn. rewrite upd_length in Vn. unfold ndim in Hlt. specialize (Vn Hlt).
      rewrite nth_upd_eq in Vn by auto. eapply valid_upd_back; eauto. lia. }
  destruct (sep_forward_valid F fuel junk (ef_smooth e) d _ _ _ _ OA PP Pd Fit) as [y [Y1 Y2]].
  exists y. rewrite (component_smooths F trunc fuel junk ker smooth normalize None shared e x d ea sx a al) by auto.
  rewrite Y1. split; auto. apply (const_teq F _ _ _ Y2). apply correlate_zero; auto.
  destruct OA. apply (eff_steps F (ef_smooth e)); auto.
Qed.

(** *** the named filters *)
Lemma named_init normalize pd shared (e : edge_filter F) ker smooth : named normalize pd shared e ker smooth ->
  edge_init (NItem ker) (NItem smooth) normalize pd shared = Ok e.
Proof. intros []; auto. subst. auto. Qed.
Lemma named_len normalize pd shared (e : edge_filter F) ker smooth : named normalize pd shared e ker smooth -> klen ker <= 5 /\ klen smooth <= 5.
Proof. intros []; unfold klen; cbn; lia. Qed.
Lemma used_ints l : truncates trunc -> used_kernel trunc (ints l) = ints l.
Proof.
  intros TR. unfold used_kernel. assert (E : map trunc (ints l) = l).
  { unfold ints. rewrite map_map. rewrite <- (map_id l) at 2. apply map_ext. intros z. now apply trunc_int. }
  rewrite E. destruct (zlist_eqb l [-1; 0; 1]) eqn:E1; [apply zlist_eqb_spec in E1; now subst|].
  destruct (zlist_eqb l [1; -2; 1]) eqn:E2; [apply zlist_eqb_spec in E2; now subst|]. reflexivity.
Qed.
Lemma used_long ker : (3 < length ker)%nat -> used_kernel trunc ker = ker.
Proof.
  intros H. unfold used_kernel. destruct ker as [|a [|b [|c [|d ker]]]]; cbn [length] in H; try lia. cbn [map zlist_eqb all2].
  rewrite !andb_false_r. reflexivity.
Qed.
Lemma decimal_opp m n e : m = - n -> 0 < e -> (decimal m e : F) = fopp (decimal n e).
Proof.
  intros -> He. unfold decimal. rewrite fofZ_opp. assert (D : (fofZ (10 ^ e) : F) <> f0).
  { apply fofZ_neq0. assert (0 < 10 ^ e) by (apply Z.pow_pos_nonneg; lia). lia. }
  revert D. generalize (fofZ (10 ^ e) : F). intros d D. field. auto.
Qed.
Lemma farid_sum : wsum (@farid_edge F) = f0.
Proof.
  unfold farid_edge.
  rewrite (decimal_opp (-109603762960254) 109603762960254 15 eq_refl eq_refl), (decimal_opp (-276690988455557) 276690988455557 15 eq_refl eq_refl).
  generalize (decimal 109603762960254 15 : F) (decimal 276690988455557 15 : F). intros u v. unfold wsum. cbn [fold_right]. ring.
Qed.
Lemma ints_sum l : wsum (ints l : list F) = fofZ (fold_right Z.add 0 l).
Proof. induction l as [|z l IH]; [reflexivity|]. unfold wsum, ints in *. cbn [map fold_right]. rewrite IH. now rewrite fofZ_add. Qed.
Lemma named_balanced normalize pd shared (e : edge_filter F) ker smooth : truncates trunc -> named normalize pd shared e ker smooth -> balanced trunc ker.
Proof.
  intros TR N. assert (I : forall l, l <> [] -> fold_right Z.add 0 l = 0 -> balanced trunc (ints l)).
  { intros l H1 H2. split; [destruct l; [congruence|discriminate]|]. rewrite used_ints by auto. rewrite ints_sum, H2. reflexivity. }
  destruct N; try (apply I; [discriminate|reflexivity]).
  split; [unfold farid_edge; discriminate|]. rewrite used_long by (unfold farid_edge; cbn [length]; lia). apply farid_sum.
Qed.
(** The named filters can always be built. *)
Lemma nonzero_test (v : F) : v <> f0 -> (fleb v f0 && fleb f0 v)%bool = false.
Proof.
  intros H. destruct (fleb v f0) eqn:E1, (fleb f0 v) eqn:E2; auto. exfalso. apply H. apply (fle_antisym F); auto.
Qed.
Lemma init_item (ker s : list F) normalize pd shared : ker <> [] -> s = [] \/ wsum s <> f0 ->
  exists e : edge_filter F, edge_init (NItem ker) (NItem s) normalize pd shared = Ok e.
Proof.
  intros Hk Hs. unfold edge_init.
  assert (R : exists s', (if normalize then nds_map reweight (NItem s) else Ok (NItem s)) = Ok (NItem s')).
  { destruct normalize; [|eauto]. cbn [nds_map]. unfold reweight. destruct s as [|v s]; [eexists; reflexivity|].
    destruct Hs as [Hs|Hs]; [discriminate|]. rewrite nonzero_test by exact Hs. eexists. reflexivity. }
  destruct R as [s' ->]. eexists. reflexivity.
Qed.
Lemma fdiv_pos' (a b : F) : flt f0 a -> flt f0 b -> flt f0 (fdiv a b).
Proof.
  intros A B. replace (fdiv a b) with (fmul a (finv b)).
  - apply fmul_pos; auto. apply finv_pos; auto.
  - field. intros E. apply (flt_ne F f0 b); auto.
Qed.
Lemma decimal_pos n e : 0 < n -> 0 < e -> flt f0 (decimal n e : F).
Proof. intros Hn He. unfold decimal. apply fdiv_pos'; apply fofZ_pos; auto. apply Z.pow_pos_nonneg; lia. Qed.
Lemma farid_smooth_pos : flt f0 (wsum (@farid_smooth F)).
Proof.
  unfold farid_smooth.
  pose proof (decimal_pos 376593171958126 16 eq_refl eq_refl) as D1. pose proof (decimal_pos 249153396177344 15 eq_refl eq_refl) as D2.
  pose proof (decimal_pos 426374573253687 15 eq_refl eq_refl) as D3. revert D1 D2 D3.
  generalize (decimal 376593171958126 16 : F) (decimal 249153396177344 15 : F) (decimal 426374573253687 15 : F).
  intros u v t D1 D2 D3. unfold wsum. cbn [fold_right]. repeat (apply fadd_pos; [assumption|]; try apply fle_refl; try apply flt_fle).
Qed.
Theorem named_ok normalize pd shared :
  (exists e : edge_filter F, sobel_init normalize pd shared = Ok e) /\ (exists e : edge_filter F, prewitt_init normalize pd shared = Ok e) /\
  (exists e : edge_filter F, scharr_init normalize pd shared = Ok e) /\ (exists e : edge_filter F, farid_init normalize pd shared = Ok e) /\
  (exists e : edge_filter F, laplace_init pd shared = Ok e).
Proof.
  assert (I : forall l, fold_right Z.add 0 l <> 0 -> (ints l : list F) = [] \/ wsum (ints l : list F) <> f0).
  { intros l H. right. rewrite ints_sum. now apply fofZ_neq0. }
  split; [|split; [|split; [|split]]].
  1,2,3: apply init_item; [discriminate|apply I; cbn; lia].
  - apply init_item; [discriminate|]. right. intros E. apply (flt_ne F f0 (wsum farid_smooth)); auto. clear E.
    apply farid_smooth_pos.
  - apply init_item; [discriminate|now left].
Qed.

Lemma named_component fuel junk normalize p m shared (e : edge_filter F) (x : T) ker smooth ea ax ax' a al c : truncates trunc ->
  named normalize (Some p) shared e ker smooth ->
  check_axes (Z.of_nat (ndim x)) ea = Ok [Z.of_nat a] -> In a al ->
  edge_image fuel p m x ax al 6 -> check_axes (Z.of_nat (ndim x)) ax' = Ok (map Z.of_nat al) -> keeps_constants m -> constant_image c x ->
  exists y, snd (component trunc fuel junk e x ea ax') = Ok y /\ constant_image f0 y /\ (m <> MPeriodize -> shp y = shp x).
Proof.
  intros TR N Ha Hin EI Hax KC Hc. destruct (named_len _ _ _ _ _ _ N) as [L1 L2]. pose proof (named_balanced _ _ _ _ _ _ TR N) as B.
  apply named_init in N.
  apply (component_zero fuel junk ker (NItem smooth) (repeat smooth (length (without a al))) normalize p m shared e x ea ax ax' a al 5 c); auto.
  intros s Hs. apply repeat_spec in Hs. now subst.
Qed.
Theorem named_magnitude fuel junk normalize p m shared (e : edge_filter F) (x : T) ker smooth ax al c eps pw : truncates trunc ->
  named normalize (Some p) shared e ker smooth -> edge_image fuel p m x ax al 6 -> keeps_constants m -> m <> MPeriodize ->
  (2 <= length al)%nat -> raise_to F pw f0 = f0 -> constant_image c x ->
  exists y, snd (magnitude trunc fuel junk e x ax eps pw) = Ok y /\ shp y = shp x /\ constant_image (take_root F pw eps) y.
Proof.
  intros TR N EI KC Hm Hl Hp Hc. pose proof EI as [[A1 A2 A3] _ _ _ _ _].
  assert (C : forall a, In a al -> exists y, snd (component trunc fuel junk e x (AxInt (Z.of_nat a)) (AxSeq (map Z.of_nat al))) = Ok y /\ constant_image f0 y /\ shp y = shp x).
  { intros a Ha. destruct (named_component fuel junk normalize p m shared e x ker smooth (AxInt (Z.of_nat a)) ax (AxSeq (map Z.of_nat al)) a al c) as [y [Y1 [Y2 Y3]]]; auto.
    - apply check_one.
    - apply check_axes_seq_nat; auto.
    - exists y. auto. }
  set (cs := fun a => match snd (component trunc fuel junk e x (AxInt (Z.of_nat a)) (AxSeq (map Z.of_nat al))) with Ok t => t | Err _ => x end).
  assert (Hk0 : ker <> []) by (destruct N; discriminate). apply named_init in N.
  destruct (magnitude_ok F trunc fuel junk ker (NItem smooth) normalize (Some p) shared e x ax al eps pw cs (shp x) N A1 Hl) as [y [Y1 [Y2 Y3]]].
  { intros a Ha. destruct (C a Ha) as [y [E1 [E2 E3]]]. unfold cs. rewrite E1. auto. }
  { auto. }
  exists y. split; auto. split; auto. intros i V. rewrite Y2 in V. rewrite Y3 by auto. f_equal.
  assert (E : forall l, incl l al -> axis_sum (fun a => raise_to F pw (at_ (cs a) i)) l = f0).
  { induction l as [|a l IH]; intros Hi; [reflexivity|]. unfold axis_sum in *. cbn [map fold_right]. rewrite IH by (intros b Hb; apply Hi; now right).
    destruct (C a (Hi a (or_introl eq_refl))) as [t [E1 [E2 E3]]]. unfold cs. rewrite E1. rewrite E2 by congruence. rewrite Hp. ring. }
  rewrite E by (intros b; auto). ring.
Qed.
End EK.
