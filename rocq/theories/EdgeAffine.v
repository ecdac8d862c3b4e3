(** Edge filters with copying padding in closed form for any number of axes, and their response to ramps
    (C109). *)
From Verif Require Export FilterCopy EdgePropLemmas EdgeLinear.
Open Scope Z_scope.

(** Along axis a the image x is a ramp of slope s: on every line it grows by s per pixel. *)
Definition ramp {F : ofield} (s : F) (a : nat) (x : tensor F) : Prop :=
  forall i u, valid (shp x) i -> 0 <= u < nth a (shp x) 0 -> at_ x (upd a u i) = fadd (at_ x i) (fmul s (fofZ (u - nth a i 0))).
(** Along axis a the image x is a parabola with second coefficient h (any slope and offset on every line). *)
Definition bends {F : ofield} (h : F) (a : nat) (x : tensor F) : Prop :=
  exists g : list Z -> F, forall i u, valid (shp x) i -> 0 <= u < nth a (shp x) 0 ->
    at_ x (upd a u i) = fadd (at_ x i) (fadd (fmul (g i) (fofZ (u - nth a i 0))) (fmul h (fofZ ((u - nth a i 0) * (u - nth a i 0))))).
(** First moment of a kernel: the sum of q times its q-th entry. *)
Definition moment {F : ofield} (ker : list F) : F := fsum (klen ker) (fun q => fmul (nth (Z.to_nat q) ker f0) (fofZ q)).

Section EA.
Variable F : ofield.
Add Field Fea : (f_field F).
Notation T := (tensor F).
Variable trunc : F -> Z.

Lemma look_valid (m : mode F) sh j : copying m -> valid sh j -> forall al ms ks o, (forall a, In a al -> 1 <= nth a sh 0) -> (forall m', In m' ms -> m' = m) ->
  valid sh (look al ms ks sh j o).
Proof.
  intros Cm Vj. induction al as [|a al IH]; intros [|m' ms] [|k ks] [|t o] Hp Hm; cbn [look]; auto.
  apply EdgeHV.valid_upd; [apply IH; [intros; apply Hp; now right|intros; apply Hm; now right]|].
  rewrite (Hm m') by now left. apply spot_bounds; auto. apply Hp. now left.
Qed.

Theorem component_copying fuel junk ker smooth raw normalize p m shared (e : edge_filter F) (x : T) ea ax ax' a al k :
  edge_init (NItem ker) smooth normalize (Some p) shared = Ok e -> ker <> [] -> copying m ->
  check_axes (Z.of_nat (ndim x)) ea = Ok [Z.of_nat a] -> In a al ->
  edge_image fuel p m x ax al k -> check_axes (Z.of_nat (ndim x)) ax' = Ok (map Z.of_nat al) -> klen ker <= k ->
  expand (length (without a al)) smooth = Some raw -> (forall s, In s raw -> klen s <= k) ->
  exists y, snd (component trunc fuel junk e x ea ax') = Ok y /\ shp y = shp x /\
    forall j, valid (shp x) j -> let S := map eff_kernel (smoothers normalize raw) in at_ y j =
      bsum (map klen S) (fun o => fmul (weight S o) (fsum (klen ker) (fun q => fmul (nth (Z.to_nat q) (used_kernel trunc ker) f0)
        (at_ x (upd a (spot m (nth a (shp x) 0) (nth a j 0 + q - klen ker / 2)) (look (without a al) (repeat m (length (without a al))) (map klen S) (shp x) j o)))))).
Proof.
  intros HI Hk Cm Ha Hin EI Hax Hlk Hr Hs. pose proof EI as [[A1 A2 A3] P0 Pos1 U M FU].
  assert (K0 : 0 <= k) by (unfold klen in Hlk; lia). assert (K1 : 1 <= klen ker) by (unfold klen; destruct ker; [congruence|simpl length; lia]).
  destruct (copying_fills F m Cm) as [_ NP].
  pose proof (edge_image_one F fuel p m x ax al k a ker EI Hin Hlk) as SC.
  destruct (conv_edge_same F trunc fuel junk ker smooth normalize p shared e x a [m] HI Hk SC) as
    [w [xp [c [W1 [W2 [W3 [W4 [W5 [W6 [C1 [C2 [CX [CB [C3 C4]]]]]]]]]]]]]].
  assert (Sc : shp c = shp x) by (apply C3; intros [E|[]]; auto).
  destruct (pad_copies F fuel junk p m x xp (AxInt (Z.of_nat a)) a ker w Cm SC W1 W6) as [X1 X2].
  pose proof (width_one _ _ _ K1 W1) as Ew. assert (Ha' : (a < length (shp x))%nat) by (apply (A2 a Hin)).
  assert (Cv : forall i, valid (shp x) i -> at_ c i = fsum (klen ker) (fun q => fmul (nth (Z.to_nat q) (used_kernel trunc ker) f0)
     (at_ x (upd a (spot m (nth a (shp x) 0) (nth a i 0 + q - klen ker / 2)) i)))).
  { intros i Vi. rewrite C4 by congruence. unfold line_corr. rewrite used_klen. apply fsum_ext. intros q Hq. f_equal.
    pose proof (valid_length _ _ Vi) as Li. pose proof (valid_nth _ _ a Vi Ha') as Bi.
    rewrite X2.
    - rewrite nth_upd_eq by lia. rewrite upd_upd, Ew. cbn [fst]. reflexivity.
    - rewrite X1. apply BaseLemmas.valid_upd; auto. rewrite Ew. cbn [fst snd].
      pose proof (Z.div_mod (klen ker) 2). pose proof (Z.div_mod (klen ker - 1) 2).
      pose proof (Z.mod_pos_bound (klen ker) 2). pose proof (Z.mod_pos_bound (klen ker - 1) 2). lia. }
  destruct (edge_init_built F _ _ _ _ _ _ HI) as [I1 [I2 [I3 I4]]]. specialize (I4 _ _ Hr).
  pose proof (edge_image_rest F fuel p m x ax al k a (smoothers normalize raw) EI Hin K0 (smoothers_len F normalize raw k Hs)) as SC2.
  destruct (filter_copying F fuel junk (ef_smooth e) c _ (without a al) _ p _ I4 (same_call_shape F _ _ _ _ _ _ _ _ _ Sc SC2)) as [y [Y1 [Y2 Y3]]].
  { intros m' H. apply repeat_spec in H. now subst. }
  exists y. split; [|split; [congruence|]].
  - rewrite (component_smooths F trunc fuel junk ker smooth normalize (Some p) shared e x c ea ax' a al); auto.
  - intros j Vj. cbv zeta. rewrite Y3 by congruence. rewrite Sc. apply bsum_ext. intros o Vo. f_equal. rewrite Cv.
    + apply fsum_ext. intros q Hq. rewrite look_notin; [reflexivity|]. unfold without. intros I. apply filter_In in I as [_ I]. now rewrite Nat.eqb_refl in I.
    + apply (look_valid m); auto.
      * intros b Hb. apply Pos1. unfold without in Hb. apply filter_In in Hb. tauto.
      * intros m' H. apply repeat_spec in H. auto.
Qed.

Lemma moment_shift (ker : list F) z : wsum ker = f0 ->
  fsum (klen ker) (fun q => fmul (nth (Z.to_nat q) ker f0) (fofZ (q - z))) = moment ker.
Proof.
  intros W. unfold moment.
  rewrite (fsum_ext F _ _ (fun q => fadd (fmul (nth (Z.to_nat q) ker f0) (fofZ q)) (fmul (fopp (fofZ z)) (nth (Z.to_nat q) ker f0)))).
  - rewrite fsum_add, fsum_mul, fsum_wsum_nth, W. ring.
  - intros q Hq. rewrite fofZ_sub. ring.
Qed.

(** Where the edge kernel stays inside the image along a, a ramp gives its slope times the moment of the kernel. *)
Theorem component_ramp fuel junk ker smooth raw normalize p m shared (e : edge_filter F) (x : T) ea ax ax' a al k s :
  edge_init (NItem ker) smooth normalize (Some p) shared = Ok e -> ker <> [] -> copying m -> wsum (used_kernel trunc ker) = f0 ->
  check_axes (Z.of_nat (ndim x)) ea = Ok [Z.of_nat a] -> In a al ->
  edge_image fuel p m x ax al k -> check_axes (Z.of_nat (ndim x)) ax' = Ok (map Z.of_nat al) -> klen ker <= k ->
  expand (length (without a al)) smooth = Some raw -> (forall s, In s raw -> klen s <= k) -> ramp s a x ->
  exists y, snd (component trunc fuel junk e x ea ax') = Ok y /\ shp y = shp x /\
    forall j, valid (shp x) j -> klen ker / 2 <= nth a j 0 -> nth a j 0 + (klen ker - 1) / 2 < nth a (shp x) 0 ->
      at_ y j = fmul (fmul s (moment (used_kernel trunc ker))) (fprod (map gain (smoothers normalize raw))).
Proof.
  intros HI Hk Cm W Ha Hin EI Hax Hlk Hr Hs Rm.
  destruct (component_copying fuel junk ker smooth raw normalize p m shared e x ea ax ax' a al k) as [y [Y1 [Y2 Y3]]]; auto.
  exists y. split; auto. split; auto. intros j Vj J1 J2. rewrite Y3 by auto. cbv zeta. pose proof EI as [[A1 A2 A3] P0 Pos1 U M FU].
  assert (K1 : 1 <= klen ker) by (unfold klen; destruct ker; [congruence|simpl length; lia]).
  set (S := map eff_kernel (smoothers normalize raw)).
  assert (E : map gain (smoothers normalize raw) = map wsum S).
  { unfold S. rewrite map_map. apply map_ext. intros q. symmetry. apply gain_eff. }
  rewrite E, <- weight_gain, <- bsum_mul. apply bsum_ext. intros o Vo. replace (fmul (fmul s (moment (used_kernel trunc ker))) (weight S o)) with (fmul (weight S o) (fmul s (moment (used_kernel trunc ker)))) by ring. f_equal.
  set (i := look (without a al) _ (map klen S) (shp x) j o).
  assert (Vi : valid (shp x) i).
  { apply (look_valid m); auto.
    - intros b Hb. apply Pos1. unfold without in Hb. apply filter_In in Hb. tauto.
    - intros m' H. apply repeat_spec in H. auto. }
  assert (Ni : nth a i 0 = nth a j 0).
  { apply look_notin. unfold without. intros I. apply filter_In in I as [_ I]. now rewrite Nat.eqb_refl in I. }
  rewrite (fsum_ext F _ _ (fun q => fadd (fmul (at_ x i) (nth (Z.to_nat q) (used_kernel trunc ker) f0)) (fmul s (fmul (nth (Z.to_nat q) (used_kernel trunc ker) f0) (fofZ (q - klen ker / 2)))))).
  - rewrite fsum_add, !fsum_mul. rewrite <- (used_klen F trunc ker) at 1 2. rewrite fsum_wsum_nth, W, moment_shift by auto. ring.
  - intros q Hq. assert (B : 0 <= nth a j 0 + q - klen ker / 2 < nth a (shp x) 0).
    { pose proof (Z.div_mod (klen ker) 2). pose proof (Z.div_mod (klen ker - 1) 2).
      pose proof (Z.mod_pos_bound (klen ker) 2). pose proof (Z.mod_pos_bound (klen ker - 1) 2). lia. }
    rewrite spot_inside by auto. rewrite Rm by auto. rewrite Ni. replace (nth a j 0 + q - klen ker / 2 - nth a j 0) with (q - klen ker / 2) by lia. ring.
Qed.

(** *** the named filters *)
Lemma normalized_gain (sm : list F) : wsum sm <> f0 -> gain (map (fun v => fdiv v (wsum sm)) sm) = f1.
Proof.
  intros H. assert (G : forall d (l : list F), d <> f0 -> wsum (map (fun v => fdiv v d) l) = fdiv (wsum l) d).
  { intros d l Hd. induction l as [|v l IH]; [unfold wsum; cbn; field; auto|]. cbn [map].
    change (fadd (fdiv v d) (wsum (map (fun v => fdiv v d) l)) = fdiv (fadd v (wsum l)) d). rewrite IH. field; auto. }
  destruct sm as [|v sm]; [cbn in H; congruence|]. cbn [gain map]. 
  change (fdiv v (wsum (v :: sm)) :: map (fun w => fdiv w (wsum (v :: sm))) sm) with (map (fun w => fdiv w (wsum (v :: sm))) (v :: sm)).
  rewrite G by auto. field; auto.
Qed.
Lemma map_repeat' {A B} (f : A -> B) v n : map f (repeat v n) = repeat (f v) n.
Proof. induction n; cbn; congruence. Qed.
Lemma fprod_repeat_one n : fprod (repeat (@f1 F) n) = f1.
Proof. induction n as [|n IH]; cbn; [reflexivity|]. unfold fprod in IH. rewrite IH. ring. Qed.
Lemma central_moment : moment (@central_kernel F) = fofZ 2.
Proof. unfold moment, central_kernel, ints. change (klen (map fofZ [-1; 0; 1])) with 3. rewrite fsum_3. change (Z.to_nat 0) with 0%nat; change (Z.to_nat 1) with 1%nat; change (Z.to_nat 2) with 2%nat. unfold fofZ; cbn. ring. Qed.
Lemma laplace_moment : moment (@laplace_kernel F) = f0.
Proof. unfold moment, laplace_kernel, ints. change (klen (map fofZ [1; -2; 1])) with 3. rewrite fsum_3. change (Z.to_nat 0) with 0%nat; change (Z.to_nat 1) with 1%nat; change (Z.to_nat 2) with 2%nat. unfold fofZ; cbn. ring. Qed.
Lemma named_used normalize pd shared (e : edge_filter F) ker smooth : truncates trunc -> named normalize pd shared e ker smooth -> used_kernel trunc ker = ker.
Proof. intros TR N. destruct N; try (apply used_ints; auto; fail). apply used_long. unfold farid_edge. cbn [length]. lia. Qed.
Lemma named_total normalize pd shared (e : edge_filter F) ker smooth : named normalize pd shared e ker smooth -> smooth = [] \/ wsum smooth <> f0.
Proof.
  assert (I : forall l, fold_right Z.add 0 l <> 0 -> wsum (ints l : list F) <> f0).
  { intros l H. rewrite ints_sum. now apply fofZ_neq0. }
  intros []; try (right; apply I; cbn; lia); auto.
  right. intros E. apply (flt_ne F f0 (wsum farid_smooth)); auto. clear E. apply farid_smooth_pos.
Qed.
Theorem named_ramp fuel junk normalize p m shared (e : edge_filter F) (x : T) ker smooth ea ax ax' a al s : truncates trunc ->
  named normalize (Some p) shared e ker smooth -> copying m ->
  check_axes (Z.of_nat (ndim x)) ea = Ok [Z.of_nat a] -> In a al ->
  edge_image fuel p m x ax al 5 -> check_axes (Z.of_nat (ndim x)) ax' = Ok (map Z.of_nat al) -> ramp s a x ->
  exists y, snd (component trunc fuel junk e x ea ax') = Ok y /\ shp y = shp x /\
    forall j, valid (shp x) j -> klen ker / 2 <= nth a j 0 -> nth a j 0 + klen ker / 2 < nth a (shp x) 0 ->
      at_ y j = fmul (fmul s (moment ker)) (if normalize then f1 else fprod (repeat (gain smooth) (length (without a al)))).
Proof.
  intros TR N Cm Ha Hin EI Hax Rm. destruct (named_len F _ _ _ _ _ _ N) as [L1 L2]. pose proof (named_used _ _ _ _ _ _ TR N) as Us.
  pose proof (named_balanced F trunc _ _ _ _ _ _ TR N) as [Nk W]. pose proof (named_total _ _ _ _ _ _ N) as Tt.
  assert (Od : (klen ker - 1) / 2 = klen ker / 2) by (destruct N; reflexivity).
  assert (Ln : smooth = [] -> normalize = false) by (intros ->; inversion N; auto; discriminate).
  apply named_init in N.
  destruct (component_ramp fuel junk ker (NItem smooth) (repeat smooth (length (without a al))) normalize p m shared e x ea ax ax' a al 5 s) as [y [Y1 [Y2 Y3]]]; auto.
  { intros s' Hs. apply repeat_spec in Hs. now subst. }
  exists y. split; auto. split; auto. intros j Vj J1 J2. rewrite Y3 by (auto; lia). rewrite Us. f_equal.
  unfold smoothers. destruct normalize.
  - rewrite map_repeat', map_repeat'. rewrite normalized_gain; [apply fprod_repeat_one|]. destruct Tt; auto. discriminate (Ln H).
  - now rewrite map_repeat'.
Qed.
(** The Laplace filter of parabolas. *)
Theorem laplace_bends fuel junk p m shared (e : edge_filter F) (x : T) ax al (h : nat -> F) : truncates trunc ->
  laplace_init (Some p) shared = Ok e -> edge_image fuel p m x ax al 3 -> m <> MPeriodize -> (2 <= length al)%nat ->
  (forall a, In a al -> bends (h a) a x) ->
  exists y, snd (laplace_forward trunc fuel junk e x ax) = Ok y /\ shp y = shp x /\
    forall j, valid (shp x) j -> (forall a, In a al -> 1 <= nth a j 0 <= nth a (shp x) 0 - 2) ->
      at_ y j = fmul (fofZ 2) (axis_sum h al).
Proof.
  intros TR HI EI Nm Hl Hb. destruct (laplace_interior F trunc fuel junk p m shared e x ax al TR HI EI Nm Hl) as [y [Y1 [Y2 Y3]]].
  exists y. split; auto. split; auto. intros j Vj Hj. rewrite Y3 by auto. pose proof EI as [[A1 A2 A3] _ _ _ _ _].
  assert (G : forall a, In a al -> fadd (fsub (at_ x (upd a (nth a j 0 + 1) j)) (fmul (fofZ 2) (at_ x j))) (at_ x (upd a (nth a j 0 - 1) j)) = fmul (fofZ 2) (h a)).
  { intros a Ha. destruct (Hb a Ha) as [g Hg]. specialize (Hj a Ha). rewrite !Hg by (auto; lia).
    replace (nth a j 0 + 1 - nth a j 0) with 1 by lia. replace (nth a j 0 - 1 - nth a j 0) with (-1) by lia. unfold fofZ; cbn. ring. }
  clear - G. unfold axis_sum. induction al as [|a al IH]; cbn [map fold_right]; [ring|].
  rewrite G by now left. rewrite IH by (intros; apply G; now right). ring.
Qed.
End EA.
