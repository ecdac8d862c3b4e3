(** Edge filters of mirror images (C107). *)
From Verif Require Export PoolFlip EdgeLinear EdgePropLemmas.
Open Scope Z_scope.

(** A Padder with single items that treats both sides alike. *)
Definition even_handed {F : ofield} (p : padder F) : Prop :=
  exists c v s, p_const p = NItem (c, c) /\ p_end p = NItem (v, v) /\ p_stat p = NItem (s, s).
(** x' is x read backwards along axis a, times s. *)
Definition flipped_times {F : ofield} (s : F) (a : nat) (x x' : tensor F) : Prop :=
  shp x' = shp x /\ forall i, valid (shp x) i -> at_ x' i = fmul s (at_ x (upd a (nth a (shp x) 0 - 1 - nth a i 0) i)).

Section EF.
Variable F : ofield.
Add Field Feflip : (f_field F).
Notation T := (tensor F).
Variable trunc : F -> Z.

Lemma even_swapped {A} a al (v : A) : swapped_on a al (NItem (v, v)) (NItem (v, v)).
Proof.
  exists (repeat (v, v) (length al)), (repeat (v, v) (length al)). split; [reflexivity|]. split; [reflexivity|].
  intros r d Hr. assert (G : nth r (repeat (v, v) (length al)) d = (v, v)).
  { apply (repeat_spec (length al)). apply nth_In. now rewrite repeat_length. }
  rewrite G. now destruct (Nat.eqb _ _).
Qed.
Lemma even_mirror a al (p : padder F) : even_handed p -> mirror_values a al p p.
Proof. intros [c [v [s [E1 [E2 E3]]]]]. split; [reflexivity| | |]; rewrite ?E1, ?E2, ?E3; apply even_swapped. Qed.
Lemma flip_once a (x x' : T) : flipped a x x' <-> flipped_times f1 a x x'.
Proof. split; intros [S V]; (split; [exact S|]); intros i Vi; rewrite V by auto; ring. Qed.

Lemma used_odd (ker : list F) : klen (used_kernel trunc ker) = klen ker.
Proof. apply used_klen. Qed.
(** A correlation along the mirrored axis. *)
Lemma line_flip a (x x' : T) (ker : list F) sg m j : flipped a x x' -> (a < ndim x)%nat -> m = nth a (shp x) 0 - klen ker + 1 ->
  rev ker = map (fmul sg) ker -> valid (upd a m (shp x)) j ->
  line_corr F x' ker a j = fmul sg (line_corr F x ker a (upd a (m - 1 - nth a j 0) j)).
Proof.
  intros [Sx Vx] Ha -> Rk Vj. unfold ndim in Ha. assert (K0 : 0 <= klen ker) by (unfold klen; lia).
  pose proof (valid_length _ _ Vj) as Lj. rewrite upd_length in Lj.
  pose proof (valid_nth _ _ a Vj) as Vn. rewrite upd_length in Vn. specialize (Vn Ha). rewrite nth_upd_eq in Vn by auto.
  unfold line_corr. rewrite <- fsum_mul. rewrite fsum_rev by auto. apply fsum_ext. intros q Hq.
  rewrite nth_upd_eq by lia. rewrite upd_upd.
  assert (V1 : valid (shp x) (upd a (nth a j 0 + (klen ker - 1 - q)) j)).
  { replace (shp x) with (upd a (nth a (shp x) 0) (upd a (nth a (shp x) 0 - klen ker + 1) (shp x))) by (rewrite upd_upd; apply upd_nth).
    apply valid_upd; auto. lia. }
  rewrite Vx by auto. rewrite nth_upd_eq by lia. rewrite upd_upd.
  replace (nth a (shp x) 0 - 1 - (nth a j 0 + (klen ker - 1 - q))) with (nth a (shp x) 0 - klen ker + 1 - 1 - nth a j 0 + q) by lia.
  assert (E : nth (Z.to_nat (klen ker - 1 - q)) ker f0 = fmul sg (nth (Z.to_nat q) ker f0)).
  { transitivity (nth (Z.to_nat q) (rev ker) f0).
    - unfold klen in *. rewrite rev_nth by lia. f_equal. lia.
    - rewrite Rk. unfold klen in Hq. rewrite (nth_indep _ f0 (fmul sg f0)) by (rewrite map_length; lia). apply map_nth. }
  rewrite E. ring.
Qed.
(** A correlation along another axis. *)
Lemma line_flip_other d a (x x' : T) (ker : list F) m j : flipped d x x' -> (a < ndim x)%nat -> (d < ndim x)%nat -> d <> a -> m = nth a (shp x) 0 - klen ker + 1 ->
  valid (upd a m (shp x)) j ->
  line_corr F x' ker a j = line_corr F x ker a (upd d (nth d (shp x) 0 - 1 - nth d j 0) j).
Proof.
  intros [Sx Vx] Ha Hd Hne -> Vj. unfold ndim in Ha, Hd. assert (K0 : 0 <= klen ker) by (unfold klen; lia).
  pose proof (valid_length _ _ Vj) as Lj. rewrite upd_length in Lj.
  pose proof (valid_nth _ _ a Vj) as Vn. rewrite upd_length in Vn. specialize (Vn Ha). rewrite nth_upd_eq in Vn by auto.
  unfold line_corr. apply fsum_ext. intros q Hq.
  assert (V1 : valid (shp x) (upd a (nth a j 0 + q) j)).
  { replace (shp x) with (upd a (nth a (shp x) 0) (upd a (nth a (shp x) 0 - klen ker + 1) (shp x))) by (rewrite upd_upd; apply upd_nth).
    apply valid_upd; auto. lia. }
  rewrite Vx by auto. rewrite !nth_upd_ne by auto. f_equal. f_equal. apply upd_comm. auto.
Qed.

Lemma conv_flip fuel junk junk' ker smooth normalize p m shared (e : edge_filter F) (x x' : T) ax al k c d sg :
  edge_init (NItem ker) smooth normalize (Some p) shared = Ok e -> ker <> [] -> In c al ->
  edge_image fuel p m x ax al (k + 1) -> klen ker <= k -> even_handed p ->
  (d < ndim x)%nat -> (m = MPeriodize -> nth d (shp x) 0 mod 2 = 0) ->
  (d = c -> klen ker mod 2 = 1 /\ rev (used_kernel trunc ker) = map (fmul sg) (used_kernel trunc ker)) ->
  flipped d x x' ->
  exists z z', snd (conv_edge trunc fuel junk e x (Z.of_nat c)) = Ok z /\ snd (conv_edge trunc fuel junk' e x' (Z.of_nat c)) = Ok z' /\
    flipped_times (if Nat.eqb d c then sg else f1) d z z' /\
    ndim z = ndim x /\ (forall b, (b < ndim x)%nat -> nth b (shp x) 0 <= nth b (shp z) 0 <= nth b (shp x) 0 + 1) /\
    (forall b, b <> c -> nth b (shp z) 0 = nth b (shp x) 0).
Proof.
  intros HI Hk Hin EI Hlk EH Hd Hp Hc Fl. pose proof Fl as [Sx _]. pose proof EI as [[A1 A2 A3] P0 Pos1 U M FU].
  pose proof (edge_image_one F fuel p m x ax al (k + 1) c ker EI Hin ltac:(lia)) as SC.
  pose proof (A2 c Hin) as Hcx.
  assert (SC' : same_call F fuel p x' (AxInt (Z.of_nat c)) [c] [m] [ker] [1]) by (eapply same_call_shape; eauto).
  destruct (conv_edge_same F trunc fuel junk ker smooth normalize p shared e x c [m] HI Hk SC) as
    [w [xp [z [W1 [W2 [W3 [W4 [W5 [W6 [C1 [C2 [CX [CB [C3 C4]]]]]]]]]]]]]].
  destruct (conv_edge_same F trunc fuel junk' ker smooth normalize p shared e x' c [m] HI Hk SC') as
    [wy [yp [z' [V1 [V2 [V3 [V4 [V5 [V6 [D1 [D2 [DX [DB [D3 D4]]]]]]]]]]]]]].
  assert (wy = w) by (eapply same_width_unique; [|exact V1|rewrite Sx; exact W1]; lia). subst wy.
  assert (Wsym : d = c -> fst w = snd w).
  { intros E. destruct (Hc E) as [H1 _]. destruct W1 as [n [N1 [N2 N3]]]. unfold is_ceil_div in N1. assert (K1 : 1 <= klen ker) by (unfold klen; destruct ker; [congruence|simpl; lia]).
    rewrite Z.max_r in N2 by lia. Z.to_euclidean_division_equations. lia. }
  assert (PF : padder_for 1 p [m]) by (apply (uniform_for F 1); auto).
  assert (ND : NoDup [c]) by (constructor; [intros []|constructor]).
  assert (QP : forall b q, axis_par (with_width p [w]) (last_axes (with_width p [w]) [c]) b = Some q -> ap_mode q = m).
  { intros b q Hq. destruct (with_width_par F 1 p [m] [w] [c] PF eq_refl eq_refl ND) as [LA Q]. rewrite LA in Hq.
    destruct (in_dec Nat.eq_dec b [c]) as [Hi|Hi]; [|rewrite axis_par_notin in Hq by auto; discriminate].
    destruct Hi as [<-|[]]. destruct (Q 0%nat ltac:(lia)) as [q' [Q1 [_ [_ Q4]]]]. cbn [nth] in Q1. rewrite Q1 in Hq. injection Hq as <-. exact Q4. }
  destruct (padding_mirror F fuel junk junk' (with_width p [w]) (with_width p [w]) d x x' (AxInt (Z.of_nat c)) [c] W2 W3) as [u [u' [F1 [F2 Fu]]]]; auto.
  { intros b q Hq. rewrite (QP b q Hq). apply fills_not_empty; auto. }
  { intros q Hq Hm. apply Hp. rewrite <- (QP d q Hq). auto. }
  { apply (mirror_values_padder F d [c] p p [m] [w]); auto; [apply even_mirror; auto|]. intros [|r] Hr E; cbn in *; [auto|lia]. }
  rewrite W6 in F1. rewrite V6 in F2. injection F1 as <-. injection F2 as <-. pose proof Fu as [Su _].
  assert (Nz : ndim xp = ndim x) by (unfold ndim; rewrite CX; apply upd_length).
  assert (Sz' : shp z' = shp z) by (rewrite D2, C2, Su, Sx; auto).
  assert (Szp : shp z = upd c (nth c (shp xp) 0 - klen ker + 1) (shp xp)).
  { rewrite C2, CX, upd_upd. reflexivity. }
  exists z, z'. split; auto. split; auto. split; [|split; [|split]].
  - split; auto. intros j Vj. rewrite D4 by congruence.
    assert (VF : valid (shp z) (upd d (nth d (shp z) 0 - 1 - nth d j 0) j)) by (apply valid_flip; auto).
    rewrite C4 by auto. destruct (Nat.eqb_spec d c) as [E|E].
    + subst d. rewrite (line_flip c xp yp _ sg (nth c (shp z) 0) j); auto; try lia.
      * rewrite used_klen, C2, nth_upd_eq by auto. reflexivity.
      * apply Hc; auto.
      * rewrite C2, nth_upd_eq by auto. rewrite Szp in Vj. exact Vj.
    + rewrite (line_flip_other d c xp yp _ (nth c (shp z) 0) j); auto; try lia.
      * assert (E1 : nth d (shp z) 0 = nth d (shp xp) 0) by (rewrite Szp; apply nth_upd_ne; auto). rewrite E1. ring.
      * rewrite used_klen, C2, nth_upd_eq by auto. reflexivity.
      * rewrite C2, nth_upd_eq by auto. rewrite Szp in Vj. exact Vj.
  - unfold ndim. rewrite C2. apply upd_length.
  - intros b Hb. rewrite C2, nth_upd. destruct (Nat.eqb_spec c b); cbn [andb]; [|lia]. subst. destruct (Nat.ltb_spec b (length (shp x))); lia.
  - intros b Hb. rewrite C2. apply nth_upd_ne. auto.
Qed.

Lemma shape_eq (x y : T) : shp y = shp x -> ndim y = ndim x.
Proof. intros E. unfold ndim. now rewrite E. Qed.
(** component, with a padder. *)
Theorem component_flip fuel junk junk' ker smooth raw normalize p m shared (e : edge_filter F) (x x' : T) ea ax ax' c d al k sg :
  edge_init (NItem ker) smooth normalize (Some p) shared = Ok e -> ker <> [] ->
  check_axes (Z.of_nat (ndim x)) ea = Ok [Z.of_nat c] -> In c al ->
  edge_image fuel p m x ax al (k + 1) -> check_axes (Z.of_nat (ndim x)) ax' = Ok (map Z.of_nat al) -> klen ker <= k -> even_handed p ->
  expand (length (without c al)) smooth = Some raw -> (forall s, In s raw -> klen s <= k) ->
  (d < ndim x)%nat -> (m = MPeriodize -> nth d (shp x) 0 mod 2 = 0) ->
  (d = c -> klen ker mod 2 = 1 /\ rev (used_kernel trunc ker) = map (fmul sg) (used_kernel trunc ker) /\ (sg = f1 \/ linear_padder p m)) ->
  (forall r, (r < length (without c al))%nat -> nth r (without c al) 0%nat = d -> rev (nth r raw []) = nth r raw [] /\ (nth r raw [] = [] \/ klen (nth r raw []) mod 2 = 1)) ->
  flipped d x x' ->
  exists y y', snd (component trunc fuel junk e x ea ax') = Ok y /\ snd (component trunc fuel junk' e x' ea ax') = Ok y' /\
    flipped_times (if Nat.eqb d c then sg else f1) d y y'.
Proof.
  intros HI Hk Ha Hin EI Hax Hlk EH Hr Hs Hd Hp Hc Hsm Fl. pose proof Fl as [Sx _].
  assert (K0 : 0 <= k) by (unfold klen in Hlk; lia). pose proof EI as [[A1 A2 A3] _ _ U _ _].
  destruct (conv_flip fuel junk junk' ker smooth normalize p m shared e x x' ax al k c d sg HI Hk Hin EI Hlk EH Hd Hp) as
    [z [z' [C1 [C2 [FT [Nd [Dn Do]]]]]]]; auto.
  { intros E. destruct (Hc E) as [H1 [H2 _]]. auto. }
  destruct (edge_init_built F _ _ _ _ _ _ HI) as [I1 [I2 [I3 I4]]]. specialize (I4 _ _ Hr).
  destruct (built_par F _ _ _ _ _ I4) as [PP [Pd [E1 [E2 _]]]].
  pose proof (edge_image_rest F fuel p m z _ al k c (smoothers normalize raw) (edge_image_shape F _ _ _ _ _ _ _ _ EI Nd Dn) Hin K0 (smoothers_len F normalize raw k Hs)) as SC2.
  assert (Lr : length raw = length (without c al)) by (eapply expand_length; eauto).
  assert (Sm : forall r, (r < length (without c al))%nat -> rev (nth r raw []) = nth r raw [] ->
     rev (nth r (smoothers normalize raw) []) = nth r (smoothers normalize raw) []).
  { intros r Hrr E. unfold smoothers. destruct normalize; auto. 
    rewrite (nth_indep _ [] (map (fun v => fdiv v (wsum [])) [])) by (rewrite map_length; lia).
    rewrite (map_nth (fun k => map (fun v => fdiv v (wsum k)) k)). rewrite <- map_rev. now rewrite E. }
  assert (Sl : forall r, (r < length (without c al))%nat -> klen (nth r (smoothers normalize raw) []) = klen (nth r raw [])).
  { intros r Hrr. unfold smoothers. destruct normalize; auto.
    rewrite (nth_indep _ [] (map (fun v => fdiv v (wsum [])) [])) by (rewrite map_length; lia).
    rewrite (map_nth (fun k => map (fun v => fdiv v (wsum k)) k)). unfold klen. now rewrite map_length. }
  assert (FM : forall u, flipped d z u -> exists y y', snd (sep_forward fuel junk (ef_smooth e) z (AxSeq (map Z.of_nat (without c al)))) = Ok y /\
     snd (sep_forward fuel junk' (ef_smooth e) u (AxSeq (map Z.of_nat (without c al)))) = Ok y' /\ flipped d y y').
  { intros u Hu. apply (filter_mirror F fuel junk junk' (ef_smooth e) d z u _ (without c al) (smoothers normalize raw) p (repeat m (length (without c al)))); auto.
    - apply even_mirror; auto.
    - intros r Hrr Er. destruct (Hsm r Hrr Er) as [S1 S2]. split; [apply Sm; auto|]. split.
      + destruct S2 as [S2|S2]; [left|right; now rewrite Sl].
        apply length_zero_iff_nil. pose proof (Sl r Hrr) as L. rewrite S2 in L. unfold klen in L. simpl in L. lia.
      + intros Em. rewrite (nth_indep _ _ m) in Em by (now rewrite repeat_length). rewrite nth_repeat in Em. rewrite Do; auto.
        intros ->. subst. assert (In (nth r (without c al) 0%nat) (without c al)) by (apply nth_In; auto).
        rewrite Er in *. unfold without in *. apply filter_In in H as [_ H]. now rewrite Nat.eqb_refl in H.
    - now rewrite Nd. }
  assert (Out : forall y y' r, snd (sep_forward fuel junk (ef_smooth e) z (AxSeq (map Z.of_nat (without c al)))) = Ok y ->
     snd (sep_forward fuel junk' (ef_smooth e) z' (AxSeq (map Z.of_nat (without c al)))) = Ok y' -> flipped_times r d y y' ->
     exists y y', snd (component trunc fuel junk e x ea ax') = Ok y /\ snd (component trunc fuel junk' e x' ea ax') = Ok y' /\ flipped_times r d y y').
  { intros y y' r Y1 Y2 Y3. exists y, y'. split; [|split; [|exact Y3]].
    - rewrite (component_smooths F trunc fuel junk ker smooth normalize (Some p) shared e x z ea ax' c al); auto.
    - rewrite (component_smooths F trunc fuel junk' ker smooth normalize (Some p) shared e x' z' ea ax' c al); auto; unfold ndim in *; now rewrite Sx. }
  destruct (Nat.eqb_spec d c) as [E|E].
  - destruct (Hc E) as [_ [_ [E1'|LP]]].
    + subst sg. destruct (FM z') as [y [y' [Y1 [Y2 Y3]]]]; [now apply flip_once|]. apply (Out y y' f1); auto. now apply flip_once.
    + set (u := mkT (shp z) (fun i => at_ z (upd d (nth d (shp z) 0 - 1 - nth d i 0) i))).
      assert (Fu : flipped d z u) by (split; reflexivity || (intros; reflexivity)).
      destruct (FM u Fu) as [y [y' [Y1 [Y2 Y3]]]].
      assert (SC3 : same_call F fuel p u (AxSeq (map Z.of_nat (without c al))) (without c al) (repeat m (length (without c al))) (smoothers normalize raw) (repeat 1 (length (without c al)))).
      { eapply same_call_shape; [|exact SC2]. reflexivity. }
      destruct FT as [FT1 FT2].
      assert (CC : combination sg f0 u u z').
      { split; [reflexivity|]. split; [exact FT1|]. intros i Vi. rewrite FT2 by exact Vi. cbn [u at_]. ring. }
      destruct (pool_linear_same F fuel junk' (ef_smooth e) sg f0 u u z' _ (without c al) _ _ p _ PP E1 E2 Pd SC3 (uniform_linear F _ p m U LP) CC)
        as [y1 [y2 [y3 [X1 [X2 [X3 X4]]]]]].
      rewrite Y2 in X1, X2. injection X1 as <-. injection X2 as <-. apply (Out y y3 sg); auto.
      destruct X4 as [_ [X4 X5]]. destruct Y3 as [Y3 Y4]. split; [congruence|]. intros i Vi. rewrite X5 by congruence. rewrite Y4 by auto. ring.
  - destruct (FM z') as [y [y' [Y1 [Y2 Y3]]]]; [now apply flip_once|]. apply (Out y y' f1); auto. now apply flip_once.
Qed.

(** *** the named filters *)
Lemma ints_rev l : rev (ints l : list F) = ints (rev l).
Proof. unfold ints. now rewrite map_rev. Qed.
Lemma named_sign normalize pd shared (e : edge_filter F) ker smooth : truncates trunc -> named normalize pd shared e ker smooth ->
  klen ker mod 2 = 1 /\ rev (used_kernel trunc ker) = map (fmul (match smooth with [] => f1 | _ => fopp f1 end)) (used_kernel trunc ker).
Proof.
  intros TR N. assert (E : used_kernel trunc ker = ker).
  { destruct N; try (apply used_ints; auto; fail). apply used_long. unfold farid_edge. cbn [length]. lia. }
  rewrite E. destruct N; (split; [reflexivity|]).
  - unfold central_kernel, ints, fofZ. cbn. repeat (f_equal; try ring).
  - unfold central_kernel, ints, fofZ. cbn. repeat (f_equal; try ring).
  - unfold central_kernel, ints, fofZ. cbn. repeat (f_equal; try ring).
  - assert (D : forall z k, decimal z k = fmul (fopp f1) (decimal (- z) k) :> F).
    { intros z k. unfold decimal. rewrite fofZ_opp. assert (G : forall u v : F, fdiv (fopp u) v = fopp (fdiv u v)).
      { intros u v. rewrite !(Fdiv_def (f_field F)). ring. }
      rewrite G. ring. }
    unfold farid_edge, farid_smooth. cbn [rev app map]. repeat (apply f_equal2; [first [apply D|ring]|]). reflexivity.
  - unfold laplace_kernel, ints. cbn [rev app map]. repeat (apply f_equal2; [ring|]). reflexivity.
Qed.
Lemma named_smooth normalize pd shared (e : edge_filter F) ker smooth : named normalize pd shared e ker smooth ->
  rev smooth = smooth /\ (smooth = [] \/ klen smooth mod 2 = 1).
Proof. intros []; (split; [reflexivity|]); auto. Qed.
Theorem named_flip fuel junk junk' normalize p m shared (e : edge_filter F) (x x' : T) ker smooth ea ax ax' a d al : truncates trunc ->
  named normalize (Some p) shared e ker smooth ->
  check_axes (Z.of_nat (ndim x)) ea = Ok [Z.of_nat a] -> In a al ->
  edge_image fuel p m x ax al 6 -> check_axes (Z.of_nat (ndim x)) ax' = Ok (map Z.of_nat al) -> even_handed p ->
  (d < ndim x)%nat -> (m = MPeriodize -> nth d (shp x) 0 mod 2 = 0) -> (smooth <> [] -> d = a -> linear_padder p m) ->
  flipped d x x' ->
  exists y y', snd (component trunc fuel junk e x ea ax') = Ok y /\ snd (component trunc fuel junk' e x' ea ax') = Ok y' /\
    flipped_times (if Nat.eqb d a then match smooth with [] => f1 | _ => fopp f1 end else f1) d y y'.
Proof.
  intros TR N Ha Hin EI Hax EH Hd Hp LP Fl. destruct (named_len F _ _ _ _ _ _ N) as [L1 L2].
  destruct (named_sign _ _ _ _ _ _ TR N) as [O R]. destruct (named_smooth _ _ _ _ _ _ N) as [P1 P2].
  pose proof (named_balanced F trunc _ _ _ _ _ _ TR N) as [Nk _]. apply named_init in N.
  apply (component_flip fuel junk junk' ker (NItem smooth) (repeat smooth (length (without a al))) normalize p m shared e x x' ea ax ax' a d al 5); auto.
  - intros s Hs. apply repeat_spec in Hs. now subst.
  - intros E. split; auto. split; auto. destruct smooth; auto. right. apply LP; auto. discriminate.
  - intros r Hr _. assert (E : nth r (repeat smooth (length (without a al))) [] = smooth).
    { apply (repeat_spec (length (without a al))). apply nth_In. now rewrite repeat_length. }
    rewrite E. auto.
Qed.
Theorem magnitude_flip fuel junk junk' normalize p m shared (e : edge_filter F) (x x' : T) ker smooth ax d al eps pw : truncates trunc ->
  named normalize (Some p) shared e ker smooth -> edge_image fuel p m x ax al 6 -> m <> MPeriodize -> (2 <= length al)%nat -> even_handed p ->
  (d < ndim x)%nat -> (smooth <> [] -> In d al -> linear_padder p m /\ forall v, raise_to F pw (fopp v) = raise_to F pw v) ->
  flipped d x x' ->
  exists y y', snd (magnitude trunc fuel junk e x ax eps pw) = Ok y /\ snd (magnitude trunc fuel junk' e x' ax eps pw) = Ok y' /\
    shp y = shp x /\ flipped d y y'.
Proof.
  intros TR N EI Nm Hl EH Hd Hpw Fl. pose proof EI as [[A1 A2 A3] _ _ _ _ _]. pose proof Fl as [Sx _].
  assert (C : forall a, In a al -> exists y y', snd (component trunc fuel junk e x (AxInt (Z.of_nat a)) (AxSeq (map Z.of_nat al))) = Ok y /\
     snd (component trunc fuel junk' e x' (AxInt (Z.of_nat a)) (AxSeq (map Z.of_nat al))) = Ok y' /\
     shp y = shp x /\ flipped_times (if Nat.eqb d a then match smooth with [] => f1 | _ => fopp f1 end else f1) d y y').
  { intros a Hin. assert (CA : check_axes (Z.of_nat (ndim x)) (AxSeq (map Z.of_nat al)) = Ok (map Z.of_nat al)) by (apply check_axes_seq_nat; auto).
    destruct (named_flip fuel junk junk' normalize p m shared e x x' ker smooth (AxInt (Z.of_nat a)) ax (AxSeq (map Z.of_nat al)) a d al) as [y [y' [Y1 [Y2 Y3]]]]; auto.
    - apply check_one.
    - intros; contradiction.
    - intros H ->. apply Hpw; auto.
    - destruct (named_len F _ _ _ _ _ _ N) as [L1 L2]. pose proof (named_balanced F trunc _ _ _ _ _ _ TR N) as [Nk _].
      exists y, y'. split; auto. split; auto. split; auto.
      eapply (component_shape F trunc fuel junk ker (NItem smooth) (repeat smooth (length (without a al))) normalize p m shared e x y
        (AxInt (Z.of_nat a)) ax (AxSeq (map Z.of_nat al)) a al 6); auto; try lia.
      + eapply named_init; eauto.
      + apply check_one.
      + intros s Hs. apply repeat_spec in Hs. subst. lia. }
  set (cs := fun a => match snd (component trunc fuel junk e x (AxInt (Z.of_nat a)) (AxSeq (map Z.of_nat al))) with Ok y => y | Err _ => x end).
  set (cs' := fun a => match snd (component trunc fuel junk' e x' (AxInt (Z.of_nat a)) (AxSeq (map Z.of_nat al))) with Ok y => y | Err _ => x end).
  assert (Hk0 : ker <> []) by (destruct N; discriminate). pose proof N as N0. apply named_init in N0.
  destruct (magnitude_ok F trunc fuel junk ker (NItem smooth) normalize (Some p) shared e x ax al eps pw cs (shp x)) as [y [Y1 [Y2 Y3]]]; auto.
  { intros a Hin. destruct (C a Hin) as [y [y' [C1 [C2 [C3 C4]]]]]. unfold cs. rewrite C1. auto. }
  destruct (magnitude_ok F trunc fuel junk' ker (NItem smooth) normalize (Some p) shared e x' ax al eps pw cs' (shp x)) as [y' [Z1 [Z2 Z3]]]; auto.
  { unfold ndim. now rewrite Sx. }
  { intros a Hin. destruct (C a Hin) as [y0 [y' [C1 [C2 [C3 C4]]]]]. unfold cs'. rewrite C2. split; auto. destruct C4. congruence. }
  exists y, y'. split; auto. split; auto. split; auto. split; [congruence|]. rewrite Y2. intros i Vi.
  assert (Vf : valid (shp x) (upd d (nth d (shp x) 0 - 1 - nth d i 0) i)) by (apply valid_flip; auto).
  rewrite Z3, Y3 by auto. f_equal. f_equal. unfold axis_sum. f_equal. apply map_ext_in. intros a Hin.
  destruct (C a Hin) as [y0 [y1 [C1 [C2 [C3 [C4 C5]]]]]]. unfold cs, cs'. rewrite C1, C2, C5 by congruence. rewrite C3.
  destruct (Nat.eqb_spec d a) as [E|E]; [|f_equal; ring]. destruct smooth as [|s0 sm]; [f_equal; ring|].
  subst a. destruct (Hpw ltac:(discriminate) Hin) as [_ H]. rewrite <- H. f_equal. ring.
Qed.
End EF.
