(** The blurs of SSIM: SeparablePoolNd with stride 1, with or without a same padder. *)
From Verif Require Export SsimRun.
Open Scope Z_scope.

(** The call can be made: without a padder the windows fit; with one it is a proper call. *)
Definition blur_call {F : ofield} (fuel : nat) (x : tensor F) (al : list nat) (kers : list (list F)) (pd : option (padder F)) : Prop :=
  match pd with
  | None => forall r, (r < length al)%nat -> klen (nth r kers []) <= nth (nth r al 0%nat) (shp x) 0
  | Some p => exists ms, same_call F fuel p x (AxSeq (map Z.of_nat al)) al ms kers (repeat 1 (length al))
  end.
(** The padded image that is correlated. *)
Definition pdimg {F : ofield} (fuel : nat) (junk : list Z -> F) (al : list nat) (pd : option (padder F)) (ws : list (Z * Z)) (x : tensor F) : tensor F :=
  match pd with
  | None => x
  | Some p => match padder_forward fuel junk (with_width p ws) x (AxSeq (map Z.of_nat al)) with Ok xp => xp | Err _ => x end
  end.
Definition blur_at {F : ofield} (fuel : nat) (junk : list Z -> F) (al : list nat) (kers : list (list F)) (pd : option (padder F)) (ws : list (Z * Z)) (x : tensor F) : list Z -> F :=
  correlation al kers (repeat 1 (length al)) (pdimg fuel junk al pd ws x).
(** No axis is padded periodically from an odd length (one pixel more than needed). *)
Definition exact_widths {F : ofield} (pd : option (padder F)) (al : list nat) (sh : list Z) : Prop :=
  forall p ms r, pd = Some p -> expand (length al) (p_mode p) = Some ms -> (r < length al)%nat ->
    nth r ms MUnknown <> MPeriodize \/ Z.even (nth (nth r al 0%nat) sh 0) = true.
Definition pair_sum (w : Z * Z) : Z := fst w + snd w.

Record blur_facts {F : ofield} (fuel : nat) (junk : list Z -> F) (b : pool F) (al : list nat) (kers : list (list F)) (pd : option (padder F))
    (sh psh osh : list Z) (ws : list (Z * Z)) : Prop := {
  bf_blurs : blurs (sep_forward fuel junk) b (map Z.of_nat al) sh osh (match pd with None => None | Some _ => Some (NList ws) end) (blur_at fuel junk al kers pd ws);
  bf_steps : steps_ok F al (map eff_kernel kers) (map2 eff_stride kers (repeat 1 (length al))) psh;
  bf_osh : osh = pooled al (map eff_kernel kers) (map2 eff_stride kers (repeat 1 (length al))) psh;
  bf_len : length psh = length sh /\ length ws = length al /\ length kers = length al;
  bf_psh : forall z, shp z = sh -> shp (pdimg fuel junk al pd ws z) = psh;
  bf_ws : forall r, (r < length al)%nat -> 0 <= fst (nth r ws (0, 0)) /\ 0 <= snd (nth r ws (0, 0)) /\
    pair_sum (nth r ws (0, 0)) = match pd with None => 0 | Some _ => Z.max 0 (klen (nth r kers []) - 1) end;
  bf_before : forall p, pd = Some p -> map fst ws = map (fun k => klen k / 2) kers;
  bf_other : forall d, ~ In d al -> nth d psh 0 = nth d sh 0;
  bf_size : forall r, (r < length al)%nat -> exists e, nth (nth r al 0%nat) psh 0 = nth (nth r al 0%nat) sh 0 + pair_sum (nth r ws (0, 0)) + e /\
    0 <= e <= 1 /\ (exact_widths pd al sh \/ pd = None -> e = 0);
  bf_keep : forall z i, shp z = sh -> valid sh i -> at_ (pdimg fuel junk al pd ws z) (place al (repeat 1 (length al)) i (map fst ws)) = at_ z i;
  bf_rel : forall P R, preserves F P R -> match pd with None => True | Some p => all_par F P (with_width p ws) al end ->
    forall x y z, shp x = sh -> related R x y z -> related R (pdimg fuel junk al pd ws x) (pdimg fuel junk al pd ws y) (pdimg fuel junk al pd ws z);
  bf_par : forall P p, pd = Some p -> every_axis (length al) p P -> all_par F (par_of P) (with_width p ws) al;
  bf_lin : match pd with None => True | Some p => every_axis (length al) p linear_mode end ->
    forall c d x y z, shp x = sh -> combination c d x y z -> combination c d (pdimg fuel junk al pd ws x) (pdimg fuel junk al pd ws y) (pdimg fuel junk al pd ws z) }.

Section Blur.
Variable F : ofield.
Add Field Fsb : (f_field F).
Notation T := (tensor F).

Lemma on_axes_seq (x : T) ax al : on_axes x ax al -> on_axes x (AxSeq (map Z.of_nat al)) al.
Proof. intros [A B C]. constructor; auto. apply check_axes_seq_nat; auto. Qed.

Lemma correlate_teq al (kers : list (list F)) sts (x y : T) : steps_ok F al kers sts (shp x) -> teq x y -> teq (correlate al kers sts x) (correlate al kers sts y).
Proof.
  intros [Hn [Hl [Hk [Hs Hw]]]] [S V]. split; cbn [correlate shp at_]; [now rewrite S|]. intros j Vj. apply bsum_ext. intros o Vo.
  rewrite V; auto. eapply place_valid; eauto.
Qed.
Lemma klen_pos (k : list F) : 0 <= klen k. Proof. unfold klen. lia. Qed.
Lemma place_shift al (n : nat) (ws : list Z) (i : list Z) : NoDup al -> (forall a, In a al -> (a < length i)%nat) -> length ws = length al -> n = length al ->
  forall f, (forall r, (r < length al)%nat -> f (nth r al 0%nat) = nth r ws 0) -> (forall d, ~ In d al -> f d = 0) ->
  map (fun d => nth d i 0 + f d) (seq 0 (length i)) = place al (repeat 1 n) i ws.
Proof.
  intros N L Lw -> f H1 H2. apply list_ext with (d := 0); [rewrite map_length, seq_length, place_length; auto|]. rewrite map_length, seq_length. intros d Hd.
  rewrite nth_map_seq by auto. destruct (in_dec Nat.eq_dec d al) as [Hi|Hi].
  - destruct (In_pos d al 0%nat Hi) as [r [Hr <-]]. rewrite place_nth; auto; [|now rewrite repeat_length]. rewrite nth_repeat, H1 by auto. lia.
  - rewrite place_notin, H2 by auto. lia.
Qed.

Theorem blur_ok fuel junk (b : pool F) (x : T) ax al kers pd : on_axes x ax al -> built (length al) kers (repeat 1 (length al)) pd b ->
  blur_call fuel x al kers pd -> exists psh osh ws, blur_facts fuel junk b al kers pd (shp x) psh osh ws.
Proof.
  intros OA B BC. destruct (built_par F _ _ _ _ _ B) as [PP [Pd [E1 [E2 _]]]]. pose proof (on_axes_seq _ _ _ OA) as OS. pose proof OA as [O1 O2 O3].
  pose proof PP as [P1 [P2 _]]. set (sts := repeat 1 (length al)) in *. set (ax' := AxSeq (map Z.of_nat al)) in *.
  destruct pd as [p|]; cbn [blur_call] in BC.
  - destruct BC as [ms SC].
    destruct (sep_forward_same F fuel junk b x ax' al kers sts p ms PP E1 E2 Pd SC) as [ws [xp [y [W1 [W2 [W3 [W4 [W5 [W6 [W7 [W8 [W9 _]]]]]]]]]]]].
    assert (Run : forall z, shp z = shp x -> exists zp w, pdimg fuel junk al (Some p) ws z = zp /\ padder_forward fuel junk (with_width p ws) z ax' = Ok zp /\
       shp zp = full_shape (with_width p ws) al (shp x) /\ sep_forward fuel junk b z ax' = (set_padder b (with_width p ws), Ok w) /\
       teq w (correlate al (map eff_kernel kers) (map2 eff_stride kers sts) zp)).
    { intros z Hz. pose proof (same_call_shape F fuel p x z ax' al ms kers sts Hz SC) as SCz.
      destruct (sep_forward_same F fuel junk b z ax' al kers sts p ms PP E1 E2 Pd SCz) as [wz [zp [w [Z1 [Z2 [Z3 [Z4 [Z5 [Z6 [Z7 [Z8 [Z9 _]]]]]]]]]]]].
      assert (wz = ws). { apply list_ext with (d := (0,0)); [lia|]. intros r Hr. eapply same_width_unique; [apply (sc_strides _ _ _ _ _ _ _ _ _ SC r)|apply (Z2 r)|rewrite Hz; apply (W2 r)]; lia. }
      subst wz. rewrite Hz in Z7. exists zp, w. unfold pdimg. fold ax'. rewrite Z6. auto. }
    destruct (same_pad_call F fuel p x ax' al ms kers sts ws SC W1 P1 W2) as [PC [AF [NE [FL [FN FS]]]]].
    pose proof SC as [_ N0 P0 P1' S1 PFo M1 FU].
    assert (ST : steps_ok F al (map eff_kernel kers) (map2 eff_stride kers sts) (full_shape (with_width p ws) al (shp x))).
    { apply (eff_steps F b); auto. intros c Hc. rewrite FL. auto. }
    assert (Rel : forall P R, preserves F P R -> all_par F P (with_width p ws) al ->
      forall x0 y0 z0, shp x0 = shp x -> related R x0 y0 z0 -> related R (pdimg fuel junk al (Some p) ws x0) (pdimg fuel junk al (Some p) ws y0) (pdimg fuel junk al (Some p) ws z0)).
    { intros P R PR AP x0 y0 z0 Hx0 C.
      destruct (same_pad_call F fuel p x0 ax' al ms kers sts ws (same_call_shape F fuel p x x0 ax' al ms kers sts Hx0 SC) W1 P1 ltac:(now rewrite Hx0)) as [PC0 [AF0 [NE0 _]]].
      destruct (forward_rel F P R fuel junk (with_width p ws) x0 y0 z0 ax' al PR PC0 AF0 NE0 AP C) as [x1 [y1 [z1 [X1 [Y1 [Z1 C1]]]]]].
      unfold pdimg. fold ax'. now rewrite X1, Y1, Z1. }
    exists (full_shape (with_width p ws) al (shp x)), (pooled al (map eff_kernel kers) (map2 eff_stride kers sts) (full_shape (with_width p ws) al (shp x))), ws.
    constructor.
    + constructor.
      * intros b' z M Hz. destruct (Run z Hz) as [zp [w [Q1 [Q2 [Q3 [Q4 [Q5 Q6]]]]]]].
        destruct (sep_forward_like F fuel junk b b' z ax' M) as [L1 [L2 L3]]. rewrite Q4 in L1, L2, L3. cbn [fst snd] in *.
        exists (set_padder b (with_width p ws)), w. split; [|split; [|split; [|split]]]; auto.
        { rewrite (surjective_pairing (sep_forward fuel junk b' z _)). fold ax'. rewrite <- L1, <- L3; eauto. }
        { rewrite Q5. cbn [correlate shp]. now rewrite Q3. }
        { intros j Vj. rewrite Q6 by (rewrite Q5; cbn [correlate shp]; rewrite Q3; exact Vj). unfold blur_at. rewrite Q1. reflexivity. }
      * intros z z' j Hz [Tz1 Tz2] Vj. unfold blur_at. destruct (Rel _ _ (preserves_eq F)) with (x0 := z) (y0 := z') (z0 := z) as [R1 [R2 R3]]; auto.
        { intros a q _ _. exact I. }
        { split; auto. }
        destruct (Run z Hz) as [zp [w [Q1 [Q2 [Q3 _]]]]]. rewrite Q1 in *.
        unfold correlation. fold sts. apply bsum_ext. intros o Vo. f_equal. apply R3. rewrite Q3. destruct ST as [T1 [T2 [T3 [T4 T5]]]]. eapply place_valid; eauto.
    + exact ST.
    + reflexivity.
    + split; [exact FL|]. split; [auto|]. auto.
    + intros z Hz. destruct (Run z Hz) as [zp [w [Q1 [Q2 [Q3 _]]]]]. now rewrite Q1.
    + intros r Hr. destruct (W2 r Hr) as [m [C1 [C2 C3]]]. unfold sts in C1, C2. rewrite nth_repeat in C1, C2. unfold is_ceil_div in C1. unfold pair_sum. pose proof (klen_pos (nth r kers [])). lia.
    + intros q _. apply list_ext with (d := 0); [rewrite !map_length; lia|]. rewrite map_length. intros r Hr. rewrite W1 in Hr. destruct (W2 r Hr) as [m [C1 [C2 C3]]]. unfold sts in C1, C2. rewrite nth_repeat in C1, C2. unfold is_ceil_div in C1.
      rewrite (nth_indep (map fst ws) 0 (fst (0, 0))) by (rewrite map_length; lia). rewrite map_nth. rewrite (nth_indep (map _ kers) 0 ((fun k : list F => klen k / 2) [])) by (rewrite map_length; lia).
      rewrite (map_nth (fun k : list F => klen k / 2)). pose proof (klen_pos (nth r kers [])). Z.div_mod_to_equations. lia.
    + intros d Hd. destruct (Nat.lt_ge_cases d (ndim x)) as [Hd2|Hd2]; [now apply FN|].
      rewrite !nth_overflow; auto. rewrite FL. auto.
    + intros r Hr. rewrite FS by auto. cbv zeta. set (w := nth r ws (0, 0)). set (n := nth (nth r al 0%nat) (shp x) 0). unfold pair_sum.
      destruct ((fst w =? 0) && (snd w =? 0)) eqn:E.
      { apply andb_true_iff in E. rewrite !Z.eqb_eq in E. exists 0. lia. }
      exists (if is_periodize (nth r ms MUnknown) then n mod 2 else 0). split; [ring|]. split; [pose proof (Z.mod_pos_bound n 2); destruct (is_periodize _); lia|].
      intros [EW|]; [|discriminate]. destruct (is_periodize (nth r ms MUnknown)) eqn:Em; auto.
      destruct (EW p ms r eq_refl (pf_mode _ _ _ PFo) Hr) as [C|C]; [destruct (nth r ms MUnknown); try discriminate; congruence|].
      fold n in C. rewrite Zeven_mod in C. now apply Zeq_bool_eq in C.
    + intros z i Hz Vi. pose proof (same_call_shape F fuel p x z ax' al ms kers sts Hz SC) as SCz.
      destruct (same_pad_call F fuel p z ax' al ms kers sts ws SCz W1 P1 ltac:(now rewrite Hz)) as [PCz [AFz _]].
      destruct (forward_keeps F fuel junk (with_width p ws) z ax' al PCz AFz) as [zp [Q1 [Q2 Q3]]]. unfold pdimg. fold ax'. rewrite Q1.
      destruct (with_width_par F (length al) p ms ws al PFo W1 eq_refl O3) as [L Q].
      rewrite <- (Q3 i) by (rewrite Hz; exact Vi). f_equal. symmetry. assert (Li : length i = ndim z) by (unfold ndim; rewrite Hz; exact (valid_length _ _ Vi)). rewrite <- Li.
      apply place_shift; auto.
      * intros a Ha. rewrite Li. unfold ndim. rewrite Hz. auto.
      * now rewrite map_length.
      * intros r Hr. rewrite L. destruct (Q r Hr) as [q [-> [-> _]]]. rewrite (nth_indep (map fst ws) 0 (fst (0, 0))) by (rewrite map_length; lia). now rewrite map_nth.
      * intros d Hd. rewrite L, axis_par_notin by auto. reflexivity.
    + exact Rel.
    + intros P q Eq EA. injection Eq as <-. eapply every_axis_par; eauto.
    + intros EA c d x0 y0 z0 Hx0 C.
      destruct (same_pad_call F fuel p x0 ax' al ms kers sts ws (same_call_shape F fuel p x x0 ax' al ms kers sts Hx0 SC) W1 P1 ltac:(now rewrite Hx0)) as [PC0 [AF0 [NE0 _]]].
      destruct (forward_linear F fuel junk (with_width p ws) c d x0 y0 z0 ax' al PC0 AF0 NE0) as [x1 [y1 [z1 [X1 [Y1 [Z1 C1]]]]]]; auto.
      { eapply every_axis_par; eauto. }
      unfold pdimg. fold ax'. now rewrite X1, Y1, Z1.
  - set (osh := pooled al (map eff_kernel kers) (map2 eff_stride kers sts) (shp x)).
    assert (ST : steps_ok F al (map eff_kernel kers) (map2 eff_stride kers sts) (shp x)) by (apply (eff_steps F b); auto).
    exists (shp x), osh, (repeat (0, 0) (length al)). constructor; cbn [pdimg]; auto.
    + constructor.
      * intros b' z M Hz. destruct (sep_forward_valid F fuel junk b z ax' al kers sts (on_axes_shape F x z ax' al Hz OS) PP Pd ltac:(now rewrite Hz)) as [w [Q4 [Q5 Q6]]].
        destruct (sep_forward_like F fuel junk b b' z ax' M) as [L1 [L2 L3]]. rewrite Q4 in L1, L2, L3. cbn [fst snd] in *.
        exists b, w. split; [|split; [|split; [|split]]]; auto.
        { rewrite (surjective_pairing (sep_forward fuel junk b' z _)). fold ax'. rewrite <- L1, <- L3; eauto. }
        { now rewrite Pd. }
        { rewrite Q5. cbn [correlate shp]. now rewrite Hz. }
        { intros j Vj. rewrite Q6 by (rewrite Q5; cbn [correlate shp]; rewrite Hz; exact Vj). reflexivity. }
      * intros z z' j Hz [Tz1 Tz2] Vj. unfold blur_at, correlation, pdimg. fold sts. apply bsum_ext. intros o Vo. f_equal. apply Tz2.
        destruct ST as [T1 [T2 [T3 [T4 T5]]]]. rewrite Hz. eapply place_valid; eauto.
    + split; auto. split; [apply repeat_length|auto].
    + intros r Hr. rewrite nth_repeat. unfold pair_sum. cbn. lia.
    + intros q. discriminate.
    + intros r Hr. rewrite nth_repeat. exists 0. unfold pair_sum. cbn [fst snd]. lia.
    + intros z i Hz Vi. f_equal. assert (Li := valid_length _ _ Vi). transitivity (map (fun d => nth d i 0 + 0) (seq 0 (length i))).
      * symmetry. apply (place_shift al (length al) (map fst (repeat (0, 0) (length al))) i O3); auto.
        { intros a Ha. rewrite Li. auto. }
        { now rewrite map_length, repeat_length. }
        { intros r Hr. rewrite (nth_indep (map fst _) 0 (fst (0, 0))) by (rewrite map_length, repeat_length; lia). now rewrite map_nth, nth_repeat. }
      * apply list_ext with (d := 0); [now rewrite map_length, seq_length|]. rewrite map_length, seq_length. intros d Hd. rewrite nth_map_seq by auto. lia.
    + intros P p Eq. discriminate.
Qed.

(** *** moments *)
(** Nonnegative weights with sum 1. *)
Definition window (kers : list (list F)) : Prop := forall k, In k kers -> (k = [] \/ wsum k = f1) /\ forall e, In e k -> fle f0 e.

Lemma fle_mul2 (a c d : F) : fle f0 a -> fle c d -> fle (fmul a c) (fmul a d).
Proof. intros. now apply fmul_le_l. Qed.
(** Jensen: (sum w v)^2 <= sum w v^2. *)
Lemma bsum_square ns (w v : list Z -> F) : (forall o, valid ns o -> fle f0 (w o)) -> bsum ns w = f1 ->
  fle (fmul (bsum ns (fun o => fmul (w o) (v o))) (bsum ns (fun o => fmul (w o) (v o)))) (bsum ns (fun o => fmul (w o) (fmul (v o) (v o)))).
Proof.
  intros Hw Hs. set (m := bsum ns (fun o => fmul (w o) (v o))).
  assert (H : fle (bsum ns (fun o => fmul f0 (w o))) (bsum ns (fun o => fmul (w o) (fmul (fsub (v o) m) (fsub (v o) m))))).
  { apply bsum_le. intros o Vo. replace (fmul f0 (w o)) with (@f0 F) by ring. apply fmul_nonneg; auto. apply fsq_nonneg. }
  rewrite bsum_mul in H. replace (fmul f0 (bsum ns w)) with (@f0 F) in H by ring.
  rewrite (bsum_ext F ns _ (fun o => fadd (fmul (w o) (fmul (v o) (v o))) (fadd (fmul (fopp (fadd m m)) (fmul (w o) (v o))) (fmul (fmul m m) (w o))))) in H by (intros; ring).
  rewrite !bsum_add, !bsum_mul, Hs in H. fold m in H. apply fle_sub2. replace (fsub (bsum ns (fun o => fmul (w o) (fmul (v o) (v o)))) (fmul m m)) with
    (fadd (bsum ns (fun o => fmul (w o) (fmul (v o) (v o)))) (fadd (fmul (fopp (fadd m m)) m) (fmul (fmul m m) f1))) by ring. exact H.
Qed.

Section Moments.
Variables (fuel : nat) (junk : list Z -> F) (b : pool F) (al : list nat) (kers : list (list F)) (pd : option (padder F)) (sh psh osh : list Z) (ws : list (Z * Z)).
Hypothesis BF : blur_facts fuel junk b al kers pd sh psh osh ws.
Hypothesis W : window kers.
Notation E := (blur_at fuel junk al kers pd ws).
Notation wt := (weight (map eff_kernel kers)).
Notation ks := (map klen (map eff_kernel kers)).
Notation at_place := (fun z j o => at_ z (place al (map2 eff_stride kers (repeat 1 (length al))) j o)).

Lemma wt_nonneg o : valid ks o -> fle f0 (wt o).
Proof. intros V. apply weight_nonneg; auto. apply eff_nonneg. intros k e Hk He. now apply (W k Hk). Qed.
Lemma wt_sum : bsum ks wt = f1.
Proof. apply weight_sum, eff_sum. intros k Hk. apply (W k Hk). Qed.
Lemma place_in j o : valid osh j -> valid ks o -> valid psh (place al (map2 eff_stride kers (repeat 1 (length al))) j o).
Proof. intros Vj Vo. destruct (bf_steps _ _ _ _ _ _ _ _ _ _ BF) as [T1 [T2 [T3 [T4 T5]]]]. rewrite (bf_osh _ _ _ _ _ _ _ _ _ _ BF) in Vj. eapply place_valid; eauto. Qed.

(** The second moments are those of a pair of random variables. *)
Definition moments (x y : T) : Prop := forall j, valid osh j ->
  fle (fmul (fsub (E x j) (E y j)) (fsub (E x j) (E y j))) (fsub (fadd (E (prodt x x) j) (E (prodt y y) j)) (fmul two (E (prodt x y) j))) /\
  fle (fmul (fadd (E x j) (E y j)) (fadd (E x j) (E y j))) (fadd (fadd (E (prodt x x) j) (E (prodt y y) j)) (fmul two (E (prodt x y) j))).

Lemma moments_product : match pd with None => True | Some p => every_axis (length al) p product_mode end ->
  forall x y, shp x = sh -> shp y = sh -> moments x y.
Proof.
  intros Pm x y Hx Hy j Vj.
  assert (PR : forall u v, shp u = sh -> shp v = sh -> E (prodt u v) j = bsum ks (fun o => fmul (wt o) (fmul (at_place (pdimg fuel junk al pd ws u) j o) (at_place (pdimg fuel junk al pd ws v) j o)))).
  { intros u v Hu Hv. destruct (bf_rel _ _ _ _ _ _ _ _ _ _ BF _ _ (preserves_product F)) with (x := u) (y := v) (z := prodt u v) as [R1 [R2 R3]]; auto.
    - destruct pd as [p|] eqn:Epd; auto. apply (bf_par _ _ _ _ _ _ _ _ _ _ BF); auto.
    - split; [congruence|]. split; auto.
    - unfold blur_at, correlation. apply bsum_ext. intros o Vo. f_equal. apply R3. rewrite (bf_psh _ _ _ _ _ _ _ _ _ _ BF) by auto. now apply place_in. }
  rewrite !PR by auto. clear PR. unfold blur_at, correlation.
  set (f := at_place (pdimg fuel junk al pd ws x) j). set (g := at_place (pdimg fuel junk al pd ws y) j). cbn beta in f, g. unfold two.
  assert (L : forall s : F, fle (fmul (fadd (bsum ks (fun o => fmul (wt o) (f o))) (fmul s (bsum ks (fun o => fmul (wt o) (g o))))) (fadd (bsum ks (fun o => fmul (wt o) (f o))) (fmul s (bsum ks (fun o => fmul (wt o) (g o))))))
    (fadd (bsum ks (fun o => fmul (wt o) (fmul (f o) (f o)))) (fadd (fmul (fmul s s) (bsum ks (fun o => fmul (wt o) (fmul (g o) (g o))))) (fmul (fadd s s) (bsum ks (fun o => fmul (wt o) (fmul (f o) (g o)))))))).
  { intros s. pose proof (bsum_square ks wt (fun o => fadd (f o) (fmul s (g o))) wt_nonneg wt_sum) as Q. cbn beta in Q.
    rewrite (bsum_ext F ks (fun o => fmul (wt o) (fadd (f o) (fmul s (g o)))) (fun o => fadd (fmul (wt o) (f o)) (fmul s (fmul (wt o) (g o))))) in Q by (intros; ring).
    rewrite (bsum_ext F ks (fun o => fmul (wt o) (fmul (fadd (f o) (fmul s (g o))) (fadd (f o) (fmul s (g o)))))
      (fun o => fadd (fmul (wt o) (fmul (f o) (f o))) (fadd (fmul (fmul s s) (fmul (wt o) (fmul (g o) (g o)))) (fmul (fadd s s) (fmul (wt o) (fmul (f o) (g o))))))) in Q by (intros; ring).
    rewrite !bsum_add, !bsum_mul in Q. exact Q. }
  unfold f, g in L. cbn beta in L. clear f g.
  split; [specialize (L (fopp f1))|specialize (L f1)];
  match type of L with fle ?a ?c => match goal with |- fle ?a' ?c' => replace a' with a by ring; replace c' with c by ring end end; exact L.
Qed.

Lemma moments_average : match pd with None => True | Some p => every_axis (length al) p average_mode end ->
  forall x y, shp x = sh -> shp y = sh -> moments x y.
Proof.
  intros Pm x y Hx Hy j Vj.
  assert (LM : match pd with None => True | Some p => every_axis (length al) p linear_mode end).
  { destruct pd as [p|]; auto. destruct Pm as [ms [cs [es [A [B [C D]]]]]]. exists ms, cs, es. repeat split; auto. intros r Hr. now apply average_linear, D. }
  assert (LE : forall c d u v w, shp u = sh -> combination c d u v w -> E w j = fadd (fmul c (E u j)) (fmul d (E v j))).
  { intros c d u v w Hu C. destruct (bf_lin _ _ _ _ _ _ _ _ _ _ BF LM c d u v w Hu C) as [S1 [S2 V]]. unfold blur_at, correlation.
    rewrite <- !bsum_mul, <- bsum_add. apply bsum_ext. intros o Vo. rewrite V by (rewrite (bf_psh _ _ _ _ _ _ _ _ _ _ BF) by auto; now apply place_in). ring. }
  assert (SQ : forall u, shp u = sh -> fle (fmul (E u j) (E u j)) (E (prodt u u) j)).
  { intros u Hu. destruct (bf_rel _ _ _ _ _ _ _ _ _ _ BF _ _ (preserves_square F)) with (x := u) (y := prodt u u) (z := u) as [R1 [R2 R3]]; auto.
    - destruct pd as [p|] eqn:Epd; auto. apply (bf_par _ _ _ _ _ _ _ _ _ _ BF); auto.
    - split; auto. split; auto. intros i _. apply fle_refl.
    - unfold blur_at, correlation. eapply fle_trans; [apply bsum_square; [exact wt_nonneg|exact wt_sum]|]. apply bsum_le. intros o Vo. apply fmul_le_l; [now apply wt_nonneg|].
      apply R3. rewrite (bf_psh _ _ _ _ _ _ _ _ _ _ BF) by auto. now apply place_in. }
  assert (L : forall s : F, fle (fmul (fadd (E x j) (fmul s (E y j))) (fadd (E x j) (fmul s (E y j)))) (fadd (E (prodt x x) j) (fadd (fmul (fmul s s) (E (prodt y y) j)) (fmul (fadd s s) (E (prodt x y) j))))).
  { intros s. set (z := mkT sh (fun i => fadd (at_ x i) (fmul s (at_ y i))) : T).
    assert (Ez : E z j = fadd (E x j) (fmul s (E y j))).
    { rewrite (LE f1 s x y z Hx); [ring|]. split; [congruence|]. split; [cbn; congruence|]. intros i _. cbn. ring. }
    set (t := mkT sh (fun i => fadd (fmul (fmul s s) (at_ (prodt y y) i)) (fmul (fadd s s) (at_ (prodt x y) i))) : T).
    assert (Et : E t j = fadd (fmul (fmul s s) (E (prodt y y) j)) (fmul (fadd s s) (E (prodt x y) j))).
    { apply LE; auto. split; [cbn; congruence|]. split; [cbn; congruence|]. intros i _. reflexivity. }
    assert (Ezz : E (prodt z z) j = fadd (E (prodt x x) j) (E t j)).
    { rewrite (LE f1 f1 (prodt x x) t (prodt z z) Hx); [ring|]. split; [cbn; congruence|]. split; [cbn; congruence|]. intros i _. cbn. ring. }
    rewrite <- Ez, <- Et, <- Ezz. apply SQ. reflexivity. }
  unfold two. split; [specialize (L (fopp f1))|specialize (L f1)];
  match type of L with fle ?a ?c => match goal with |- fle ?a' ?c' => replace a' with a by ring; replace c' with c by ring end end; exact L.
Qed.
End Moments.
End Blur.
