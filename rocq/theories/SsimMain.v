(** SSIM.forward (C51): the formula, symmetry, identical images, bounds. *)
From Verif Require Export SsimProofs.
Open Scope Z_scope.

(** A call of SSIM.forward on images of equal shape: content axes al, reduction axes rl. *)
Record ssim_call {F : ofield} (fuel : nat) (s : ssim F) (x y : tensor F) (cax rax : axes_arg) (al rl : list nat) (kers : list (list F)) (pd : option (padder F)) : Prop := {
  sl_shape : shp y = shp x;
  sl_content : on_axes x cax al;
  sl_reduce : on_axes x rax rl;
  sl_blur : built (length al) kers (repeat 1 (length al)) pd (ss_blur s);
  sl_call : blur_call fuel x al kers pd;
  sl_crop : ss_crop s = true -> forall r, (r < length al)%nat -> klen (nth r kers []) <= nth (nth r al 0%nat) (shp x) 0;
  sl_pos : forall n, In n (shp x) -> 1 <= n;
  sl_scale : ss_sample s = true -> zprod (map klen kers) <> 1 }.

(** The denominators are not zero if K1 and K2 are not and the second moments are proper. *)
Definition proper_padder {F : ofield} (n : nat) (pd : option (padder F)) : Prop :=
  match pd with None => True | Some p => every_axis n p product_mode \/ every_axis n p average_mode end.

(** Both fail alike, or both succeed with equal scores and maps. *)
Definition same_scores {F : ofield} (r1 r2 : res (tensor F * tensor F)) : Prop :=
  match r1, r2 with
  | Ok (s1, f1), Ok (s2, f2) => teq s1 s2 /\ teq f1 f2
  | Err e1, Err e2 => e1 = e2
  | _, _ => False
  end.

Section SM.
Variable F : ofield.
Add Field Fsm : (f_field F).
Notation T := (tensor F).

Definition crop_widths (crop : bool) (pd : option (padder F)) (al : list nat) (ws : list (Z * Z)) : list (Z * Z) :=
  match pd with Some _ => if crop then ws else repeat (0, 0) (length al) | None => repeat (0, 0) (length al) end.

Section Facts.
Variables (fuel : nat) (junk : list Z -> F) (b : pool F) (al : list nat) (kers : list (list F)) (pd : option (padder F)) (sh psh osh : list Z) (ws : list (Z * Z)).
Hypothesis BF : blur_facts fuel junk b al kers pd sh psh osh ws.
Hypothesis Hpos : forall n, In n sh -> 1 <= n.

Lemma eff_len (k : list F) : klen (eff_kernel k) = Z.max 1 (klen k).
Proof. destruct k as [|e k]; [reflexivity|]. cbn [eff_kernel]. unfold klen. cbn [length]. lia. Qed.
Lemma osh_len : length osh = length sh.
Proof. rewrite (bf_osh _ _ _ _ _ _ _ _ _ _ BF), pooled_length. apply (bf_len _ _ _ _ _ _ _ _ _ _ BF). Qed.
Lemma al_lt a : In a al -> (a < length sh)%nat.
Proof. intros H. destruct (bf_steps _ _ _ _ _ _ _ _ _ _ BF) as [_ [L _]]. destruct (bf_len _ _ _ _ _ _ _ _ _ _ BF) as [E _]. rewrite <- E. auto. Qed.
Lemma al_nodup : NoDup al.
Proof. apply (bf_steps _ _ _ _ _ _ _ _ _ _ BF). Qed.
Lemma osh_other d : ~ In d al -> nth d osh 0 = nth d sh 0.
Proof. intros H. rewrite (bf_osh _ _ _ _ _ _ _ _ _ _ BF), pooled_notin by auto. now apply (bf_other _ _ _ _ _ _ _ _ _ _ BF). Qed.
Lemma osh_al r : (r < length al)%nat -> nth (nth r al 0%nat) osh 0 = nth (nth r al 0%nat) psh 0 - Z.max 1 (klen (nth r kers [])) + 1.
Proof.
  intros Hr. destruct (bf_steps _ _ _ _ _ _ _ _ _ _ BF) as [T1 [T2 [T3 [T4 T5]]]]. destruct (bf_len _ _ _ _ _ _ _ _ _ _ BF) as [E1 [E2 E3]].
  rewrite (bf_osh _ _ _ _ _ _ _ _ _ _ BF), pooled_nth; auto. rewrite (nth_indep (map eff_kernel kers) [] (eff_kernel [])) by (rewrite map_length; lia). rewrite map_nth, eff_len.
  rewrite nth_map2 with (da := []) (db := 1) by (rewrite ?repeat_length; lia). rewrite nth_repeat. destruct (nth r kers []); cbn [eff_stride]; rewrite Z.div_1_r; reflexivity.
Qed.
Lemma sh_pos d : (d < length sh)%nat -> 1 <= nth d sh 0.
Proof. intros. apply Hpos, nth_In. auto. Qed.
(** The output is at least as large as the input up to the window. *)
Lemma osh_size r : (r < length al)%nat -> (pd = None -> klen (nth r kers []) <= nth (nth r al 0%nat) sh 0) ->
  1 <= nth (nth r al 0%nat) osh 0 /\ (pd <> None -> nth (nth r al 0%nat) sh 0 <= nth (nth r al 0%nat) osh 0).
Proof.
  intros Hr Hf. rewrite osh_al by auto. destruct (bf_size _ _ _ _ _ _ _ _ _ _ BF r Hr) as [e [-> [He _]]].
  destruct (bf_ws _ _ _ _ _ _ _ _ _ _ BF r Hr) as [_ [_ ->]]. pose proof (sh_pos (nth r al 0%nat) ltac:(apply al_lt, nth_In; auto)).
  destruct pd; [|specialize (Hf eq_refl)]; split; try congruence; lia.
Qed.

Theorem crop_run (s s' : ssim F) (full : T) : good F b (match pd with None => None | Some _ => Some (NList ws) end) s s' -> shp full = osh ->
  (pd = None -> forall r, (r < length al)%nat -> klen (nth r kers []) <= nth (nth r al 0%nat) sh 0) ->
  (ss_crop s = true -> forall r, (r < length al)%nat -> klen (nth r kers []) <= nth (nth r al 0%nat) sh 0) ->
  exists c, crop_border full (map Z.of_nat al) s' = (s', Ok c) /\ crop_of F al (crop_widths (ss_crop s) pd al ws) full c /\ (forall n, In n (shp c) -> 1 <= n).
Proof.
  intros [b' [-> [M Hw]]] Hf Hv Hc.
  assert (P1 : forall r, (r < length al)%nat -> 1 <= nth (nth r al 0%nat) osh 0) by (intros r Hr; apply osh_size; auto).
  assert (P2 : forall d, (d < length sh)%nat -> 1 <= nth d osh 0).
  { intros d Hd. destruct (in_dec Nat.eq_dec d al) as [Hi|Hi]; [destruct (In_pos d al 0%nat Hi) as [r [Hr <-]]; auto|rewrite osh_other by auto; now apply sh_pos]. }
  assert (Q : forall c : T, ndim c = ndim full -> (forall d, (d < ndim full)%nat -> 1 <= nth d (shp c) 0) -> forall n, In n (shp c) -> 1 <= n).
  { intros c Nc H n Hn. destruct (In_nth _ _ 0 Hn) as [d [Hd <-]]. apply H. unfold ndim in *. lia. }
  assert (Lf : ndim full = length sh) by (unfold ndim; rewrite Hf; apply osh_len).
  assert (NC : (ss_crop s = false \/ pd = None) -> exists c, crop_border full (map Z.of_nat al) (set_blur s b') = (set_blur s b', Ok c) /\ crop_of F al (crop_widths (ss_crop s) pd al ws) full c /\ (forall n, In n (shp c) -> 1 <= n)).
  { intros H. exists full. split; [|split].
    - apply crop_border_none. destruct H as [H| ->]; [left; exact H|right]. cbn [set_blur ss_blur]. destruct (pl_padder b'); [discriminate|reflexivity].
    - assert (E : crop_widths (ss_crop s) pd al ws = repeat (0, 0) (length al)) by (unfold crop_widths; destruct H as [-> | ->]; [destruct pd|]; reflexivity).
      rewrite E. apply crop_of_refl; [apply al_nodup|]. rewrite Lf. apply al_lt.
    - apply Q; auto. intros d Hd. rewrite Hf. apply P2. lia. }
  pose proof al_nodup as AN. pose proof al_lt as AL. pose proof osh_size as OS. pose proof osh_other as OO. pose proof (bf_ws _ _ _ _ _ _ _ _ _ _ BF) as BW. pose proof (bf_len _ _ _ _ _ _ _ _ _ _ BF) as BLn. clear BF.
  destruct pd as [p|]; [|apply NC; auto]. destruct (ss_crop s) eqn:Ec; [|apply NC; auto]. clear NC.
  destruct (pl_padder b') as [p'|] eqn:Ep; [|discriminate]. cbn [option_map] in Hw. injection Hw as Hw.
  destruct BLn as [E1 [E2 E3]].
  destruct (crop_border_some F full al ws (set_blur s b') p') as [c [C1 C2]]; auto.
  - intros a Ha. rewrite Lf. auto.
  - intros d Hd. rewrite Hf. specialize (P2 d ltac:(lia)). lia.
  - intros r Hr. destruct (BW r Hr) as [W1 [W2 W3]]. split; auto. split; auto. rewrite W3, Hf. specialize (P1 r Hr).
    destruct (OS r Hr ltac:(discriminate)) as [_ O]. specialize (O ltac:(discriminate)). specialize (Hc eq_refl r Hr). lia.
  - exists c. split; auto. split; [exact C2|]. apply Q; [apply (co_nd _ _ _ _ _ C2)|]. intros d Hd. destruct (in_dec Nat.eq_dec d al) as [Hi|Hi].
    + destruct (In_pos d al 0%nat Hi) as [r [Hr <-]]. rewrite (co_shape _ _ _ _ _ C2) by auto. rewrite Hf.
      destruct (BW r Hr) as [W1 [W2 W3]]. rewrite W3.
      destruct (OS r Hr ltac:(discriminate)) as [_ O]. specialize (O ltac:(discriminate)). specialize (Hc eq_refl r Hr).
      pose proof (sh_pos (nth r al 0%nat) ltac:(apply AL, nth_In; auto)). lia.
    + rewrite (co_other _ _ _ _ _ C2), Hf by auto. apply P2. lia.
Qed.
End Facts.

(** *** forward *)
Theorem ssim_main fuel junk (s : ssim F) (x y : T) cax rax al rl kers pd : ssim_call fuel s x y cax rax al rl kers pd ->
  exists psh osh ws c, blur_facts fuel junk (ss_blur s) al kers pd (shp x) psh osh ws /\ scale_factor s (map Z.of_nat al) = Ok c /\ fle f0 c /\
  let E := blur_at fuel junk al kers pd ws in
  let C1 := fmul (ss_K1 s) (ss_K1 s) in let C2 := fmul (ss_K2 s) (ss_K2 s) in
  let num j := ssim_num F c C1 C2 (E x j) (E y j) (E (prodt x y) j) in
  let den j := ssim_den F c C1 C2 (E x j) (E y j) (E (prodt x x) j) (E (prodt y y) j) in
  (exists score full cr, snd (ssim_forward (sep_forward fuel junk) x y cax rax s) = Ok (score, full) /\ shp full = osh /\
     (forall j, valid osh j -> den j <> f0 /\ at_ full j = fdiv (num j) (den j)) /\
     crop_of F al (crop_widths (ss_crop s) pd al ws) full cr /\ (forall n, In n (shp cr) -> 1 <= n) /\ tmean cr (map Z.of_nat rl) false = Ok score) \/
  (snd (ssim_forward (sep_forward fuel junk) x y cax rax s) = Err ZeroDivisionError /\ exists j, valid osh j /\ den j = f0).
Proof.
  intros [Hs OA OR B BC Cr Po Sc].
  destruct (blur_ok F fuel junk (ss_blur s) x cax al kers pd OA B BC) as [psh [osh [ws BF]]].
  destruct (scale_ok F s (length al) kers _ pd B Sc) as [c [Sc1 [Sc2 _]]]. specialize (Sc1 (map Z.of_nat al) (map_length _ _)).
  exists psh, osh, ws, c. split; auto. split; auto. split; auto. cbv zeta.
  destruct (ssim_full_run F _ _ _ _ _ _ _ (bf_blurs _ _ _ _ _ _ _ _ _ _ BF) s x y c (mlike_refl F _) eq_refl Hs Sc1) as [s' [G R]].
  unfold ssim_forward, sbind, ret. rewrite Hs, seqb_refl. cbn [assertb].
  rewrite (oa_args _ _ _ OA), (oa_args _ _ _ OR).
  destruct R as [[full [-> [Sf Vf]]]|[-> Z]]; [|right; split; auto].
  left.
  destruct (crop_run fuel junk (ss_blur s) al kers pd (shp x) psh osh ws BF Po s s' full G Sf) as [cr [-> [Co Pc]]].
  { intros ->. exact BC. } { exact Cr. }
  assert (Nc : ndim cr = ndim x).
  { rewrite (co_nd _ _ _ _ _ Co). unfold ndim. rewrite Sf. eapply osh_len; eauto. }
  destruct (tmean_some F cr rl false) as [score E]; auto; [rewrite Nc; apply (oa_in _ _ _ OR)|apply (oa_distinct _ _ _ OR)|].
  exists score, full, cr. rewrite E. split; [reflexivity|]. split; [auto|]. split; [exact Vf|]. auto.
Qed.

Lemma crop_const al cw (full c : T) v : crop_of F al cw full c -> constant_image v full -> constant_image v c.
Proof. intros C H j Vj. destruct (co_val _ _ _ _ _ C j Vj) as [V ->]. now apply H. Qed.
Lemma crop_range al cw (full c : T) lo hi : crop_of F al cw full c -> in_range lo hi full -> in_range lo hi c.
Proof. intros C H j Vj. destruct (co_val _ _ _ _ _ C j Vj) as [V ->]. now apply H. Qed.
Lemma crop_shape_eq al cw (full full' c c' : T) : (forall a, In a al -> (a < ndim full)%nat) -> shp full = shp full' -> crop_of F al cw full c -> crop_of F al cw full' c' -> shp c = shp c'.
Proof.
  intros L S A B. apply list_ext with (d := 0).
  - pose proof (co_nd _ _ _ _ _ A). pose proof (co_nd _ _ _ _ _ B). unfold ndim in *. congruence.
  - intros d Hd. destruct (in_dec Nat.eq_dec d al) as [Hi|Hi].
    + destruct (In_pos d al 0%nat Hi) as [r [Hr <-]]. rewrite (co_shape _ _ _ _ _ A), (co_shape _ _ _ _ _ B), S by auto. reflexivity.
    + rewrite (co_other _ _ _ _ _ A), (co_other _ _ _ _ _ B), S by auto. reflexivity.
Qed.
Lemma crop_teq al cw (full full' c c' : T) : (forall a, In a al -> (a < ndim full)%nat) -> teq full full' -> crop_of F al cw full c -> crop_of F al cw full' c' -> teq c c'.
Proof.
  intros L [S V] A B. pose proof (crop_shape_eq al cw full full' c c' L S A B) as Sc. split; auto. intros j Vj.
  destruct (co_val _ _ _ _ _ A j Vj) as [W ->]. destruct (co_val _ _ _ _ _ B j ltac:(congruence)) as [_ ->]. auto.
Qed.

(** SSIM(x, y) = SSIM(y, x). *)
Theorem ssim_symmetric fuel junk (s : ssim F) (x y : T) cax rax al rl kers pd : ssim_call fuel s x y cax rax al rl kers pd ->
  same_scores (snd (ssim_forward (sep_forward fuel junk) x y cax rax s)) (snd (ssim_forward (sep_forward fuel junk) y x cax rax s)).
Proof.
  intros [Hs OA OR B BC Cr Po Sc].
  (* both calls on the same facts *)
  destruct (blur_ok F fuel junk (ss_blur s) x cax al kers pd OA B BC) as [psh [osh [ws BF]]].
  destruct (scale_ok F s (length al) kers _ pd B Sc) as [c [Sc1 [Sc2 _]]]. specialize (Sc1 (map Z.of_nat al) (map_length _ _)).
  pose proof (bf_blurs _ _ _ _ _ _ _ _ _ _ BF) as BL.
  destruct (ssim_full_run F _ _ _ _ _ _ _ BL s x y c (mlike_refl F _) eq_refl Hs Sc1) as [s1 [G1 R1]].
  destruct (ssim_full_run F _ _ _ _ _ _ _ BL s y x c (mlike_refl F _) Hs eq_refl Sc1) as [s2 [G2 R2]].
  unfold ssim_forward, sbind, ret. rewrite Hs, seqb_refl. cbn [assertb].
  assert (Ny : ndim y = ndim x) by (unfold ndim; congruence). rewrite Ny.
  rewrite (oa_args _ _ _ OA), (oa_args _ _ _ OR).
  assert (Ex : forall j, valid osh j -> blur_at fuel junk al kers pd ws (prodt y x) j = blur_at fuel junk al kers pd ws (prodt x y) j).
  { intros j Vj. apply (bl_ext _ _ _ _ _ _ _ BL); auto. apply prodt_comm. congruence. }
  assert (Ed : forall C1 C2 m1 m2 e11 e22, ssim_den F c C1 C2 m2 m1 e22 e11 = ssim_den F c C1 C2 m1 m2 e11 e22) by (intros; unfold ssim_den, lum_den, cs_den; ring).
  assert (En : forall C1 C2 m1 m2 e12, ssim_num F c C1 C2 m2 m1 e12 = ssim_num F c C1 C2 m1 m2 e12) by (intros; unfold ssim_num, cs_num; ring).
  destruct R1 as [[f1' [-> [S1 V1]]]|[-> [j1 [Vj1 Z1]]]]; destruct R2 as [[f2 [-> [S2 V2]]]|[-> [j2 [Vj2 Z2]]]].
  - destruct (crop_run fuel junk (ss_blur s) al kers pd (shp x) psh osh ws BF Po s s1 f1' G1 S1) as [c1 [-> [Co1 Pc1]]]; auto. { intros ->. exact BC. }
    destruct (crop_run fuel junk (ss_blur s) al kers pd (shp x) psh osh ws BF Po s s2 f2 G2 S2) as [c2 [-> [Co2 Pc2]]]; auto. { intros ->. exact BC. }
    assert (TQ : teq f1' f2).
    { split; [congruence|]. intros j Vj. rewrite S1 in Vj. destruct (V1 j Vj) as [_ ->]. destruct (V2 j Vj) as [_ ->]. rewrite Ex by auto. now rewrite Ed, En. }
    assert (Nc : ndim c1 = ndim x). { rewrite (co_nd _ _ _ _ _ Co1). unfold ndim. rewrite S1. eapply osh_len; eauto. }
    assert (Lf : forall a, In a al -> (a < ndim f1')%nat) by (intros a Ha; unfold ndim; rewrite S1, (osh_len _ _ _ _ _ _ _ _ _ _ BF); eapply al_lt; eauto).
    destruct (tmean_teq F c1 c2 rl false) as [t1 [t2 [-> [-> TT]]]]; auto; [rewrite Nc; apply (oa_in _ _ _ OR)|apply (oa_distinct _ _ _ OR)|eapply crop_teq; eauto|].
    cbn [snd same_scores]. auto.
  - exfalso. destruct (V1 j2 Vj2) as [Q _]. apply Q. rewrite <- Z2. symmetry. apply Ed.
  - exfalso. destruct (V2 j1 Vj1) as [Q _]. apply Q. rewrite <- Z1. apply Ed.
  - reflexivity.
Qed.

(** SSIM(x, x): whenever there is a result it is 1; otherwise a denominator is zero. *)
Lemma self_num_den c C1 C2 m e : ssim_num F c C1 C2 m m e = ssim_den F c C1 C2 m m e e.
Proof. unfold ssim_num, ssim_den, cs_num, cs_den, lum_den, two. ring. Qed.
Theorem ssim_self fuel junk (s : ssim F) (x : T) cax rax al rl kers pd : ssim_call fuel s x x cax rax al rl kers pd ->
  match snd (ssim_forward (sep_forward fuel junk) x x cax rax s) with
  | Ok (score, full) => constant_image f1 score /\ constant_image f1 full
  | Err e => e = ZeroDivisionError
  end.
Proof.
  intros SC. destruct (ssim_main fuel junk s x x cax rax al rl kers pd SC) as [psh [osh [ws [c [BF [_ [_ [[score [full [cr [-> [Sf [Vf [Co [Pc Sm]]]]]]]]|[-> _]]]]]]]]]; auto.
  assert (Cf : constant_image f1 full).
  { intros j Vj. rewrite Sf in Vj. destruct (Vf j Vj) as [Nz ->]. rewrite self_num_den. field. exact Nz. }
  split; auto. pose proof (sl_reduce _ _ _ _ _ _ _ _ _ _ SC) as OR.
  assert (Nc : ndim cr = ndim x). { rewrite (co_nd _ _ _ _ _ Co). unfold ndim. rewrite Sf. eapply osh_len; eauto. }
  eapply tmean_const; eauto; [rewrite Nc; apply (oa_in _ _ _ OR)|apply (oa_distinct _ _ _ OR)|]. eapply crop_const; eauto.
Qed.

(** |SSIM| <= 1 for nonnegative windows with sum 1. *)
Theorem ssim_bounded fuel junk (s : ssim F) (x y : T) cax rax al rl kers pd : ssim_call fuel s x y cax rax al rl kers pd ->
  window F kers -> proper_padder (length al) pd -> ss_K1 s <> f0 -> ss_K2 s <> f0 ->
  exists score full, snd (ssim_forward (sep_forward fuel junk) x y cax rax s) = Ok (score, full) /\ in_range (fopp f1) f1 score /\ in_range (fopp f1) f1 full.
Proof.
  intros SC W PM K1 K2. pose proof (sl_shape _ _ _ _ _ _ _ _ _ _ SC) as Hs.
  destruct (ssim_main fuel junk s x y cax rax al rl kers pd SC) as [psh [osh [ws [c [BF [_ [Hc R]]]]]]]. cbv zeta in R.
  assert (Mo : moments F fuel junk al kers pd osh ws x y).
  { destruct pd as [p|]; [destruct PM as [PM|PM]|]; [eapply moments_product|eapply moments_average|eapply moments_product]; eauto. }
  set (C1 := fmul (ss_K1 s) (ss_K1 s)) in *. set (C2 := fmul (ss_K2 s) (ss_K2 s)) in *.
  assert (H1 : flt f0 C1) by now apply sq_pos. assert (H2 : flt f0 C2) by now apply sq_pos.
  assert (BD : forall j, valid osh j -> let E := blur_at fuel junk al kers pd ws in
     let num := ssim_num F c C1 C2 (E x j) (E y j) (E (prodt x y) j) in let den := ssim_den F c C1 C2 (E x j) (E y j) (E (prodt x x) j) (E (prodt y y) j) in
     fle f0 (fsub den num) /\ fle f0 (fadd den num) /\ flt f0 den).
  { intros j Vj. cbv zeta. destruct (Mo j Vj) as [M1 M2].
    destruct (lum_bounds F C1 (blur_at fuel junk al kers pd ws x j) (blur_at fuel junk al kers pd ws y j) (flt_fle F _ _ H1)) as [L1 [L2 L3]].
    destruct (cs_bounds F c C2 _ _ _ _ _ Hc (flt_fle F _ _ H2) M1 M2) as [D1 [D2 D3]].
    destruct (abs_mul F _ _ _ _ L1 L2 D1 D2) as [A1 [A2 A3]]. split; auto. split; auto.
    unfold ssim_den. apply fmul_pos; [exact (flt_fle_trans F _ _ _ H1 L3)|exact (flt_fle_trans F _ _ _ H2 D3)]. }
  destruct R as [[score [full [cr [-> [Sf [Vf [Co [Pc Sm]]]]]]]]|[_ [j [Vj Zj]]]].
  - exists score, full. split; auto.
    assert (Rf : in_range (fopp f1) f1 full).
    { intros j Vj. rewrite Sf in Vj. destruct (Vf j Vj) as [Nz ->]. destruct (BD j Vj) as [A1 [A2 A3]]. apply ratio_range; auto. now apply flt_fle. }
    split; auto. pose proof (sl_reduce _ _ _ _ _ _ _ _ _ _ SC) as OR.
    assert (Nc : ndim cr = ndim x). { rewrite (co_nd _ _ _ _ _ Co). unfold ndim. rewrite Sf. eapply osh_len; eauto. }
    eapply tmean_range; eauto; [rewrite Nc; apply (oa_in _ _ _ OR)|apply (oa_distinct _ _ _ OR)|]. eapply crop_range; eauto.
  - exfalso. destruct (BD j Vj) as [_ [_ A3]]. cbv zeta in A3. apply (flt_ne F _ _ A3). now rewrite Zj.
Qed.
End SM.
