(** Laws of unsharp masking (C109). *)
From Verif Require Export SharpenProofs EdgeLossProofs PoolFlip.
Open Scope Z_scope.

(** An UnsharpMask with a separable blur of kernels kers and padder p, and a call on an image. *)
Record sharpens {F : ofield} (fuel : nat) (blur : pool F) (pd : option (padder F)) (x : tensor F) (ax : axes_arg) (al : list nat)
    (kers : list (list F)) (p : padder F) (ms : list (mode F)) : Prop := {
  sh_blur : exists sts0 pd0, built (length al) kers sts0 pd0 blur /\ match pd with None => pd0 | Some _ => pd end = Some p;
  sh_axes : check_axes (Z.of_nat (ndim x)) ax = Ok (map Z.of_nat al);
  sh_call : same_call F fuel p x (AxSeq (map Z.of_nat al)) al ms kers (repeat 1 (length al));
  sh_shape : ~ In MPeriodize ms }.

Section SL.
Variable F : ofield.
Add Field Fsl : (f_field F).
Notation T := (tensor F).

Lemma sharpens_run fuel junk (blur : pool F) pd (x : T) ax al kers p ms a t u : sharpens fuel blur pd x ax al kers p ms -> unsharp_init blur BSep a t pd = Ok u ->
  built (length al) kers (repeat 1 (length al)) (Some p) (um_blur u) /\
  exists b y, snd (sep_forward fuel junk (um_blur u) x (AxSeq (map Z.of_nat al))) = Ok b /\ shp b = shp x /\
    snd (unsharp_forward fuel junk u x ax) = Ok y /\ sharpened a t x b y.
Proof.
  intros [[sts0 [pd0 [B Hp]]] Hax SC Hm] Hi. pose proof Hi as Hi'. unfold unsharp_init in Hi'. destruct (to_filter blur pd) as [m|er] eqn:Hf; [|discriminate].
  cbn [bind] in Hi'. injection Hi' as <-. cbn [um_blur]. split; [rewrite <- Hp; eapply built_filter; eauto|].
  destruct (filter_keeps_shape F fuel junk blur m x _ al kers sts0 pd0 pd p ms B Hf Hp SC Hm) as [b [K1 K2]].
  destruct (unsharp_ok F fuel junk blur m BSep a t pd _ x b ax (map Z.of_nat al) Hf Hi Hax K1 K2) as [y [Y1 Y2]].
  exists b, y. auto.
Qed.
Lemma sharpens_exists fuel (blur : pool F) pd (x : T) ax al kers p ms a t : sharpens fuel blur pd x ax al kers p ms -> exists u, unsharp_init blur BSep a t pd = Ok u.
Proof.
  intros _. unfold unsharp_init, to_filter, pool_align. destruct (pl_kernel blur) as [k|ks]; cbn; eexists; reflexivity.
Qed.

(** The value by cases on the difference. *)
Definition boost (a t d : F) : F := fmul a (if fleb t f0 || fleb t (fabs d) then d else f0).
Lemma sharpened_value a t (x b y : T) : sharpened a t x b y -> forall i, valid (shp x) i -> at_ y i = fadd (at_ x i) (boost a t (fsub (at_ x i) (at_ b i))).
Proof.
  intros [_ H] i V. specialize (H i V). cbv zeta in H. destruct H as [H1 H2]. set (d := fsub (at_ x i) (at_ b i)) in *. unfold boost.
  destruct (fle_dec_flt F t f0) as [G|G]; [unfold fle in G; rewrite G; cbn [orb]; apply H1; auto|].
  assert (N : fleb t f0 = false). { destruct (fleb t f0) eqn:E; auto. exfalso. apply (flt_ne F _ _ G). apply (fle_antisym F); auto. apply flt_fle; auto. }
  rewrite N. cbn [orb].
  destruct (fle_dec_flt F t d) as [G2|G2]; [rewrite (fabs_large F d t) by auto; apply H1; auto|].
  destruct (fle_dec_flt F d (fopp t)) as [G3|G3]; [rewrite (fabs_large F d t) by auto; apply H1; auto|].
  rewrite (fabs_small F d t) by auto. rewrite H2 by auto. ring.
Qed.
Lemma fleb_scale (c u v : F) : flt f0 c -> fleb (fmul c u) (fmul c v) = fleb u v.
Proof.
  intros Hc. destruct (fleb u v) eqn:E.
  - apply (fmul_le_l F u v c); auto. apply flt_fle; auto.
  - destruct (fleb (fmul c u) (fmul c v)) eqn:E2; auto. exfalso.
    assert (G : fle u v); [|unfold fle in G; congruence].
    assert (Nc : c <> f0) by (intros ->; now apply (flt_ne F _ _ Hc)).
    replace u with (fmul (finv c) (fmul c u)) by (field; auto). replace v with (fmul (finv c) (fmul c v)) by (field; auto).
    apply (fmul_le_l F); auto. apply flt_fle, finv_pos; auto.
Qed.
Lemma boost_scale a t s d : boost a (fmul (fabs s) t) (fmul s d) = fmul s (boost a t d).
Proof.
  unfold boost. destruct (fle_dec_flt F (fabs s) f0) as [G|G].
  - assert (Z : fabs s = f0) by (apply (fle_antisym F); auto; apply fabs_nonneg). apply (proj1 (fabs_eq0 F s)) in Z. subst s.
    replace (fmul f0 d) with (@f0 F) by ring. destruct (_ || _); ring.
  - rewrite fabs_mul. replace (fleb (fmul (fabs s) t) f0) with (fleb t f0).
    + rewrite fleb_scale by auto. destruct (_ || _); ring.
    + rewrite <- (fleb_scale (fabs s) t f0) by auto. f_equal. ring.
Qed.

(** Changing contrast and brightness commutes with unsharp masking if the threshold follows the contrast. *)
Theorem unsharp_affine fuel junk (blur : pool F) pd (x x' : T) ax al kers p ms a t u u' s c : sharpens fuel blur pd x ax al kers p ms ->
  every_axis (length al) p linear_mode -> every_axis (length al) p const_mode -> (forall k, In k kers -> k = [] \/ wsum k = f1) ->
  unsharp_init blur BSep a t pd = Ok u -> unsharp_init blur BSep a (fmul (fabs s) t) pd = Ok u' ->
  shp x' = shp x -> (forall i, valid (shp x) i -> at_ x' i = fadd (fmul s (at_ x i)) c) ->
  exists y y', snd (unsharp_forward fuel junk u x ax) = Ok y /\ snd (unsharp_forward fuel junk u' x' ax) = Ok y' /\ shp y = shp x /\ shp y' = shp x /\
    forall i, valid (shp x) i -> at_ y' i = fadd (fmul s (at_ y i)) c.
Proof.
  intros SH LM CM Hw Hu Hu' Sx Vx.
  assert (SH' : sharpens fuel blur pd x' ax al kers p ms).
  { destruct SH as [A B C D]. split; auto; [unfold ndim in *; now rewrite Sx|]. eapply same_call_shape; eauto. }
  destruct (sharpens_run fuel junk blur pd x ax al kers p ms a t u SH Hu) as [Bm [b [y [B1 [B2 [Y1 Y2]]]]]].
  destruct (sharpens_run fuel junk blur pd x' ax al kers p ms a _ u' SH' Hu') as [Bm' [b' [y' [B1' [B2' [Y1' Y2']]]]]].
  assert (Em : um_blur u' = um_blur u).
  { unfold unsharp_init in Hu, Hu'. destruct (to_filter blur pd); [|discriminate]. cbn [bind] in *. injection Hu as <-. injection Hu' as <-. reflexivity. }
  rewrite Em in B1'.
  exists y, y'. split; auto. split; auto. split; [apply Y2|]. split; [rewrite <- Sx; apply Y2'|].
  pose (one := mkT (shp x) (fun _ => c)).
  assert (Cb : combination s f1 x one x'). { split; [reflexivity|]. split; auto. intros i V. rewrite Vx by auto. cbn [at_ one]. ring. }
  pose proof (sh_call _ _ _ _ _ _ _ _ _ SH) as SC.
  destruct (linear_same F fuel junk (um_blur u) s f1 x one x' _ al kers _ p ms Bm SC LM Cb) as [bx [bo [bz [L1 [L2 [L3 L4]]]]]].
  rewrite B1 in L1. injection L1 as <-. rewrite B1' in L3. injection L3 as <-.
  destruct (const_same F fuel junk (um_blur u) c one _ al kers _ p ms Bm (same_call_shape F fuel p x one _ al ms kers _ eq_refl SC) CM Hw) as [bo' [C1 C2]].
  { intros i _. reflexivity. }
  rewrite L2 in C1. injection C1 as <-. destruct L4 as [S1 [S2 V4]].
  intros i V. rewrite (sharpened_value _ _ _ _ _ Y2' i) by congruence. rewrite (sharpened_value _ _ _ _ _ Y2 i) by auto.
  rewrite Vx by auto. rewrite V4 by congruence. rewrite (C2 i) by congruence.
  replace (fsub (fadd (fmul s (at_ x i)) c) (fadd (fmul s (at_ b i)) (fmul f1 c))) with (fmul s (fsub (at_ x i) (at_ b i))) by ring.
  rewrite boost_scale. ring.
Qed.

(** Without a threshold unsharp masking is linear. *)
Theorem unsharp_linear fuel junk (blur : pool F) pd (x z w : T) ax al kers p ms a t u c d : sharpens fuel blur pd x ax al kers p ms ->
  every_axis (length al) p linear_mode -> unsharp_init blur BSep a t pd = Ok u -> fle t f0 -> combination c d x z w ->
  exists y1 y2 y3, snd (unsharp_forward fuel junk u x ax) = Ok y1 /\ snd (unsharp_forward fuel junk u z ax) = Ok y2 /\
    snd (unsharp_forward fuel junk u w ax) = Ok y3 /\ shp y1 = shp x /\ combination c d y1 y2 y3.
Proof.
  intros SH LM Hu Ht Cb. pose proof Cb as [Sz [Sw Vw]].
  assert (SH' : forall v : T, shp v = shp x -> sharpens fuel blur pd v ax al kers p ms).
  { intros v Sv. destruct SH as [A B C D]. split; auto; [unfold ndim in *; now rewrite Sv|]. eapply same_call_shape; eauto. }
  destruct (sharpens_run fuel junk blur pd x ax al kers p ms a t u SH Hu) as [Bm [b1 [y1 [B1 [B2 [Y1 Y2]]]]]].
  destruct (sharpens_run fuel junk blur pd z ax al kers p ms a t u (SH' z Sz) Hu) as [_ [b2 [y2 [B1' [B2' [Y1' Y2']]]]]].
  destruct (sharpens_run fuel junk blur pd w ax al kers p ms a t u (SH' w Sw) Hu) as [_ [b3 [y3 [B1'' [B2'' [Y1'' Y2'']]]]]].
  exists y1, y2, y3. split; auto. split; auto. split; auto. split; [apply Y2|].
  destruct (linear_same F fuel junk (um_blur u) c d x z w _ al kers _ p ms Bm (sh_call _ _ _ _ _ _ _ _ _ SH) LM Cb) as [bx [bo [bz [L1 [L2 [L3 L4]]]]]].
  rewrite B1 in L1. injection L1 as <-. rewrite B1' in L2. injection L2 as <-. rewrite B1'' in L3. injection L3 as <-. destruct L4 as [S1 [S2 V4]].
  pose proof Y2 as [Q1 _]. pose proof Y2' as [Q2 _]. pose proof Y2'' as [Q3 _].
  split; [congruence|]. split; [congruence|]. intros i V. rewrite Q1 in V.
  rewrite (sharpened_value _ _ _ _ _ Y2 i), (sharpened_value _ _ _ _ _ Y2' i), (sharpened_value _ _ _ _ _ Y2'' i) by congruence.
  unfold boost. unfold fle in Ht. rewrite Ht. cbn [orb]. rewrite Vw by auto. rewrite V4 by congruence. ring.
Qed.

(** Mirroring commutes with unsharp masking. *)
Theorem unsharp_mirror fuel junk junk' (blur : pool F) pd (x x' : T) ax al kers p ms a t u d : sharpens fuel blur pd x ax al kers p ms ->
  unsharp_init blur BSep a t pd = Ok u -> mirror_values d al p p ->
  (forall r, (r < length al)%nat -> nth r al 0%nat = d -> rev (nth r kers []) = nth r kers [] /\ (nth r kers [] = [] \/ klen (nth r kers []) mod 2 = 1)) ->
  (d < ndim x)%nat -> flipped d x x' ->
  exists y y', snd (unsharp_forward fuel junk u x ax) = Ok y /\ snd (unsharp_forward fuel junk' u x' ax) = Ok y' /\ shp y = shp x /\ flipped d y y'.
Proof.
  intros SH Hu MV Hk Hd Fl. pose proof Fl as [Sx Vx].
  assert (SH' : sharpens fuel blur pd x' ax al kers p ms).
  { destruct SH as [A B C D]. split; auto; [unfold ndim in *; now rewrite Sx|]. eapply same_call_shape; eauto. }
  destruct (sharpens_run fuel junk blur pd x ax al kers p ms a t u SH Hu) as [Bm [b [y [B1 [B2 [Y1 Y2]]]]]].
  destruct (sharpens_run fuel junk' blur pd x' ax al kers p ms a t u SH' Hu) as [_ [b' [y' [B1' [B2' [Y1' Y2']]]]]].
  exists y, y'. split; auto. split; auto. split; [apply Y2|].
  pose proof SH as [_ _ SC NP].
  destruct (filter_mirror F fuel junk junk' (um_blur u) d x x' _ al kers p ms Bm SC MV) as [bx [bz [L1 [L2 [L3 L4]]]]]; auto.
  { intros r Hr Er. destruct (Hk r Hr Er) as [K1 K2]. split; auto. split; auto. intros Em. exfalso. apply NP. rewrite <- Em. apply nth_In.
    rewrite (expand_length _ _ _ (pf_mode _ _ _ (sc_padder F _ _ _ _ _ _ _ _ SC))). exact Hr. }
  rewrite B1 in L1. injection L1 as <-. rewrite B1' in L2. injection L2 as <-.
  split; [destruct Y2, Y2'; congruence|]. intros i V. assert (Vi : valid (shp x) i) by (destruct Y2; congruence).
  rewrite (sharpened_value _ _ _ _ _ Y2' i) by congruence.
  assert (Vf : valid (shp x) (upd d (nth d (shp x) 0 - 1 - nth d i 0) i)) by (apply valid_flip; auto).
  replace (shp y) with (shp x) by (destruct Y2; congruence). rewrite (sharpened_value _ _ _ _ _ Y2 _ Vf). rewrite Vx by auto. rewrite L4 by congruence. now rewrite B2.
Qed.

(** Bounds: the result leaves the range of the image by at most amount times its width; differences below the
    threshold are not changed at all. *)
Theorem unsharp_range fuel junk (blur : pool F) pd (x : T) ax al kers p ms a t u lo hi : sharpens fuel blur pd x ax al kers p ms ->
  unsharp_init blur BSep a t pd = Ok u -> every_axis (length al) p (range_mode lo hi) ->
  (forall k, In k kers -> k = [] \/ wsum k = f1) -> (forall k e, In k kers -> In e k -> fle f0 e) -> in_range lo hi x -> fle f0 a ->
  exists y, snd (unsharp_forward fuel junk u x ax) = Ok y /\ shp y = shp x /\
    in_range (fsub lo (fmul a (fsub hi lo))) (fadd hi (fmul a (fsub hi lo))) y /\
    (flt f0 t -> flt (fsub hi lo) t -> teq y x).
Proof.
  intros SH Hu RM Hw Hn Rg Ha.
  destruct (sharpens_run fuel junk blur pd x ax al kers p ms a t u SH Hu) as [Bm [b [y [B1 [B2 [Y1 Y2]]]]]].
  pose proof (sh_call _ _ _ _ _ _ _ _ _ SH) as SC.
  destruct (range_same F fuel junk (um_blur u) lo hi x _ al kers _ p ms Bm SC RM Hw Hn Rg) as [b' [R1 R2]].
  rewrite B1 in R1. injection R1 as <-.
  assert (D : forall i, valid (shp x) i -> fle (fopp (fsub hi lo)) (fsub (at_ x i) (at_ b i)) /\ fle (fsub (at_ x i) (at_ b i)) (fsub hi lo)).
  { intros i V. destruct (Rg i V) as [X1 X2]. destruct (R2 i) as [Z1 Z2]; [congruence|]. split.
    - replace (fopp (fsub hi lo)) with (fadd lo (fopp hi)) by ring. replace (fsub (at_ x i) (at_ b i)) with (fadd (at_ x i) (fopp (at_ b i))) by ring.
      apply (fle_add F); auto. apply (fle_opp F); auto.
    - replace (fsub hi lo) with (fadd hi (fopp lo)) by ring. replace (fsub (at_ x i) (at_ b i)) with (fadd (at_ x i) (fopp (at_ b i))) by ring.
      apply (fle_add F); auto. apply (fle_opp F); auto. }
  exists y. split; auto. split; [apply Y2|]. split.
  - intros i V. assert (Vi : valid (shp x) i) by (destruct Y2; congruence). destruct (D i Vi) as [D1 D2]. destruct (Rg i Vi) as [X1 X2].
    assert (W : fle f0 (fsub hi lo)). { apply fle_sub1. eapply (fle_trans F); eauto. }
    rewrite (sharpened_value _ _ _ _ _ Y2 i Vi). unfold boost. set (d := (if fleb t f0 || fleb t (fabs (fsub (at_ x i) (at_ b i))) then fsub (at_ x i) (at_ b i) else f0)).
    assert (Q : fle (fopp (fsub hi lo)) d /\ fle d (fsub hi lo)).
    { unfold d. destruct (fleb t f0 || _); auto. split; auto. replace (@f0 F) with (fopp (@f0 F)) by ring. apply (fle_opp F); auto. }
    destruct Q as [Q1 Q2]. split.
    + replace (fsub lo (fmul a (fsub hi lo))) with (fadd lo (fmul a (fopp (fsub hi lo)))) by ring. apply (fle_add F); auto. apply (fmul_le_l F); auto.
    + apply (fle_add F); auto. apply (fmul_le_l F); auto.
  - intros Ht Hb. split; [apply Y2|]. intros i V. assert (Vi : valid (shp x) i) by (destruct Y2; congruence). destruct (D i Vi) as [D1 D2].
    pose proof Y2 as [_ S2]. specialize (S2 i Vi). cbv zeta in S2. destruct S2 as [_ S2]. apply S2; auto.
    + eapply (flt_fle_trans F); [|exact D1].
      apply (fle_ne_flt F); [apply (fle_opp F), flt_fle; auto|]. intros E. apply (flt_ne F _ _ Hb).
      replace (fsub hi lo) with (fopp (fopp (fsub hi lo))) by ring. rewrite <- E. ring.
    + eapply (fle_flt_trans F); eauto.
Qed.
(** Amount -1 without a threshold is the blur itself. *)
Theorem unsharp_minus_one fuel junk (blur : pool F) pd (x : T) ax al kers p ms t u : sharpens fuel blur pd x ax al kers p ms ->
  unsharp_init blur BSep (fopp f1) t pd = Ok u -> fle t f0 ->
  exists b y, snd (sep_forward fuel junk (um_blur u) x (AxSeq (map Z.of_nat al))) = Ok b /\ snd (unsharp_forward fuel junk u x ax) = Ok y /\ teq y b.
Proof.
  intros SH Hu Ht. destruct (sharpens_run fuel junk blur pd x ax al kers p ms _ t u SH Hu) as [Bm [b [y [B1 [B2 [Y1 Y2]]]]]].
  exists b, y. split; auto. split; auto. split; [destruct Y2; congruence|]. intros i V. assert (Vi : valid (shp x) i) by (destruct Y2; congruence).
  rewrite (sharpened_value _ _ _ _ _ Y2 i Vi). unfold boost. unfold fle in Ht. rewrite Ht. cbn [orb]. ring.
Qed.
End SL.
