(** How far rounding can take unsharp masking from the exact result (C148). *)
From Verif Require Export SharpenLaws RoundSharpenModel RoundEdge.
Open Scope Z_scope.

Section RS.
Variable F : ofield.
Add Field Frs : (f_field F).
Notation T := (tensor F).

(** Scaling by an exact factor. *)
Lemma err_scale a c S v w : errs F c S v w -> errs F c (fmul (fabs a) S) (fmul a v) (fmul a w).
Proof.
  intros [E1 E2]. split.
  - replace (fsub (fmul a v) (fmul a w)) with (fmul a (fsub v w)) by ring. rewrite fabs_mul.
    replace (fmul (fsub c f1) (fmul (fabs a) S)) with (fmul (fabs a) (fmul (fsub c f1) S)) by ring. apply fmul_le_l; auto. apply fabs_nonneg.
  - rewrite fabs_mul. apply fmul_le_l; auto. apply fabs_nonneg.
Qed.
(** The threshold. *)
Definition cut (t v : F) : F := if fleb t f0 then v else if fleb t (fabs v) then v else f0.
Lemma cut_size t v : fle (fabs (cut t v)) (fabs v).
Proof. unfold cut. destruct (fleb t f0); [apply fle_refl|]. destruct (fleb t (fabs v)); [apply fle_refl|]. rewrite fabs_zero. apply fabs_nonneg. Qed.
(** Below and above the threshold. *)
Definition clear_of (t D v : F) : Prop := fle t f0 \/ flt (fadd (fabs v) D) t \/ fle (fadd t D) (fabs v).
Lemma fleb_false (a b : F) : fleb a b = false -> flt b a.
Proof. intros H. destruct (fle_dec_flt F a b) as [G|G]; [unfold fle in G; congruence|auto]. Qed.
Lemma cut_clear t D v w : clear_of t D w -> fle (fabs (fsub v w)) D -> cut t v = v /\ cut t w = w \/ cut t v = f0 /\ cut t w = f0.
Proof.
  unfold cut. intros H HD. destruct (fleb t f0) eqn:E; [auto|]. destruct H as [H|[H|H]]; [unfold fle in H; congruence| |].
  - right. assert (V : fle (fabs v) (fadd (fabs w) D)).
    { replace v with (fadd w (fsub v w)) by ring. eapply fle_trans; [apply fabs_add|]. apply fle_add; [apply fle_refl|exact HD]. }
    assert (D0 : fle f0 D) by (eapply fle_trans; [apply fabs_nonneg|exact HD]).
    assert (W : fle (fabs w) (fadd (fabs w) D)) by (replace (fabs w) with (fadd (fabs w) f0) at 1 by ring; apply fle_add; [apply fle_refl|auto]).
    destruct (fleb t (fabs v)) eqn:E1; [exfalso; refine (flt_ne F _ _ (flt_fle_trans F _ _ _ H _) eq_refl); eapply fle_trans; [exact E1|exact V]|].
    destruct (fleb t (fabs w)) eqn:E2; [exfalso; refine (flt_ne F _ _ (flt_fle_trans F _ _ _ H _) eq_refl); eapply fle_trans; [exact E2|exact W]|]. auto.
  - left. assert (V : fle (fabs w) (fadd (fabs v) D)).
    { replace w with (fadd v (fopp (fsub v w))) by ring. eapply fle_trans; [apply fabs_add|]. rewrite fabs_opp. apply fle_add; [apply fle_refl|exact HD]. }
    assert (D0 : fle f0 D) by (eapply fle_trans; [apply fabs_nonneg|exact HD]).
    assert (E1 : fleb t (fabs v) = true).
    { apply (fle_trans F _ (fsub (fabs w) D)).
      - apply (sub_le F (fadd t D) (fabs w)); auto. ring.
      - apply (sub_le F (fabs w) (fadd (fabs v) D)); auto. ring. }
    assert (E2 : fleb t (fabs w) = true).
    { apply (fle_trans F _ (fadd t D)); auto. replace t with (fadd t f0) at 1 by ring. apply fle_add; [apply fle_refl|auto]. }
    rewrite E1, E2. auto.
Qed.
(** In general the cut adds at most the threshold to the error. *)
Lemma cut_near t D v w : fle f0 t -> fle (fabs (fsub v w)) D -> fle (fabs (fsub (cut t v) (cut t w))) (fadd D t).
Proof.
  intros Ht HD. assert (D0 : fle f0 D) by (eapply fle_trans; [apply fabs_nonneg|exact HD]).
  assert (DT : fle D (fadd D t)) by (replace D with (fadd D f0) at 1 by ring; apply fle_add; [apply fle_refl|auto]).
  unfold cut. destruct (fleb t f0); [eapply fle_trans; eauto|].
  destruct (fleb t (fabs v)) eqn:E1, (fleb t (fabs w)) eqn:E2.
  - eapply fle_trans; eauto.
  - replace (fsub v f0) with (fadd (fsub v w) w) by ring. eapply fle_trans; [apply fabs_add|]. apply fle_add; auto. apply flt_fle. now apply fleb_false.
  - replace (fsub f0 w) with (fadd (fsub v w) (fopp v)) by ring. eapply fle_trans; [apply fabs_add|]. rewrite fabs_opp. apply fle_add; auto. apply flt_fle. now apply fleb_false.
  - replace (fsub f0 f0) with (@f0 F) by ring. rewrite fabs_zero. eapply fle_trans; [exact D0|exact DT].
Qed.
(** amount times the cut difference, added to the pixel. *)
Lemma sharpen_clear e c a S B x h h' m y : fle f0 e -> fle f1 c -> fle (fabs x) B -> errs F c S h' h -> rounds e (fmul a h') m -> rounds e (fadd x m) y ->
  errs F (fmul (fmul c (fadd f1 e)) (fadd f1 e)) (fadd B (fmul (fabs a) S)) y (fadd x (fmul a h)).
Proof.
  intros He Hc HB E R1 R2. apply (err_round F e _ _ (fadd x m)); auto. apply err_add.
  - apply err_const; auto. eapply fle_trans; [exact Hc|]. replace c with (fmul c f1) at 1 by ring. apply fmul_le_l; [eapply fle_trans; [apply fle_01|exact Hc]|].
    replace (@f1 F) with (fadd (@f1 F) f0) at 1 by ring. apply fle_add; [apply fle_refl|auto].
  - apply (err_round F e _ _ (fmul a h')); auto. now apply err_scale.
Qed.
Lemma sharpen_any e c a S B t x d d' m y : fle f0 e -> fle f1 c -> fle f0 t -> fle (fabs x) B -> errs F c S d' d -> rounds e (fmul a (cut t d')) m -> rounds e (fadd x m) y ->
  fle (fabs (fsub y (fadd x (fmul a (cut t d))))) (fadd (fmul (fsub (fmul (fmul c (fadd f1 e)) (fadd f1 e)) f1) (fadd B (fmul (fabs a) S))) (fmul (fabs a) t)).
Proof.
  intros He Hc Ht HB E R1 R2. pose proof (err_size F _ _ _ _ E) as Z. destruct E as [E1 E2]. pose proof (cut_near t _ _ _ Ht E1) as N.
  assert (H' : fle (fabs (cut t d')) (fmul c S)) by (eapply fle_trans; [apply cut_size|exact Z]).
  set (A := fabs a) in *. assert (A0 : fle f0 A) by apply fabs_nonneg.
  assert (M1 : fle (fabs (fsub m (fmul a (cut t d')))) (fmul e (fmul A (fmul c S)))).
  { eapply fle_trans; [exact R1|]. apply fmul_le_l; auto. rewrite fabs_mul. now apply fmul_le_l. }
  assert (M2 : fle (fabs m) (fmul (fadd f1 e) (fmul A (fmul c S)))).
  { replace m with (fadd (fsub m (fmul a (cut t d'))) (fmul a (cut t d'))) by ring. eapply fle_trans; [apply fabs_add|].
    replace (fmul (fadd f1 e) (fmul A (fmul c S))) with (fadd (fmul e (fmul A (fmul c S))) (fmul A (fmul c S))) by ring. apply fle_add; auto. rewrite fabs_mul. now apply fmul_le_l. }
  assert (M3 : fle (fabs (fsub m (fmul a (cut t d)))) (fadd (fmul e (fmul A (fmul c S))) (fmul A (fadd (fmul (fsub c f1) S) t)))).
  { eapply fle_trans; [apply (fabs_triangle F _ (fmul a (cut t d')))|]. apply fle_add; auto.
    replace (fsub (fmul a (cut t d')) (fmul a (cut t d))) with (fmul a (fsub (cut t d') (cut t d))) by ring. rewrite fabs_mul. now apply fmul_le_l. }
  assert (Y1 : fle (fabs (fsub y (fadd x m))) (fmul e (fadd B (fmul (fadd f1 e) (fmul A (fmul c S)))))).
  { eapply fle_trans; [exact R2|]. apply fmul_le_l; auto. eapply fle_trans; [apply fabs_add|]. now apply fle_add. }
  eapply fle_trans; [apply (fabs_triangle F _ (fadd x m))|].
  eapply fle_trans; [apply fle_add; [exact Y1|]|].
  { replace (fsub (fadd x m) (fadd x (fmul a (cut t d)))) with (fsub m (fmul a (cut t d))) by ring. exact M3. }
  apply fle_sub2. match goal with |- fle f0 ?g => replace g with (fmul (fsub (fmul (fsub (fmul c (fadd f1 e)) f1) (fadd f1 e)) f0) B) by ring end.
  apply fmul_nonneg; [|eapply fle_trans; [apply fabs_nonneg|exact HB]]. replace (fsub (fmul (fsub (fmul c (fadd f1 e)) f1) (fadd f1 e)) f0) with (fmul (fsub (fmul c (fadd f1 e)) f1) (fadd f1 e)) by ring.
  assert (E0 : fle f1 (fadd f1 e)) by (replace (@f1 F) with (fadd (@f1 F) f0) at 1 by ring; apply fle_add; [apply fle_refl|auto]).
  apply fmul_nonneg; [|eapply fle_trans; [apply fle_01|exact E0]]. apply fle_sub1. replace (@f1 F) with (fmul (@f1 F) f1) at 1 by ring.
  apply mul_le; auto; [apply fle_01|eapply fle_trans; [apply fle_01|exact Hc]].
Qed.

Lemma cut_boost a t d : boost F a t d = fmul a (cut t d).
Proof. unfold boost, cut. destruct (fleb t f0); [reflexivity|]. cbn [orb]. reflexivity. Qed.
Lemma map2_at e f (u v w : T) : shp v = shp u -> fl_map2 e f u v w -> shp w = shp u /\ forall i, valid (shp u) i -> rounds e (f (at_ u i) (at_ v i)) (at_ w i).
Proof.
  intros S [d [D1 [D2 D3]]]. destruct (tmap2_same f u v (eq_sym S)) as [d0 [E1 [E2 E3]]]. rewrite E1 in D1. injection D1 as <-.
  split; [congruence|]. intros i V. rewrite <- E3 by auto. apply D3. congruence.
Qed.
Theorem unsharp_rounding e fuel junk (blur : pool F) pd (x y' : T) ax al kers p ms a t u B : fle f0 e -> sharpens fuel blur pd x ax al kers p ms ->
  unsharp_init blur BSep a t pd = Ok u -> every_axis (length al) p (copy_mode B) -> bounded B x -> fl_unsharp e fuel junk u x ax y' ->
  let S := fadd B (fmul (gain kers) B) in
  let D := fmul (fsub (fpow (fadd f1 e) (roundings kers + 1)) f1) S in
  let E := fmul (fsub (fpow (fadd f1 e) (roundings kers + 3)) f1) (fadd B (fmul (fabs a) S)) in
  exists b y, snd (sep_forward fuel junk (um_blur u) x (AxSeq (map Z.of_nat al))) = Ok b /\ snd (unsharp_forward fuel junk u x ax) = Ok y /\ shp y' = shp y /\
    forall i, valid (shp y) i -> let d := fsub (at_ x i) (at_ b i) in
      (fle t f0 \/ flt (fadd (fabs d) D) t \/ fle (fadd t D) (fabs d) -> fle (fabs (fsub (at_ y' i) (at_ y i))) E) /\
      (fle f0 t -> fle (fabs (fsub (at_ y' i) (at_ y i))) (fadd E (fmul (fabs a) t))).
Proof.
  intros He SH HI EA HB [al' [b' [d' [m [H1 [H2 [H3 [H4 [H5 H6]]]]]]]]] S D E. cbv zeta in H5.
  destruct (sharpens_run F fuel junk blur pd x ax al kers p ms a t u SH HI) as [BU [b [y [R1 [R2 [R3 R4]]]]]].
  destruct SH as [_ Hax SC _]. rewrite Hax in H1. injection H1 as <-.
  assert (UA : um_amount u = a /\ um_threshold u = t).
  { unfold unsharp_init in HI. destruct (to_filter blur pd); [|discriminate]. cbn [bind] in HI. injection HI as <-. auto. }
  destruct UA as [UA UT]. rewrite UA, UT in H5.
  destruct (round_rel F e fuel junk (um_blur u) x x b' _ al kers _ p ms f1 B He (fle_refl F f1) BU SC EA eq_refl (err_self F B x HB) H3) as [b0 [Q1 [Q2 Q3]]].
  rewrite R1 in Q1. injection Q1 as <-. exists b, y. do 2 (split; auto).
  destruct (map2_at e fsub x b' d' ltac:(congruence) H4) as [D1 D2].
  set (h := if fleb t f0 then d' else tmap (fun v => if fleb t (fabs v) then v else f0) d') in *.
  assert (Sh : shp h = shp x) by (unfold h; destruct (fleb t f0); auto).
  assert (Ah : forall i, at_ h i = cut t (at_ d' i)) by (intros i; unfold h, cut; destruct (fleb t f0); reflexivity).
  destruct H5 as [M1 M2]. cbn [tmap shp at_] in M1, M2.
  destruct (map2_at e fadd x m y' ltac:(congruence) H6) as [Y1 Y2].
  assert (Sy : shp y = shp x) by apply R4. split; [congruence|]. intros i Vi d. rewrite Sy in Vi.
  rewrite (sharpened_value F a t x b y R4 i Vi), cut_boost. fold d.
  assert (ED : errs F (fpow (fadd f1 e) (roundings kers + 1)) S (at_ d' i) d).
  { rewrite (pow_add F e (roundings kers) 1). cbn [fpow]. replace (fmul (fadd f1 e) f1) with (fadd (@f1 F) e) by ring.
    apply (err_round F e _ _ (fsub (at_ x i) (at_ b' i))); auto. unfold S, d. apply err_sub.
    - apply err_const; [now apply pow_ge1|]. now apply HB.
    - replace (fpow (fadd f1 e) (roundings kers)) with (fmul f1 (fpow (fadd f1 e) (roundings kers))) by ring. apply Q3. congruence. }
  assert (P3 : fpow (fadd f1 e) (roundings kers + 3) = fmul (fmul (fpow (fadd f1 e) (roundings kers + 1)) (fadd f1 e)) (fadd f1 e)).
  { rewrite !(pow_add F e (roundings kers)). cbn [fpow]. ring. }
  assert (Vm : rounds e (fmul a (cut t (at_ d' i))) (at_ m i)) by (rewrite <- Ah; apply M2; congruence).
  pose proof (pow_ge1 F e (roundings kers + 1) He) as P1.
  unfold E. rewrite P3. split.
  - intros HC. destruct (cut_clear t D (at_ d' i) d HC (proj1 ED)) as [[C1 C2]|[C1 C2]]; rewrite C1 in Vm; rewrite C2.
    + apply (sharpen_clear e _ a S B (at_ x i) d (at_ d' i) (at_ m i) (at_ y' i)); auto.
    + apply (sharpen_clear e _ a S B (at_ x i) f0 f0 (at_ m i) (at_ y' i)); auto. apply err_const; auto. rewrite fabs_zero. eapply err_pos; exact ED.
  - intros Ht. apply (sharpen_any e _ a S B t (at_ x i) d (at_ d' i) (at_ m i)); auto.
Qed.
(** Averages: S = 2 B. *)
Theorem unsharp_rounding_mean e fuel junk (blur : pool F) pd (x y' : T) ax al kers p ms a t u B : fle f0 e -> sharpens fuel blur pd x ax al kers p ms ->
  unsharp_init blur BSep a t pd = Ok u -> every_axis (length al) p (copy_mode B) -> bounded B x -> fl_unsharp e fuel junk u x ax y' ->
  (forall k v, In k kers -> In v k -> fle f0 v) -> (forall k, In k kers -> k = [] \/ wsum k = f1) -> fle t f0 ->
  exists y, snd (unsharp_forward fuel junk u x ax) = Ok y /\
    within (fmul (fsub (fpow (fadd f1 e) (roundings kers + 3)) f1) (fmul (fadd f1 (fmul (fofZ 2) (fabs a))) B)) y' y.
Proof.
  intros He SH HI EA HB HF H1 H2 Ht. destruct (unsharp_rounding e fuel junk blur pd x y' ax al kers p ms a t u B He SH HI EA HB HF) as [b [y [_ [Y1 [Y2 Y3]]]]].
  exists y. split; auto. split; auto. intros i Vi. destruct (Y3 i Vi) as [Y4 _]. specialize (Y4 (or_introl Ht)). rewrite (gain_one F kers H1 H2) in Y4.
  replace (fmul (fadd f1 (fmul (fofZ 2) (fabs a))) B) with (fadd B (fmul (fabs a) (fadd B (fmul f1 B)))) by (unfold fofZ; cbn [fofpos]; ring). exact Y4.
Qed.
(** The exact result is one of the possible ones. *)
Theorem unsharp_exact e fuel junk (u : unsharp F) (x y : T) ax : fle f0 e -> um_kind u = BSep -> snd (unsharp_forward fuel junk u x ax) = Ok y -> fl_unsharp e fuel junk u x ax y.
Proof.
  intros He HK. unfold unsharp_forward. destruct (check_axes _ ax) as [al|] eqn:A; [|discriminate]. rewrite HK. cbn [blur_forward].
  destruct (sep_forward fuel junk (um_blur u) x (AxSeq al)) as [m r] eqn:Sf. cbn [snd]. destruct r as [b|]; [|discriminate]. cbn [bind].
  destruct (tmap2 fsub x b) as [d|] eqn:Dd; [|discriminate]. cbn [bind]. cbv zeta. intros H.
  eexists al, b, d, _. split; [auto|]. split; [auto|]. split; [apply forward_exact; auto; now rewrite Sf|]. split; [exists d; split; auto; now apply rounded_refl|].
  cbv zeta. split; [now apply rounded_refl|]. exists y. split; [exact H|now apply rounded_refl].
Qed.
(** Only the difference is rounded. *)
Lemma unsharp_last e fuel junk (u : unsharp F) (x b d' : T) ax al : fle f0 e -> um_kind u = BSep -> check_axes (Z.of_nat (ndim x)) ax = Ok al ->
  snd (sep_forward fuel junk (um_blur u) x (AxSeq al)) = Ok b -> shp b = shp x -> shp d' = shp x ->
  (forall i, valid (shp x) i -> rounds e (fsub (at_ x i) (at_ b i)) (at_ d' i)) ->
  exists y', fl_unsharp e fuel junk u x ax y' /\ shp y' = shp x /\ forall i, valid (shp x) i -> at_ y' i = fadd (at_ x i) (fmul (um_amount u) (cut (um_threshold u) (at_ d' i))).
Proof.
  intros He HK A Hb Sb Sd HR. set (t := um_threshold u). set (h := if fleb t f0 then d' else tmap (fun v => if fleb t (fabs v) then v else f0) d').
  assert (Sh : shp h = shp x) by (unfold h; destruct (fleb t f0); auto).
  assert (Ah : forall i, at_ h i = cut t (at_ d' i)) by (intros i; unfold h, cut; destruct (fleb t f0); reflexivity).
  destruct (tmap2_same fadd x (tmap (fmul (um_amount u)) h)) as [y [Y1 [Y2 Y3]]]; [cbn; auto|].
  destruct (tmap2_same fsub x b (eq_sym Sb)) as [d [D1 [D2 D3]]].
  exists y. split; [|split; [auto|]].
  - exists al, b, d', (tmap (fmul (um_amount u)) h). split; [auto|]. split; [auto|]. split; [now apply forward_exact|]. split.
    { exists d. split; auto. split; [congruence|]. intros j Vj. rewrite D2 in Vj. rewrite D3 by auto. now apply HR. }
    cbv zeta. split; [now apply rounded_refl|]. exists y. split; auto. now apply rounded_refl.
  - intros i Vi. rewrite Y3 by auto. cbn [tmap at_]. now rewrite Ah.
Qed.
End RS.
