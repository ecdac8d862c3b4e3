(** Unsharp masking (C48). *)
From Verif Require Export EdgeConst.
Open Scope Z_scope.

(** y = x + a*d with d = x - b, where the entries of d with |d| < t count as zero if t > 0. *)
Definition sharpened {F : ofield} (a t : F) (x b y : tensor F) : Prop :=
  shp y = shp x /\ forall i, valid (shp x) i ->
    let d := fsub (at_ x i) (at_ b i) in
    (fle t f0 \/ fle t d \/ fle d (fopp t) -> at_ y i = fadd (at_ x i) (fmul a d)) /\
    (flt f0 t -> flt (fopp t) d -> flt d t -> at_ y i = at_ x i).
(** The state of an UnsharpMask after a list of calls. *)
Definition unsharp_after {F : ofield} (u : unsharp F) (cs : list (nat * (list Z -> F) * tensor F * axes_arg)) : unsharp F :=
  fold_left (fun u c => let '(fuel, junk, x, ax) := c in fst (unsharp_forward fuel junk u x ax)) cs u.

Section SH.
Variable F : ofield.
Add Field Fsh : (f_field F).
Notation T := (tensor F).

Lemma fabs_small (d t : F) : flt (fopp t) d -> flt d t -> fleb t (fabs d) = false.
Proof.
  intros H1 H2. unfold fabs. destruct (fleb f0 d) eqn:E.
  - destruct (fleb t d) eqn:E2; auto. exfalso. apply (flt_ne F d t H2). apply (fle_antisym F); auto. apply flt_fle; auto.
  - destruct (fleb t (fopp d)) eqn:E2; auto. exfalso. assert (G : fle d (fopp t)).
    { replace d with (fopp (fopp d)) by ring. apply (fle_opp F). exact E2. }
    apply (flt_ne F _ _ H1). apply (fle_antisym F); auto. apply flt_fle; auto.
Qed.
Lemma fabs_large (d t : F) : fle t d \/ fle d (fopp t) -> flt f0 t -> fleb t (fabs d) = true.
Proof.
  intros H Ht. unfold fabs. destruct (fleb f0 d) eqn:E.
  - destruct H as [H|H]; auto. exfalso. assert (G : fle f0 (fopp t)) by (eapply fle_trans; eauto).
    apply (flt_ne F _ _ Ht). apply (fle_antisym F); [apply flt_fle; auto|].
    replace t with (fopp (fopp t)) by ring. replace (f0 : F) with (fopp (f0 : F)) by ring. apply (fle_opp F). auto.
  - destruct H as [H|H].
    + exfalso. assert (G : fle f0 d) by (eapply fle_trans; [apply flt_fle; exact Ht|auto]). unfold fle in G. congruence.
    + replace t with (fopp (fopp t)) by ring. apply (fle_opp F). auto.
Qed.
Theorem unsharp_ok fuel junk (blur m : pool F) kind a t pd (u : unsharp F) (x b : T) ax axes :
  to_filter blur pd = Ok m -> unsharp_init blur kind a t pd = Ok u -> check_axes (Z.of_nat (ndim x)) ax = Ok axes ->
  snd (blur_forward fuel junk kind m x (AxSeq axes)) = Ok b -> shp b = shp x ->
  exists y, snd (unsharp_forward fuel junk u x ax) = Ok y /\ sharpened a t x b y.
Proof.
  intros Hf Hi Hax Hb Sb. unfold unsharp_init in Hi. rewrite Hf in Hi. injection Hi as <-.
  unfold unsharp_forward. rewrite Hax. cbn [um_kind um_blur um_amount um_threshold].
  destruct (blur_forward fuel junk kind m x (AxSeq axes)) as [m' r]. cbn [snd] in *. subst r. cbn [bind].
  destruct (tmap2_same fsub x b (eq_sym Sb)) as [d [D1 [D2 D3]]]. rewrite D1. cbn [bind].
  set (d' := if fleb t f0 then d else _).
  assert (Sd : shp d' = shp x) by (unfold d'; destruct (fleb t f0); auto).
  destruct (tmap2_same fadd x (tmap (fmul a) d')) as [y [Y1 [Y2 Y3]]]; [cbn; auto|].
  exists y. split; auto. split; auto. intros i V. cbv zeta. split.
  - intros H. rewrite Y3 by auto. cbn [at_ tmap]. unfold d'. destruct (fleb t f0) eqn:E; [now rewrite D3|].
    cbn [at_ tmap]. rewrite D3 by auto. assert (Ht : flt f0 t).
    { destruct (fle_dec_flt F t f0) as [G|G]; [unfold fle in G; congruence|auto]. }
    destruct H as [H|H]; [unfold fle in H; congruence|]. now rewrite fabs_large.
  - intros Ht H1 H2. rewrite Y3 by auto. cbn [at_ tmap]. unfold d'. destruct (fleb t f0) eqn:E.
    + exfalso. apply (flt_ne F _ _ Ht). apply (fle_antisym F); auto. apply flt_fle; auto.
    + cbn [at_ tmap]. rewrite D3 by auto. rewrite fabs_small by auto. ring.
Qed.
(** amount 0 gives the image back; where blur(x) = x, nothing changes whatever the amount. *)
Lemma sharpened_cases a t (x b y : T) i : sharpened a t x b y -> valid (shp x) i ->
  at_ y i = at_ x i \/ at_ y i = fadd (at_ x i) (fmul a (fsub (at_ x i) (at_ b i))).
Proof.
  intros [_ H] V. specialize (H i V). cbv zeta in H. destruct H as [H1 H2].
  destruct (fle_dec_flt F t f0) as [G|G]; [right; apply H1; auto|].
  destruct (fle_dec_flt F t (fsub (at_ x i) (at_ b i))) as [G2|G2]; [right; apply H1; auto|].
  destruct (fle_dec_flt F (fsub (at_ x i) (at_ b i)) (fopp t)) as [G3|G3]; [right; apply H1; auto|]. left. auto.
Qed.
Lemma sharpened_zero t (x b y : T) : sharpened f0 t x b y -> teq y x.
Proof.
  intros H. split; [apply H|]. intros i V. assert (V' : valid (shp x) i) by (destruct H; congruence).
  destruct (sharpened_cases _ _ _ _ _ i H V') as [E|E]; rewrite E; auto. ring.
Qed.
Lemma sharpened_fixed a t (x b y : T) : sharpened a t x b y -> (forall i, valid (shp x) i -> at_ b i = at_ x i) -> teq y x.
Proof.
  intros H Hb. split; [apply H|]. intros i V. assert (V' : valid (shp x) i) by (destruct H; congruence).
  destruct (sharpened_cases _ _ _ _ _ i H V') as [E|E]; rewrite E; auto. rewrite Hb by auto. ring.
Qed.

(** Separable blur with a padder: blur(x) is the correlation of the padded image. *)
Theorem unsharp_separable fuel junk (blur : pool F) a t pd pd0 (u : unsharp F) (x : T) ax al kers sts0 p ms :
  built (length al) kers sts0 pd0 blur -> match pd with None => pd0 | Some _ => pd end = Some p ->
  unsharp_init blur BSep a t pd = Ok u -> check_axes (Z.of_nat (ndim x)) ax = Ok (map Z.of_nat al) ->
  same_call F fuel p x (AxSeq (map Z.of_nat al)) al ms kers (repeat 1 (length al)) -> ~ In MPeriodize ms ->
  exists ws xp b y, length ws = length al /\
    (forall r, (r < length al)%nat -> is_same_width (klen (nth r kers [])) 1 (nth (nth r al 0%nat) (shp x) 0) (nth r ws (0, 0))) /\
    padder_forward fuel junk (with_width p ws) x (AxSeq (map Z.of_nat al)) = Ok xp /\
    shp b = shp x /\ (forall j, valid (shp x) j -> at_ b j = correlation al kers (repeat 1 (length al)) xp j) /\
    snd (unsharp_forward fuel junk u x ax) = Ok y /\ sharpened a t x b y /\
    (a = f0 -> teq y x) /\
    (every_axis (length al) p const_mode -> (forall k, In k kers -> k = [] \/ wsum k = f1) -> forall c, constant_image c x -> teq y x).
Proof.
  intros B Hp Hi Hax SC Hm. unfold unsharp_init in Hi. destruct (to_filter blur pd) as [m|er] eqn:Hf; [|discriminate].
  pose proof (built_filter _ _ _ _ _ _ _ B Hf) as B2. rewrite Hp in B2.
  destruct (filter_keeps_shape F fuel junk blur m x _ al kers sts0 pd0 pd p ms B Hf Hp SC Hm) as [b [K1 K2]].
  destruct (pool_same F fuel junk m x _ al kers _ p ms B2 SC) as [ws [xp [b' [Q1 [Q2 [Q3 [Q4 [Q5 [Q6 [Q7 [Q8 Q9]]]]]]]]]]].
  rewrite K1 in Q4. injection Q4 as <-.
  destruct (unsharp_ok fuel junk blur m BSep a t pd u x b ax (map Z.of_nat al) Hf) as [y [Y1 Y2]]; auto.
  { unfold unsharp_init. rewrite Hf. auto. }
  exists ws, xp, b, y. split; auto. split. { intros r Hr. specialize (Q2 r Hr). now rewrite nth_repeat in Q2. }
  split; auto. split; auto. split; [rewrite <- K2; auto|]. split; auto. split; auto. split.
  - intros ->. eapply sharpened_zero; eauto.
  - intros EA Hw c Hc. eapply sharpened_fixed; eauto. intros i V.
    destruct (const_same F fuel junk m c x _ al kers _ p ms B2 SC EA Hw Hc) as [b2 [E1 E2]]. rewrite K1 in E1. injection E1 as <-.
    rewrite E2 by congruence. symmetry. apply Hc. auto.
Qed.

(** *** calls do not depend on earlier calls *)
Definition ulike (u u' : unsharp F) : Prop :=
  mlike F (um_blur u) (um_blur u') /\ um_kind u = um_kind u' /\ um_amount u = um_amount u' /\ um_threshold u = um_threshold u'.
Lemma unsharp_like fuel junk (u u' : unsharp F) (x : T) ax : ulike u u' ->
  snd (unsharp_forward fuel junk u x ax) = snd (unsharp_forward fuel junk u' x ax) /\ ulike u (fst (unsharp_forward fuel junk u x ax)).
Proof.
  intros [U1 [U2 [U3 U4]]]. unfold unsharp_forward. destruct (check_axes _ ax) as [axes|er].
  2:{ split; auto. repeat split. apply mlike_refl. }
  rewrite <- U2, <- U3, <- U4.
  assert (L : snd (blur_forward fuel junk (um_kind u) (um_blur u) x (AxSeq axes)) = snd (blur_forward fuel junk (um_kind u) (um_blur u') x (AxSeq axes)) /\
    mlike F (um_blur u) (fst (blur_forward fuel junk (um_kind u) (um_blur u) x (AxSeq axes)))).
  { unfold blur_forward. destruct (um_kind u); [|apply avg_forward_like; auto].
    destruct (sep_forward_like F fuel junk _ _ x (AxSeq axes) U1) as [S1 [S2 _]]. auto. }
  destruct L as [L1 L2]. destruct (blur_forward fuel junk (um_kind u) (um_blur u) x (AxSeq axes)) as [m r].
  destruct (blur_forward fuel junk (um_kind u) (um_blur u') x (AxSeq axes)) as [m' r']. cbn [fst snd] in *. subst r'.
  split; auto. split; auto.
Qed.
Lemma ulike_refl u : ulike u u.
Proof. split; [apply mlike_refl|auto]. Qed.
Lemma ulike_trans a b c : ulike a b -> ulike b c -> ulike a c.
Proof. intros [A1 [A2 [A3 A4]]] [B1 [B2 [B3 B4]]]. split; [eapply mlike_trans; eauto|]. split; [congruence|]. split; congruence. Qed.
Theorem unsharp_history (u : unsharp F) cs fuel junk (x : T) ax :
  snd (unsharp_forward fuel junk (unsharp_after u cs) x ax) = snd (unsharp_forward fuel junk u x ax).
Proof.
  assert (G : forall l u', ulike u u' -> ulike u (unsharp_after u' l)).
  { induction l as [|[[[fu ju] xx] aa] l IH]; intros u' H; auto. unfold unsharp_after in *. cbn [fold_left]. apply IH.
    eapply ulike_trans; [exact H|]. exact (proj2 (unsharp_like fu ju u' u' xx aa (ulike_refl u'))). }
  symmetry. apply unsharp_like. apply G. apply ulike_refl.
Qed.
End SH.
