(** MS_SSIM.forward: the loop over the levels, and the properties C53 and C54. *)
From Verif Require Export MsLevels.
Open Scope Z_scope.

Section Loop.
Variable F : ofield.
Add Field Fmo : (f_field F).
Notation T := (tensor F).
Variables (fuel : nat) (junk : list Z -> F) (b : pool F) (al : list nat) (kers : list (list F)) (pd : option (padder F)).
Variables (K1 K2 : F) (sample crop : bool) (c : F).
Variable pow : F -> F -> F.
Variable m : msssim F.
Notation axes := (map Z.of_nat al).
Notation fwd := (sep_forward fuel junk).
Notation dfwd := (avg_forward fuel junk true).
Notation st_ok := (st_ok F b al K1 K2 sample crop c).
Notation level := (level F fuel junk b al kers pd).
Notation csn := (cs_n F fuel junk al kers pd K2 c).
Notation csd := (cs_d F fuel junk al kers pd K2 c).
Notation ssn := (ss_n F fuel junk al kers pd K1 K2 c).
Notation ssd := (ss_d F fuel junk al kers pd K1 K2 c).
Notation level_scored := (level_scored F fuel junk b al kers pd crop).
Notation level_zero := (level_zero F fuel junk b al kers pd).
Notation kept := (kept_shape al).

(** z is x after i halvings. *)
Inductive pyr : nat -> T -> T -> Prop :=
| pyr0 x : pyr 0 x x
| pyrS i x y z : downsample dfwd x axes = Ok y -> pyr i y z -> pyr (S i) x z.

(** A run of the loop. *)
Inductive trace : list F -> T -> T -> option T -> T -> T -> option T -> Prop :=
| trace_nil y1 y2 f : trace [] y1 y2 f y1 y2 f
| trace_cons w ws y1 y2 f score f' z1 z2 r1 r2 rf : level_scored csn csd y1 y2 score -> shp score = kept (shp y1) ->
    add_score m f (level_score pow m w score) = Ok f' -> downsample dfwd y1 axes = Ok z1 -> downsample dfwd y2 axes = Ok z2 ->
    trace ws z1 z2 (Some f') r1 r2 rf -> trace (w :: ws) y1 y2 f r1 r2 rf.

Definition levels (n : Z) (sh : list Z) : Prop := forall i, 0 <= i <= n -> level (halved al i sh).
Lemma levels_here n sh : 0 <= n -> levels n sh -> level sh.
Proof. intros H L. rewrite <- (halved_0 al sh). apply L. lia. Qed.
Lemma levels_next n sh : 0 <= n -> levels (n + 1) sh -> levels n (halved al 1 sh).
Proof. intros H L i Hi. rewrite halved_add by lia. apply L. lia. Qed.
Lemma levels_two n sh a : 0 <= n -> levels (n + 1) sh -> In a al -> 2 <= nth a sh 0.
Proof.
  intros H L Ha. assert (Hl : (a < length sh)%nat) by (apply (lv_axes _ _ _ _ _ _ _ _ (levels_here _ _ (ltac:(lia) : 0 <= n + 1) L)); auto).
  pose proof (lv_pos _ _ _ _ _ _ _ _ (L 1 ltac:(lia)) (nth a (halved al 1 sh) 0) ltac:(apply nth_In; now rewrite halved_length)) as P.
  rewrite halved_in in P by auto. replace (2 ^ 1) with 2 in P by reflexivity. Z.div_mod_to_equations. lia.
Qed.
Lemma kept_half i sh : (forall a, In a al -> (a < length sh)%nat) -> kept (halved al i sh) = kept sh.
Proof. intros A. apply kept_shape_eq; auto; [apply halved_length|]. intros d Hd. now apply halved_notin. Qed.

Lemma level_score_shape w (t : T) : shp (level_score pow m w t) = shp t.
Proof. unfold level_score. destruct (ms_prod m); reflexivity. Qed.
Lemma add_score_ok f (t : T) : (forall u, f = Some u -> shp u = shp t) -> exists r, add_score m f t = Ok r /\ shp r = shp t /\
  forall j, valid (shp t) j -> at_ r j = match f with None => at_ t j | Some u => if ms_prod m then fmul (at_ u j) (at_ t j) else fadd (at_ u j) (at_ t j) end.
Proof.
  intros H. destruct f as [u|]; cbn [add_score]; [|eauto]. specialize (H u eq_refl).
  destruct (tmap2_same (if ms_prod m then fmul else fadd) u t H) as [r [-> [S V]]]. exists r. split; auto. split; [congruence|].
  intros j Vj. rewrite V by congruence. destruct (ms_prod m); reflexivity.
Qed.

Theorem loop_run ws : forall (y1 y2 : T) f s, shp y2 = shp y1 -> st_ok s -> levels (Z.of_nat (length ws)) (shp y1) -> (forall t, f = Some t -> shp t = kept (shp y1)) ->
  exists s', st_ok s' /\
  ((exists r1 r2 rf, ms_loop fwd pow dfwd m ws y1 y2 axes f s = (s', Ok (r1, r2, rf)) /\ trace ws y1 y2 f r1 r2 rf /\ pyr (length ws) y1 r1 /\ pyr (length ws) y2 r2 /\
      shp r1 = halved al (Z.of_nat (length ws)) (shp y1) /\ shp r2 = shp r1 /\ (forall t, rf = Some t -> shp t = kept (shp y1)) /\ (ws <> [] \/ f <> None -> rf <> None) /\ (ws = [] -> rf = f)) \/
   (ms_loop fwd pow dfwd m ws y1 y2 axes f s = (s', Err ZeroDivisionError) /\
      exists i z1 z2, (i < length ws)%nat /\ pyr i y1 z1 /\ pyr i y2 z2 /\ shp z1 = halved al (Z.of_nat i) (shp y1) /\ shp z2 = shp z1 /\ level_zero csd z1 z2)).
Proof.
  induction ws as [|w ws IH]; intros y1 y2 f s Hs SO Lv Hf.
  - exists s. split; auto. left. exists y1, y2, f. cbn [ms_loop length]. split; [reflexivity|]. split; [constructor|]. split; [constructor|]. split; [constructor|].
    rewrite halved_0. split; auto. split; auto. split; auto. split; auto. intros [C|C]; auto.
  - cbn [length] in Lv. replace (Z.of_nat (S (length ws))) with (Z.of_nat (length ws) + 1) in Lv by lia.
    pose proof (levels_here _ _ (ltac:(lia) : 0 <= Z.of_nat (length ws) + 1) Lv) as L0.
    pose proof (lv_axes _ _ _ _ _ _ _ _ L0) as LA.
    destruct (cs_level F fuel junk b al kers pd K1 K2 sample crop c s y1 y2 L0 SO Hs) as [s1 [SO1 [[full [cr [score [E1 [E2 [E3 [LS Ss]]]]]]]|[E1 LZ]]]].
    2:{ exists s1. split; auto. right. cbn [ms_loop]. unfold sbind at 1. rewrite E1. split; auto. exists 0%nat, y1, y2. cbn [length]. split; [lia|]. split; [constructor|]. split; [constructor|].
        rewrite halved_0. auto. }
    assert (T2 : forall a, In a al -> 2 <= nth a (shp y1) 0) by (intros a Ha; eapply levels_two with (n := Z.of_nat (length ws)); eauto; lia).
    destruct (add_score_ok f (level_score pow m w score)) as [f' [E4 [S4 _]]]. { intros u Hu. rewrite level_score_shape, Ss. auto. }
    rewrite level_score_shape, Ss in S4.
    destruct (downsample_ok F fuel junk y1 al LA (lv_nodup _ _ _ _ _ _ _ _ L0) T2) as [z1 [E5 [S5 _]]].
    destruct (downsample_ok F fuel junk y2 al) as [z2 [E6 [S6 _]]]; [unfold ndim; rewrite Hs; exact LA|exact (lv_nodup _ _ _ _ _ _ _ _ L0)|rewrite Hs; exact T2|].
    assert (St : ms_loop fwd pow dfwd m (w :: ws) y1 y2 axes f s = ms_loop fwd pow dfwd m ws z1 z2 axes (Some f') s1).
    { cbn [ms_loop]. unfold sbind at 1. rewrite E1. unfold sbind at 1. rewrite E2. unfold sbind at 1, ret at 1. rewrite E3. unfold sbind at 1, ret at 1. rewrite E4.
      unfold sbind at 1, ret at 1. rewrite E5. unfold sbind at 1, ret at 1. rewrite E6. reflexivity. }
    rewrite St. destruct (IH z1 z2 (Some f') s1) as [s' [SO' R]]; auto; [congruence|rewrite S5; apply levels_next; auto; lia|intros t [= <-]; rewrite S5, kept_half; auto|].
    exists s'. split; auto. destruct R as [[r1 [r2 [rf [R1 [R2 [R3 [R4 [R5 [R6 [R7 [R8 _]]]]]]]]]]]|[R1 [i [u1 [u2 [R2 [R3 [R4 [R5 [R6 R7]]]]]]]]]].
    + left. exists r1, r2, rf. split; auto. split; [econstructor; eauto|]. cbn [length]. split; [econstructor; eauto|]. split; [econstructor; eauto|].
      split; [rewrite R5, S5, halved_add by lia; f_equal; lia|]. split; auto. split; [intros t Ht; rewrite (R7 t Ht), S5; now apply kept_half|].
      split; [intros _; apply R8; right; discriminate|]. discriminate.
    + right. split; auto. exists (S i), u1, u2. cbn [length]. split; [lia|]. split; [econstructor; eauto|]. split; [econstructor; eauto|].
      split; [rewrite R5, S5, halved_add by lia; f_equal; lia|]. auto.
Qed.

(** *** forward, after the argument checks *)
Definition last_weight : F := last (ms_weights m) f0.
(** A complete run: at least two weights, every level scored. *)
Definition ms_run (y1 y2 : T) (final : T) : Prop :=
  exists r1 r2 t score, trace (removelast (ms_weights m)) y1 y2 None r1 r2 (Some t) /\ pyr (pred (length (ms_weights m))) y1 r1 /\ pyr (pred (length (ms_weights m))) y2 r2 /\
    level_scored ssn ssd r1 r2 score /\ shp score = kept (shp y1) /\ shp r2 = shp r1 /\ add_score m (Some t) (level_score pow m last_weight score) = Ok final /\ shp final = kept (shp y1).
Definition ms_zero (y1 y2 : T) : Prop :=
  exists i z1 z2, pyr i y1 z1 /\ pyr i y2 z2 /\ shp z1 = halved al (Z.of_nat i) (shp y1) /\ shp z2 = shp z1 /\
    ((S i < length (ms_weights m))%nat /\ level_zero csd z1 z2 \/ (S i = length (ms_weights m))%nat /\ level_zero ssd z1 z2).

Lemma pyidx_last (l : list F) d : l <> [] -> pyidx l (-1) = Ok (last l d).
Proof.
  intros H. destruct (exists_last H) as [l' [a ->]]. rewrite last_last. unfold pyidx. replace (-1 <? 0) with true by reflexivity.
  rewrite app_length. cbn [length]. destruct (Z.leb_spec 0 (-1 + Z.of_nat (length l' + 1))); [|lia]. destruct (Z.ltb_spec (-1 + Z.of_nat (length l' + 1)) (Z.of_nat (length l' + 1))); [|lia].
  cbn [andb]. replace (Z.to_nat (-1 + Z.of_nat (length l' + 1))) with (length l') by lia. rewrite nth_error_app2, Nat.sub_diag by lia. reflexivity.
Qed.

Definition ms_body (y1 y2 : T) : st T :=
  sbind (ms_loop fwd pow dfwd m (removelast (ms_weights m)) y1 y2 axes None) (fun r => let '(y1, y2, final) := r in
  sbind (ssim_full fwd y1 y2 axes) (fun full => sbind (crop_border full axes) (fun full => sbind (ret (tmean full axes true)) (fun score =>
  sbind (ret (pyidx (ms_weights m) (-1))) (fun w => ret (match final with None => Err TypeError | Some f => add_score m (Some f) (level_score pow m w score) end)))))).

Lemma removelast_length {A} (l : list A) : length (removelast l) = pred (length l).
Proof. destruct l as [|a l]; [reflexivity|]. destruct (exists_last (l := a :: l)) as [l' [e ->]]; [discriminate|]. rewrite removelast_last, app_length. cbn. lia. Qed.

Theorem body_run (y1 y2 : T) s : shp y2 = shp y1 -> st_ok s -> ms_weights m <> [] -> levels (Z.of_nat (length (ms_weights m)) - 1) (shp y1) ->
  exists s', st_ok s' /\
  ((exists w, ms_weights m = [w] /\ ms_body y1 y2 s = (s', Err TypeError)) \/
   (exists final, (2 <= length (ms_weights m))%nat /\ ms_body y1 y2 s = (s', Ok final) /\ ms_run y1 y2 final) \/
   (ms_body y1 y2 s = (s', Err ZeroDivisionError) /\ ms_zero y1 y2)).
Proof.
  intros Hs SO Hw Lv. assert (Lr : length (removelast (ms_weights m)) = pred (length (ms_weights m))) by apply removelast_length.
  assert (L1 : (1 <= length (ms_weights m))%nat) by (destruct (ms_weights m); [congruence|cbn; lia]).
  replace (Z.of_nat (length (ms_weights m)) - 1) with (Z.of_nat (length (removelast (ms_weights m)))) in Lv by lia.
  destruct (loop_run _ y1 y2 None s Hs SO Lv) as [s1 [SO1 R]]; [discriminate|]. unfold ms_body.
  destruct R as [[r1 [r2 [rf [R1 [R2 [R3 [R4 [R5 [R6 [R7 [R8 R9]]]]]]]]]]]|[R1 [i [u1 [u2 [R2 [R3 [R4 [R5 [R6 R7]]]]]]]]]].
  2:{ exists s1. split; auto. right. right. unfold sbind at 1. rewrite R1. split; auto. exists i, u1, u2. repeat split; auto. left. split; auto. lia. }
  fold (ms_body y1 y2).
  assert (BE : ms_body y1 y2 s = sbind (ssim_full fwd r1 r2 axes) (fun full => sbind (crop_border full axes) (fun full => sbind (ret (tmean full axes true)) (fun score =>
    sbind (ret (pyidx (ms_weights m) (-1))) (fun w => ret (match rf with None => Err TypeError | Some f => add_score m (Some f) (level_score pow m w score) end))))) s1).
  { unfold ms_body. unfold sbind at 1. now rewrite R1. }
  assert (L0 : level (shp r1)) by (rewrite R5; apply Lv; lia).
  pose proof (levels_here _ _ (ltac:(lia) : 0 <= Z.of_nat (length (removelast (ms_weights m)))) Lv) as LL.
  destruct (ssim_level F fuel junk b al kers pd K1 K2 sample crop c s1 r1 r2 L0 SO1 R6) as [s2 [SO2 [[full [cr [score [E1 [E2 [E3 [LS Ss]]]]]]]|[E1 LZ]]]].
  2:{ exists s2. split; auto. right. right. rewrite BE. unfold sbind at 1. rewrite E1. split; auto. exists (length (removelast (ms_weights m))), r1, r2. repeat split; auto. right. split; auto. lia. }
  assert (KS : kept (shp r1) = kept (shp y1)) by (rewrite R5; apply kept_half; apply (lv_axes _ _ _ _ _ _ _ _ LL)). rewrite KS in Ss.
  assert (BE2 : ms_body y1 y2 s = (s2, match rf with None => Err TypeError | Some f => add_score m (Some f) (level_score pow m (last (ms_weights m) f0) score) end)).
  { rewrite BE. unfold sbind at 1. rewrite E1. unfold sbind at 1. rewrite E2. unfold sbind at 1, ret at 1. rewrite E3. unfold sbind at 1, ret at 1.
    now rewrite (pyidx_last _ f0 Hw). }
  exists s2. split; auto. rewrite BE2. destruct rf as [t|].
  - right. left. destruct (add_score_ok (Some t) (level_score pow m (last (ms_weights m) f0) score)) as [fin [A1 [A2 _]]].
    { intros u [= <-]. rewrite level_score_shape, Ss. auto. }
    rewrite A1. exists fin. split; [|split; [reflexivity|]].
    + destruct (ms_weights m) as [|a [|a' l]]; [congruence| |cbn; lia]. cbn [removelast] in R9. specialize (R9 eq_refl). discriminate.
    + exists r1, r2, t, score. rewrite level_score_shape, Ss in A2. rewrite <- Lr. auto 10.
  - left. destruct (ms_weights m) as [|a [|a' l]]; [congruence|eauto|]. exfalso. apply R8; auto. left. discriminate.
Qed.

(** *** identical images *)
Definition so_far (ws : list F) (v : F) : F := if ms_prod m then v else fadd v (lsum ws).
Lemma score_is_one w (t : T) : (forall w, In w (ms_weights m) -> pow f1 w = f1) -> (ms_prod m = true -> fle (ms_eps m) f1) -> In w (ms_weights m) -> constant_image f1 t ->
  constant_image (if ms_prod m then f1 else w) (level_score pow m w t).
Proof.
  intros Hp He Hw C j Vj. rewrite level_score_shape in Vj. unfold level_score. destruct (ms_prod m); cbn [tmap clamp_min at_]; rewrite (C j Vj).
  - specialize (He eq_refl). unfold fle in He. rewrite He. auto.
  - ring.
Qed.
Lemma trace_self ws : forall y1 y2 f r1 r2 rf, trace ws y1 y2 f r1 r2 rf -> y2 = y1 -> (forall w, In w (ms_weights m) -> pow f1 w = f1) -> (ms_prod m = true -> fle (ms_eps m) f1) ->
  (forall w, In w ws -> In w (ms_weights m)) -> levels (Z.of_nat (length ws)) (shp y1) -> (forall u, f = Some u -> shp u = kept (shp y1)) ->
  forall v, (match f with None => v = (if ms_prod m then f1 else f0) | Some u => constant_image v u end) ->
  r2 = r1 /\ shp r1 = halved al (Z.of_nat (length ws)) (shp y1) /\
  (forall t, rf = Some t -> shp t = kept (shp y1) /\ constant_image (if ms_prod m then v else fadd v (lsum ws)) t).
Proof.
  induction 1 as [y1 y2 f|w ws y1 y2 f score f' z1 z2 r1 r2 rf LS Ss A D1 D2 Tr IH]; intros -> Hp He Hi Lv Hf v Hv.
  - split; auto. split; [cbn; now rewrite halved_0|]. intros t ->. split; auto. destruct (ms_prod m); auto. cbn. replace (fadd v f0) with v by ring. auto.
  - rewrite D1 in D2. injection D2 as <-.
    cbn [length] in Lv. replace (Z.of_nat (S (length ws))) with (Z.of_nat (length ws) + 1) in Lv by lia.
    pose proof (levels_here _ _ (ltac:(lia) : 0 <= Z.of_nat (length ws) + 1) Lv) as L0.
    pose proof (lv_axes _ _ _ _ _ _ _ _ L0) as LA.
    assert (T2 : forall a, In a al -> 2 <= nth a (shp y1) 0) by (intros a Ha; eapply levels_two with (n := Z.of_nat (length ws)); eauto; lia).
    destruct (downsample_ok F fuel junk y1 al LA (lv_nodup _ _ _ _ _ _ _ _ L0) T2) as [z [E5 [S5 _]]]. rewrite D1 in E5. injection E5 as <-.
    pose proof (score_one F fuel junk b al kers pd crop csn csd y1 score L0 (fun ws j => cs_self F fuel junk al kers pd K2 c ws y1 j) LS) as C1.
    pose proof (score_is_one w score Hp He (Hi w (or_introl eq_refl)) C1) as C2.
    destruct (add_score_ok f (level_score pow m w score)) as [f2 [A1 [A2 A3]]]. { intros u Hu. rewrite level_score_shape, Ss. auto. }
    rewrite A in A1. injection A1 as <-. rewrite level_score_shape in A2.
    set (v' := if ms_prod m then v else fadd v w).
    assert (C3 : constant_image v' f').
    { intros j Vj. rewrite A2 in Vj. rewrite A3 by (now rewrite level_score_shape). assert (Vj' : valid (shp (level_score pow m w score)) j) by now rewrite level_score_shape.
      rewrite (C2 j Vj'). unfold v'. destruct f as [u|].
      - rewrite (Hv j) by (rewrite (Hf u eq_refl), <- Ss; exact Vj). destruct (ms_prod m); [ring|reflexivity].
      - subst v. destruct (ms_prod m); [reflexivity|ring]. }
    destruct (IH eq_refl Hp He) with (v := v') as [R1 [R2 R3]]; auto.
    + intros w' Hw'. apply Hi. now right.
    + rewrite S5. apply levels_next; auto. lia.
    + intros u [= <-]. rewrite S5, kept_half, A2, Ss; auto.
    + split; auto. split; [rewrite R2, S5, halved_add by lia; f_equal; cbn [length]; lia|]. intros t Ht. destruct (R3 t Ht) as [Q1 Q2].
      split; [rewrite Q1, S5; now apply kept_half|]. unfold v' in Q2. destruct (ms_prod m); auto. intros j Vj. rewrite (Q2 j Vj). change (lsum (w :: ws)) with (fadd w (lsum ws)). ring.
Qed.

Theorem run_self (y final : T) : ms_run y y final -> (forall w, In w (ms_weights m) -> pow f1 w = f1) -> (ms_prod m = true -> fle (ms_eps m) f1) ->
  ms_weights m <> [] -> levels (Z.of_nat (length (ms_weights m)) - 1) (shp y) ->
  constant_image (if ms_prod m then f1 else lsum (ms_weights m)) final.
Proof.
  intros [r1 [r2 [t [score [Tr [_ [_ [LS [Ss [_ [A Sf]]]]]]]]]]] Hp He Hw Lv.
  destruct (exists_last Hw) as [l' [wl El]].
  assert (Lr : length (removelast (ms_weights m)) = pred (length (ms_weights m))) by apply removelast_length.
  assert (L1 : (1 <= length (ms_weights m))%nat) by (destruct (ms_weights m); [congruence|cbn; lia]).
  replace (Z.of_nat (length (ms_weights m)) - 1) with (Z.of_nat (length (removelast (ms_weights m)))) in Lv by lia.
  destruct (trace_self _ _ _ _ _ _ _ Tr eq_refl Hp He) with (v := if ms_prod m then @f1 F else f0) as [-> [S1 R]]; auto.
  { intros w Hi. rewrite El in *. rewrite removelast_last in Hi. apply in_or_app. now left. } { discriminate. }
  destruct (R t eq_refl) as [St Ct].
  assert (L0 : level (shp r1)) by (rewrite S1; apply Lv; lia).
  pose proof (score_one F fuel junk b al kers pd crop ssn ssd r1 score L0 (fun ws j => ss_self F fuel junk al kers pd K1 K2 c ws r1 j) LS) as C1.
  pose proof (score_is_one last_weight score Hp He) as C2. unfold last_weight in C2. rewrite El, last_last in C2. specialize (C2 ltac:(apply in_or_app; right; now left) C1).
  unfold last_weight in A. rewrite El, last_last in A.
  destruct (add_score_ok (Some t) (level_score pow m wl score)) as [f2 [A1 [A2 A3]]]. { intros u [= <-]. rewrite level_score_shape, Ss. auto. }
  rewrite A in A1. injection A1 as <-. intros j Vj. rewrite A2, level_score_shape in Vj. rewrite A3 by (now rewrite level_score_shape).
  assert (Vj' : valid (shp (level_score pow m wl score)) j) by now rewrite level_score_shape.
  rewrite (C2 j Vj'), (Ct j) by (rewrite St, <- Ss; exact Vj). rewrite El, removelast_last. destruct (ms_prod m); [ring|]. unfold lsum. rewrite fold_right_app. cbn.
  assert (Q : forall a : F, fold_right fadd a l' = fadd (fold_right fadd f0 l') a). { intros a. clear. induction l' as [|x l IH]; cbn; [ring|rewrite IH; ring]. }
  rewrite (Q (fadd wl f0)). ring.
Qed.

(** *** bounds *)
Definition weights_ok : Prop := if ms_prod m then fle (ms_eps m) f1 /\ (forall w v, In w (ms_weights m) -> fle (ms_eps m) v -> fle v f1 -> fle f0 (pow v w) /\ fle (pow v w) f1)
  else forall w, In w (ms_weights m) -> fle f0 w.
Definition lo_of (ws : list F) : F := if ms_prod m then f0 else fopp (lsum ws).
Definition hi_of (ws : list F) : F := if ms_prod m then f1 else lsum ws.

Lemma level_score_range w (t : T) : weights_ok -> In w (ms_weights m) -> in_range (fopp f1) f1 t ->
  in_range (if ms_prod m then f0 else fopp w) (if ms_prod m then f1 else w) (level_score pow m w t).
Proof.
  intros W Hw C j Vj. rewrite level_score_shape in Vj. unfold level_score, weights_ok in *. destruct (C j Vj) as [C1 C2]. destruct (ms_prod m); cbn [tmap clamp_min at_].
  - destruct W as [We Wp]. destruct (fleb (ms_eps m) (at_ t j)) eqn:E; apply Wp; auto. apply fle_refl.
  - specialize (W w Hw). split.
    + replace (fopp w) with (fmul w (fopp f1)) by ring. replace (fmul (at_ t j) w) with (fmul w (at_ t j)) by ring. now apply fmul_le_l.
    + replace w with (fmul w f1) at 2 by ring. replace (fmul (at_ t j) w) with (fmul w (at_ t j)) by ring. now apply fmul_le_l.
Qed.
Lemma fmul_unit (a d : F) : fle f0 a -> fle a f1 -> fle f0 d -> fle d f1 -> fle f0 (fmul a d) /\ fle (fmul a d) f1.
Proof.
  intros A B C D. split; [now apply fmul_nonneg|]. eapply fle_trans; [apply fmul_le_l; [exact A|exact D]|]. now replace (fmul a f1) with a by ring.
Qed.
Lemma add_range f (t r : T) w lo hi : (forall u, f = Some u -> shp u = shp t) -> in_range (if ms_prod m then f0 else fopp w) (if ms_prod m then f1 else w) t ->
  match f with None => lo = (if ms_prod m then f0 else f0) /\ hi = (if ms_prod m then f1 else f0) | Some u => in_range lo hi u end ->
  (ms_prod m = true -> lo = f0 /\ hi = f1) -> add_score m f t = Ok r ->
  in_range (if ms_prod m then f0 else fadd lo (fopp w)) (if ms_prod m then f1 else fadd hi w) r.
Proof.
  intros Hu C Hf Hp A. destruct (add_score_ok f t Hu) as [r' [A1 [A2 A3]]]. rewrite A in A1. injection A1 as <-. intros j Vj. rewrite A2 in Vj. rewrite (A3 j Vj).
  destruct (C j Vj) as [C1 C2]. destruct f as [u|].
  - assert (Vu : valid (shp u) j) by (rewrite (Hu u eq_refl); exact Vj). destruct (Hf j Vu) as [U1 U2]. destruct (ms_prod m).
    + destruct (Hp eq_refl) as [-> ->]. now apply fmul_unit.
    + split; now apply fle_add.
  - destruct Hf as [-> ->]. destruct (ms_prod m); auto. replace (fadd f0 (fopp w)) with (fopp w) by ring. replace (fadd f0 w) with w by ring. auto.
Qed.

Definition proper : Prop := window F kers /\ proper_padder (length al) pd /\ fle f0 c /\ K1 <> f0 /\ K2 <> f0.

Lemma trace_range ws : forall y1 y2 f r1 r2 rf, trace ws y1 y2 f r1 r2 rf -> proper -> weights_ok -> shp y2 = shp y1 ->
  (forall w, In w ws -> In w (ms_weights m)) -> levels (Z.of_nat (length ws)) (shp y1) -> (forall u, f = Some u -> shp u = kept (shp y1)) ->
  forall lo hi, (ms_prod m = true -> lo = f0 /\ hi = f1) -> (match f with None => lo = (if ms_prod m then f0 else f0) /\ hi = (if ms_prod m then f1 else f0) | Some u => in_range lo hi u end) ->
  shp r2 = shp r1 /\ shp r1 = halved al (Z.of_nat (length ws)) (shp y1) /\
  (forall t, rf = Some t -> shp t = kept (shp y1) /\ in_range (if ms_prod m then f0 else fadd lo (fopp (lsum ws))) (if ms_prod m then f1 else fadd hi (lsum ws)) t).
Proof.
  induction 1 as [y1 y2 f|w ws y1 y2 f score f' z1 z2 r1 r2 rf LS Ss A D1 D2 Tr IH]; intros Pr W Hs Hi Lv Hf lo hi Hlh Hv.
  - split; auto. split; [cbn; now rewrite halved_0|]. intros t ->. split; auto. destruct (ms_prod m).
    + destruct (Hlh eq_refl) as [-> ->]. exact Hv.
    + cbn. replace (fadd lo (fopp f0)) with lo by ring. replace (fadd hi f0) with hi by ring. exact Hv.
  - cbn [length] in Lv. replace (Z.of_nat (S (length ws))) with (Z.of_nat (length ws) + 1) in Lv by lia.
    pose proof (levels_here _ _ (ltac:(lia) : 0 <= Z.of_nat (length ws) + 1) Lv) as L0.
    pose proof (lv_axes _ _ _ _ _ _ _ _ L0) as LA.
    assert (T2 : forall a, In a al -> 2 <= nth a (shp y1) 0) by (intros a Ha; eapply levels_two with (n := Z.of_nat (length ws)); eauto; lia).
    destruct (downsample_ok F fuel junk y1 al LA (lv_nodup _ _ _ _ _ _ _ _ L0) T2) as [z [E5 [S5 _]]]. rewrite D1 in E5. injection E5 as <-.
    destruct (downsample_ok F fuel junk y2 al) as [z [E6 [S6 _]]]; [unfold ndim; rewrite Hs; exact LA|exact (lv_nodup _ _ _ _ _ _ _ _ L0)|rewrite Hs; exact T2|]. rewrite D2 in E6. injection E6 as <-.
    destruct Pr as [P1 [P2 [P3 [P4 P5]]]].
    pose proof (score_range F fuel junk b al kers pd crop csn csd y1 y2 score L0 (cs_proper F fuel junk b al kers pd K2 c y1 y2 Hs P1 P2 P3 P5) LS) as C1.
    pose proof (level_score_range w score W (Hi w (or_introl eq_refl)) C1) as C2.
    assert (Hu : forall u, f = Some u -> shp u = shp (level_score pow m w score)) by (intros u Hu; rewrite level_score_shape, Ss; auto).
    pose proof (add_range f (level_score pow m w score) f' w lo hi Hu C2 Hv Hlh A) as C3.
    destruct (add_score_ok f (level_score pow m w score) Hu) as [f2 [A1 [A2 A3]]]. rewrite A in A1. injection A1 as <-. rewrite level_score_shape in A2.
    destruct (IH (conj P1 (conj P2 (conj P3 (conj P4 P5)))) W) with (lo := if ms_prod m then @f0 F else fadd lo (fopp w)) (hi := if ms_prod m then @f1 F else fadd hi w) as [R1 [R2 R3]]; auto.
    + congruence.
    + intros w' Hw'. apply Hi. now right.
    + rewrite S5. apply levels_next; auto. lia.
    + intros u [= <-]. rewrite S5, kept_half, A2, Ss; auto.
    + intros E. rewrite E. auto.
    + split; auto. split; [rewrite R2, S5, halved_add by lia; f_equal; cbn [length]; lia|]. intros t Ht. destruct (R3 t Ht) as [Q1 Q2].
      split; [rewrite Q1, S5; now apply kept_half|]. destruct (ms_prod m); auto. change (lsum (w :: ws)) with (fadd w (lsum ws)).
      replace (fadd lo (fopp (fadd w (lsum ws)))) with (fadd (fadd lo (fopp w)) (fopp (lsum ws))) by ring.
      replace (fadd hi (fadd w (lsum ws))) with (fadd (fadd hi w) (lsum ws)) by ring. exact Q2.
Qed.
Lemma lsum_app (l : list F) a : lsum (l ++ [a]) = fadd (lsum l) a.
Proof. unfold lsum. rewrite fold_right_app. cbn. induction l as [|x l IH]; cbn; [ring|rewrite IH; ring]. Qed.

Theorem run_range (y1 y2 final : T) : ms_run y1 y2 final -> proper -> weights_ok -> shp y2 = shp y1 ->
  ms_weights m <> [] -> levels (Z.of_nat (length (ms_weights m)) - 1) (shp y1) ->
  in_range (if ms_prod m then f0 else fopp (lsum (ms_weights m))) (if ms_prod m then f1 else lsum (ms_weights m)) final.
Proof.
  intros [r1 [r2 [t [score [Tr [_ [_ [LS [Ss [Sr [A Sf]]]]]]]]]]] Pr W Hs Hw Lv.
  destruct (exists_last Hw) as [l' [wl El]].
  assert (Lr : length (removelast (ms_weights m)) = pred (length (ms_weights m))) by apply removelast_length.
  assert (L1 : (1 <= length (ms_weights m))%nat) by (destruct (ms_weights m); [congruence|cbn; lia]).
  replace (Z.of_nat (length (ms_weights m)) - 1) with (Z.of_nat (length (removelast (ms_weights m)))) in Lv by lia.
  destruct (trace_range _ _ _ _ _ _ _ Tr Pr W Hs) with (lo := @f0 F) (hi := if ms_prod m then @f1 F else f0) as [_ [S1 R]]; auto.
  { intros w Hi. rewrite El in *. rewrite removelast_last in Hi. apply in_or_app. now left. } { discriminate. } { intros ->. auto. } { destruct (ms_prod m); auto. }
  destruct (R t eq_refl) as [St Ct].
  assert (L0 : level (shp r1)) by (rewrite S1; apply Lv; lia).
  pose proof Pr as [P1 [P2 [P3 [P4 P5]]]].
  pose proof (score_range F fuel junk b al kers pd crop ssn ssd r1 r2 score L0 (ss_proper F fuel junk b al kers pd K1 K2 c r1 r2 Sr P1 P2 P3 P4 P5) LS) as C1.
  pose proof (level_score_range last_weight score W) as C2. unfold last_weight in C2. rewrite El, last_last in C2. specialize (C2 ltac:(apply in_or_app; right; now left) C1).
  unfold last_weight in A. rewrite El, last_last in A.
  assert (Hu : forall u, Some t = Some u -> shp u = shp (level_score pow m wl score)) by (intros u [= <-]; rewrite level_score_shape, Ss; auto).
  pose proof (add_range (Some t) _ final wl _ _ Hu C2 Ct ltac:(intros ->; auto) A) as C3.
  rewrite El. rewrite El, removelast_last in C3. destruct (ms_prod m); auto. rewrite lsum_app.
  replace (fopp (fadd (lsum l') wl)) with (fadd (fadd f0 (fopp (lsum l'))) (fopp wl)) by ring. replace (fadd (lsum l') wl) with (fadd (fadd f0 (lsum l')) wl) by ring. exact C3.
Qed.
Theorem never_zero (y1 y2 : T) : proper -> shp y2 = shp y1 -> ~ ms_zero y1 y2.
Proof.
  intros [P1 [P2 [P3 [P4 P5]]]] Hs [i [z1 [z2 [_ [_ [S1 [S2 [[_ [psh [osh [ws [j [BF [Vj Z]]]]]]]|[_ [psh [osh [ws [j [BF [Vj Z]]]]]]]]]]]]]]].
  - destruct (cs_proper F fuel junk b al kers pd K2 c z1 z2 S2 P1 P2 P3 P5 psh osh ws j BF Vj) as [_ [_ Q]]. apply (flt_ne F _ _ Q). now rewrite Z.
  - destruct (ss_proper F fuel junk b al kers pd K1 K2 c z1 z2 S2 P1 P2 P3 P4 P5 psh osh ws j BF Vj) as [_ [_ Q]]. apply (flt_ne F _ _ Q). now rewrite Z.
Qed.
End Loop.
