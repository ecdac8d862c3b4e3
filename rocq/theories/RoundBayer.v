(** How far rounding can take BayerConv2d and demosaicing from the exact result. *)
From Coq Require Import Ascii String Sorting.Permutation.
From Verif Require Export RoundBayerModel RoundMetric BayerExact.
Import List. Import ListNotations.
Local Notation length := List.length.
Open Scope string_scope.
Open Scope list_scope.
Open Scope Z_scope.

Lemma pos_dec (p q : pos) : {p = q} + {p <> q}.
Proof. decide equality. Qed.

Section B.
Variable F : ofield.
Add Field Frb : (f_field F).
Notation T := (tensor F).

Lemma prod_sum n k (f : Z -> Z -> Z -> F) c : 
  wsum (map (fun t : Z * Z * Z => f (fst (fst t)) (snd (fst t)) (snd t)) (list_prod (list_prod (zrange c) (zrange n)) (zrange k))) =
  fsum c (fun ch => fsum n (fun a => fsum k (fun b => f ch a b))).
Proof.
  assert (P : forall {A} (l : list A) m (g : A -> Z -> F),
    wsum (map (fun t => g (fst t) (snd t)) (list_prod l (zrange m))) = wsum (map (fun a => fsum m (g a)) l)).
  { intros A l m g. induction l as [|a l IH]; [reflexivity|]. cbn [list_prod]. rewrite map_app, wsum_app, IH. cbn [map]. 
    unfold wsum at 3. cbn [fold_right]. fold (@wsum F). f_equal. rewrite map_map. cbn [fst snd]. apply fold_zrange. }
  rewrite (P _ (list_prod (zrange c) (zrange n)) k (fun t b => f (fst t) (snd t) b)).
  etransitivity; [exact (P _ (zrange c) n (fun ch a => fsum k (f ch a)))|]. apply fold_zrange.
Qed.
Lemma prod_len c k : 0 <= c -> 0 <= k -> length (list_prod (list_prod (zrange c) (zrange k)) (zrange k)) = Z.to_nat (c * k * k).
Proof. intros. rewrite !prod_length, !zrange_length, !Z2Nat.inj_mul by lia. reflexivity. Qed.

(** The number of terms of a value: at most so many roundings meet each. *)
Definition conv_roundings (M : bayer_conv F) : nat :=
  Z.to_nat (bc_in M * bc_k M * bc_k M) + match bc_bias M with None => 0 | Some _ => 1 end.
(** The same sum with absolute values. *)
Definition abs_conv_at (M : bayer_conv F) (x : T) (h w : Z) (q : pos) (p : list Z) (o i j : Z) : F :=
  fadd (fsum (bc_in M) (fun ch => fsum (bc_k M) (fun a => fsum (bc_k M) (fun b =>
     fmul (fabs (bc_w M q o ch a b))
          (fabs (at_ x (p ++ [ch; reflect h (i + a - bc_k M / 2); reflect w (j + b - bc_k M / 2)])))))))
    (fabs (bias_at F M q o)).

Lemma terms_sum (M : bayer_conv F) (q : pos) (f : Z -> Z -> Z -> F) z : wsum (map (fun t => match t with None => z | Some (c, a, b) => f c a b end)
     (conv_terms (bc_in M) (bc_k M) match bc_bias M with None => None | Some b => Some (b q) end)) =
     fadd (fsum (bc_in M) (fun ch => fsum (bc_k M) (fun a => fsum (bc_k M) (fun b => f ch a b)))) match bc_bias M with None => f0 | Some _ => z end.
Proof.
  unfold conv_terms. rewrite map_app, wsum_app, map_map. f_equal.
  - rewrite <- prod_sum. f_equal. apply map_ext. now intros [[c a] b].
  - destruct (bc_bias M); cbn; [ring|reflexivity].
Qed.
Lemma terms_err e (M : bayer_conv F) q o (g : Z -> Z -> Z -> F) (p : option (Z * Z * Z) -> F) v : fle f0 e -> 0 <= bc_in M -> 0 <= bc_k M ->
  (forall c a b, 0 <= c < bc_in M -> 0 <= a < bc_k M -> 0 <= b < bc_k M -> rounds e (fmul (bc_w M q o c a b) (g c a b)) (p (Some (c, a, b)))) ->
  (forall bs, match bc_bias M with None => None | Some b => Some (b q) end = Some bs -> p None = bs o) ->
  fl_sum e p (conv_terms (bc_in M) (bc_k M) match bc_bias M with None => None | Some b => Some (b q) end) v ->
  fle (fabs (fsub v (fadd (fsum (bc_in M) (fun ch => fsum (bc_k M) (fun a => fsum (bc_k M) (fun b => fmul (bc_w M q o ch a b) (g ch a b))))) (bias_at F M q o))))
      (fmul (fsub (fpow (fadd f1 e) (conv_roundings M)) f1)
            (fadd (fsum (bc_in M) (fun ch => fsum (bc_k M) (fun a => fsum (bc_k M) (fun b => fmul (fabs (bc_w M q o ch a b)) (fabs (g ch a b))))))
                  (fabs (bias_at F M q o)))).
Proof.
  intros He Hc Hk HP HB HS.
  set (wt := fun t : option (Z * Z * Z) => match t with None => bias_at F M q o | Some (c, a, b) => fmul (bc_w M q o c a b) (g c a b) end).
  set (st := fun t => fabs (wt t)).
  assert (E1 : fle (@f1 F) (fadd f1 e)) by (apply (sub_le F f0 e); auto; ring).
  destruct (sum_err F e (fadd f1 e) p st wt _ v He E1 HS) as [L E].
  { intros t Ht. unfold conv_terms in Ht. apply in_app_or in Ht as [Ht|Ht].
    - apply in_map_iff in Ht as ([[c a] b] & <- & Ht). rewrite !in_prod_iff, !In_zrange in Ht. unfold st, wt. apply rounds_err; auto. apply HP; tauto.
    - unfold st, wt, bias_at. destruct (bc_bias M) as [bs|] eqn:EB; [|destruct Ht]. destruct Ht as [<-|[]]. rewrite (HB (bs q)) by reflexivity.
      apply rounds_err; auto. now apply rounds_refl. }
  pose proof (terms_sum M q) as SW.
  assert (EW : wsum (map wt (conv_terms (bc_in M) (bc_k M) match bc_bias M with None => None | Some b => Some (b q) end)) =
    fadd (fsum (bc_in M) (fun ch => fsum (bc_k M) (fun a => fsum (bc_k M) (fun b => fmul (bc_w M q o ch a b) (g ch a b))))) (bias_at F M q o)).
  { unfold wt. rewrite (SW (fun c a b => fmul (bc_w M q o c a b) (g c a b)) (bias_at F M q o)). f_equal. unfold bias_at. now destruct (bc_bias M). }
  assert (ES : wsum (map st (conv_terms (bc_in M) (bc_k M) match bc_bias M with None => None | Some b => Some (b q) end)) =
    fadd (fsum (bc_in M) (fun ch => fsum (bc_k M) (fun a => fsum (bc_k M) (fun b => fmul (fabs (bc_w M q o ch a b)) (fabs (g ch a b)))))) (fabs (bias_at F M q o))).
  { unfold st, wt. rewrite (map_ext _ (fun t => match t with None => fabs (bias_at F M q o) | Some (c, a, b) => fmul (fabs (bc_w M q o c a b)) (fabs (g c a b)) end)).
    - rewrite (SW (fun c a b => fmul (fabs (bc_w M q o c a b)) (fabs (g c a b)))). f_equal. unfold bias_at. destruct (bc_bias M); auto. now rewrite fabs_zero.
    - intros [[[c a] b]|]; auto. apply fabs_mul. }
  rewrite EW, ES in E. destruct E as [E _].
  assert (EL : (length (conv_terms (bc_in M) (bc_k M) match bc_bias M with None => None | Some b => Some (b q) end)) = conv_roundings M).
  { unfold conv_terms, conv_roundings. rewrite app_length, map_length, prod_len by auto. now destruct (bc_bias M). }
  rewrite EL in *. replace (fpow (fadd f1 e) (conv_roundings M)) with (fmul (fadd f1 e) (fpow (fadd f1 e) (conv_roundings M - 1))); [exact E|].
  destruct (conv_roundings M); [lia|]. cbn [fpow Nat.sub]. now rewrite Nat.sub_0_r.
Qed.

Section P.
Variables (pre : list Z) (C m n : Z) (M : bayer_conv F) (x : T) (s sa : string) (e : F).
Hypothesis Hpre : nonneg pre.
Hypothesis Hm : 1 <= m.
Hypothesis Hn : 1 <= n.
Hypothesis Hs : shp x = pre ++ [C; 2 * m; 2 * n].
Hypothesis Hin : bc_in M = C.
Hypothesis HC : 0 <= C.
Hypothesis Hout : 0 <= bc_out M.
Hypothesis Lpre : (length pre <= 1)%nat.
Hypothesis Hk : 1 <= bc_k M.
Hypothesis Hkm : bc_k M / 2 < 2 * m.
Hypothesis Hkn : bc_k M / 2 < 2 * n.
Hypothesis Hsa : In sa patterns.
Hypothesis Hv : case_variant s sa.
Hypothesis He : fle f0 e.

Definition close (q : pos) (p : list Z) (o i j : Z) (v : F) : Prop :=
  fle (fabs (fsub v (conv_at F M x (2 * m) (2 * n) q p o i j)))
      (fmul (fsub (fpow (fadd f1 e) (conv_roundings M)) f1) (abs_conv_at M x (2 * m) (2 * n) q p o i j)).

Lemma branch_err q r c xp v : r = 0 \/ r = 1 -> c = 0 \/ c = 1 -> bayer_pad (bc_k M) r c x = Ok xp ->
  fl_conv2d e (bc_in M) (bc_out M) (bc_k M) 2 (bc_w M q) (match bc_bias M with None => None | Some b => Some (b q) end) xp v ->
  shp v = pre ++ [bc_out M; m; n] /\
  forall p o i j, valid pre p -> 0 <= o < bc_out M -> 0 <= i < m -> 0 <= j < n -> close q p o (2 * i + r) (2 * j + c) (at_ v (p ++ [o; i; j])).
Proof using Hpre Hm Hn Hs Hin HC Hout Lpre Hk Hkm Hkn He.
  intros Hr Hc Ep (y0 & E0 & Sv & Vv).
  destruct (bayer_branch_spec pre C m n (bc_k M) r c x Hs Hr Hc M eq_refl Hin Hk q Lpre Hkm Hkn Hm Hn) as (v0 & B0 & S0 & _).
  unfold bayer_branch in B0. rewrite Ep in B0. cbn [bind] in B0. rewrite E0 in B0. injection B0 as <-. rewrite S0 in Sv.
  split; auto. intros p o i j Vp Ho Hi Hj. assert (Lp := valid_length _ _ Vp).
  assert (V : valid (shp v) (p ++ [o; i; j])) by (rewrite Sv; apply valid_app; auto; apply valid3_i; auto).
  specialize (Vv _ V). destruct Vv as (t & T1 & T2 & T3).
  destruct (bayer_pad_spec pre C m n (bc_k M) r c x Hs Hr Hc Lpre Hkm Hkn Hk Hm Hn) as (xp' & Ep' & Sp & Vx). rewrite Ep in Ep'. injection Ep' as <-.
  assert (N := ndim3 xp _ _ _ _ Sp).
  rewrite (l3_nth1 p), (l3_nth2 p), (l3_nth3 p) in T1 by lia. rewrite (l3_nth3 p) in T2 by lia.
  unfold close. rewrite conv_at_window. unfold window_sum, abs_conv_at.
  apply (terms_err e M q o (fun ch a b => at_ x (p ++ [ch; reflect (2 * m) (2 * i + r + a - bc_k M / 2); reflect (2 * n) (2 * j + c + b - bc_k M / 2)])) t); auto; try lia.
  intros ch a b Hch Ha Hb. specialize (T1 ch a b Hch Ha Hb).
  rewrite (l3_upd1 p), (l3_upd2 p), (l3_upd3 p) in T1 by lia. rewrite Vx in T1 by auto.
  pose proof (half_range (bc_k M) Hk m Hm Hkm i a Hi Ha r Hr). pose proof (half_range (bc_k M) Hk n Hn Hkn j b Hj Hb c Hc).
  rewrite !refl1_reflect in T1 by lia.
  replace (2 * i + r + a - bc_k M / 2) with (i * 2 + a + r - bc_k M / 2) by ring.
  replace (2 * j + c + b - bc_k M / 2) with (j * 2 + b + c - bc_k M / 2) by ring. exact T1.
Qed.

Lemma branches_err f : (forall p : pos, (fst (f p) = 0 \/ fst (f p) = 1) /\ (snd (f p) = 0 \/ snd (f p) = 1)) ->
  (forall p q, f p = f q -> p = q) -> forall l y z, NoDup l -> shp y = pre ++ [bc_out M; 2 * m; 2 * n] -> fl_branches e M f x y l z ->
  shp z = pre ++ [bc_out M; 2 * m; 2 * n] /\
  forall p o i j q, valid pre p -> 0 <= o < bc_out M -> 0 <= i < 2 * m -> 0 <= j < 2 * n -> f q = (i mod 2, j mod 2) ->
    if in_dec pos_dec q l then close q p o i j (at_ z (p ++ [o; i; j])) else at_ z (p ++ [o; i; j]) = at_ y (p ++ [o; i; j]).
Proof using Hpre Hm Hn Hs Hin HC Hout Lpre Hk Hkm Hkn He.
  intros Hf1 Hf5. induction l as [|a l IH]; intros y z ND Sy H; cbn [fl_branches] in H.
  - subst z. split; auto. intros. destruct (in_dec pos_dec q []) as [[]|]; auto.
  - destruct H as (xp & v & y1 & Ep & Ec & Es & H). apply NoDup_cons_iff in ND as [Na ND']. destruct (Hf1 a) as [Ra Ca].
    destruct (branch_err a _ _ xp v Ra Ca Ep Ec) as [Sv Vv].
    destruct (set_phase pre (bc_out M) m n Hpre Hout ltac:(lia) ltac:(lia) y v _ _ Sy Ra Ca Sv) as (y1' & Es' & Sy1 & W). rewrite Es in Es'. injection Es' as <-.
    destruct (IH y1 z ND' Sy1 H) as [Sz Vz]. split; auto. intros p o i j q Vp Ho Hi Hj Hq.
    specialize (Vz p o i j q Vp Ho Hi Hj Hq). specialize (W p o i j Vp Ho Hi Hj).
    destruct (div2 m i Hi) as [Di Ei]. destruct (div2 n j Hj) as [Dj Ej].
    destruct (in_dec pos_dec q l) as [Iq|Nq].
    + destruct (in_dec pos_dec q (a :: l)) as [|N]; auto. exfalso. apply N. now right.
    + rewrite Vz, W. destruct (in_dec pos_dec q (a :: l)) as [[->|I]|N]; [|now contradiction Nq|].
      * rewrite Hq in *. cbn [fst snd] in *. rewrite !Z.eqb_refl. cbn [andb]. rewrite Ei, Ej at 1. apply Vv; auto.
      * destruct (Z.eqb_spec (i mod 2) (fst (f a))) as [E1|]; auto. destruct (Z.eqb_spec (j mod 2) (snd (f a))) as [E2|]; auto.
        exfalso. apply N. left. apply Hf5. rewrite Hq. destruct (f a); cbn in *; congruence.
Qed.
Lemma bayer_err junk y' : fl_bayer_forward e junk M x s y' ->
  shp y' = pre ++ [bc_out M; 2 * m; 2 * n] /\
  forall p o i j q, valid pre p -> 0 <= o < bc_out M -> 0 <= i < 2 * m -> 0 <= j < 2 * n -> in_class sa i j q ->
    close q p o i j (at_ y' (p ++ [o; i; j])).
Proof using Hpre Hm Hn Hs Hin HC Hout Lpre Hk Hkm Hkn Hsa Hv He.
  intros (sa' & f & E1 & E2 & H). rewrite (check_sensor_alignment_ok s sa Hsa Hv) in E1. injection E1 as <-.
  destruct (beg_index_spec sa Hsa) as (f' & Ef & Hf1 & _ & _ & _ & Hf5 & _). rewrite E2 in Ef. injection Ef as <-.
  apply branches_err in H; auto.
  - destruct H as [Sz Vz]. split; auto. intros p o i j q Vp Ho Hi Hj Hq. apply (in_class_beg sa f) in Hq; auto.
    specialize (Vz p o i j q Vp Ho Hi Hj Hq). destruct (in_dec pos_dec q relative_positions) as [|N]; auto.
    exfalso. apply N. destruct q; cbn; auto.
  - unfold relative_positions. repeat constructor; cbn; intuition discriminate.
  - cbn [shp tempty]. now rewrite Hs, butlast3, lastn2.
Qed.
End P.

Theorem bayer_rounding pre C m n (M : bayer_conv F) x s sa e junk junk' y' :
  nonneg pre -> 0 <= m -> 0 <= n -> shp x = pre ++ [C; 2 * m; 2 * n] -> 0 <= C -> 1 <= bc_k M -> 0 <= bc_out M ->
  In sa patterns -> case_variant s sa -> fle f0 e ->
  bc_in M = C /\ (length pre <= 1)%nat /\ bc_k M / 2 < 2 * m /\ bc_k M / 2 < 2 * n /\ 1 <= m /\ 1 <= n ->
  fl_bayer_forward e junk' M x s y' ->
  exists y, bayer_forward junk M x s = Ok y /\ shp y' = shp y /\
    forall p o i j q, valid pre p -> 0 <= o < bc_out M -> 0 <= i < 2 * m -> 0 <= j < 2 * n -> in_class sa i j q ->
      fle (fabs (fsub (at_ y' (p ++ [o; i; j])) (at_ y (p ++ [o; i; j]))))
          (fmul (fsub (fpow (fadd f1 e) (conv_roundings M)) f1) (abs_conv_at M x (2 * m) (2 * n) q p o i j)).
Proof.
  intros Hpre Hm Hn Hs HC Hk Ho Hsa Hv He D H.
  destruct (proj2 (bayer_conv_defined F pre C m n M x s sa junk Hpre Hm Hn Hs Hk Ho Hsa Hv) D) as [y Ey].
  destruct (bayer_conv_values F pre C m n M x s sa junk y) as [Sy Vy]; auto. destruct D as (D1 & D2 & D3 & D4 & D5 & D6).
  destruct (bayer_err pre C m n M x s sa e) with (junk := junk') (y' := y') as [Sy' Vy']; auto.
  exists y. split; auto. split; [congruence|]. intros p o i j q Vp Hoo Hi Hj Hq. rewrite (Vy p o i j q) by auto. now apply Vy'.
Qed.

(** Clamping does not enlarge differences. *)
Lemma clamp_close (hi u v : F) : fle f0 hi -> fle (fabs (fsub (fclamp f0 hi u) (fclamp f0 hi v))) (fabs (fsub u v)).
Proof.
  intros Hh. assert (K : forall u v : F, fle v u -> fle (fabs (fsub (fclamp f0 hi u) (fclamp f0 hi v))) (fabs (fsub u v))).
  { clear u v. intros u v L. rewrite (fabs_pos F (fsub u v)) by now apply fle_sub1.
    assert (A : fle f0 (fsub (fclamp f0 hi u) (fclamp f0 hi v)) /\ fle (fsub (fclamp f0 hi u) (fclamp f0 hi v)) (fsub u v)); [|now rewrite fabs_pos by tauto].
    unfold fclamp. destruct (fleb f0 u) eqn:U0, (fleb f0 v) eqn:V0.
    - destruct (fleb u hi) eqn:U1, (fleb v hi) eqn:V1.
      + split; [now apply fle_sub1|apply fle_refl].
      + exfalso. assert (X : fle v hi) by (eapply fle_trans; eauto). unfold fle in X. congruence.
      + split; [now apply fle_sub1|]. apply (sub_le F hi u); [|ring]. now apply flt_fle.
      + replace (fsub hi hi) with (@f0 F) by ring. split; [apply fle_refl|now apply fle_sub1].
    - rewrite Hh. assert (V : fle v f0) by now apply flt_fle. destruct (fleb u hi) eqn:U1.
      + replace (fsub u f0) with u by ring. split; auto. apply (sub_le F v f0); auto. ring.
      + replace (fsub hi f0) with hi by ring. split; auto. apply (fle_trans F _ u); [now apply flt_fle|]. apply (sub_le F v f0); auto. ring.
    - exfalso. assert (X : fle f0 u) by (eapply fle_trans; eauto). unfold fle in X. congruence.
    - rewrite Hh. replace (fsub f0 f0) with (@f0 F) by ring. split; [apply fle_refl|now apply fle_sub1]. }
  destruct (fle_total F u v) as [L|L]; auto.
  rewrite (fabs_sub_comm F (fclamp f0 hi u)), (fabs_sub_comm F u). auto.
Qed.

Theorem demosaic_rounding pre m n (M : bayer_conv F) x s sa cl e j1 j2 j1' j2' z' :
  nonneg pre -> 0 <= m -> 0 <= n -> shp x = pre ++ [1; 2 * m; 2 * n] -> bc_in M = 1 -> bc_out M = 2 -> 1 <= bc_k M ->
  In sa patterns -> case_variant s sa -> fle f0 cl -> fle f0 e ->
  (length pre <= 1)%nat /\ bc_k M / 2 < 2 * m /\ bc_k M / 2 < 2 * n /\ 1 <= m /\ 1 <= n ->
  fl_demosaic_with e M j1' j2' x s cl z' ->
  exists z, demosaic_with M j1 j2 x s cl = Ok z /\ shp z' = shp z /\
    forall p c i j q, valid pre p -> 0 <= c < 3 -> 0 <= i < 2 * m -> 0 <= j < 2 * n -> in_class sa i j q ->
      (names sa i j c -> at_ z' (p ++ [c; i; j]) = at_ z (p ++ [c; i; j])) /\
      (~ names sa i j c -> fle (fabs (fsub (at_ z' (p ++ [c; i; j])) (at_ z (p ++ [c; i; j]))))
          (fmul (fsub (fpow (fadd f1 e) (conv_roundings M)) f1)
                (abs_conv_at M x (2 * m) (2 * n) q p (if c <? pos_color q then c else c - 1) i j))).
Proof.
  intros Hpre Hm Hn Hs Hin Hout Hk Hsa Hv Hcl He D (y' & r & H1 & H2 & ->).
  destruct (proj2 (demosaic_defined F pre m n M x s sa cl j1 j2 Hpre Hm Hn Hs Hin Hout Hk Hsa Hv) D) as [z Ez].
  destruct (demosaic_keeps F pre m n M x s sa cl j1 j2 (fun _ => f0) z) as (Sz & _ & Vz); auto.
  destruct D as (D2 & D3 & D4 & D5 & D6).
  destruct (bayer_err pre 1 m n M x s sa e) with (junk := j1') (y' := y') as [Sy' Vy']; auto; try lia.
  rewrite Hout in Sy'. destruct (last_step_spec pre m n Hpre Hm Hn s sa Hsa Hv j2' x y' 2 ltac:(lia) Hs Sy') as (r' & Er & Sr & Vr).
  rewrite H2 in Er. injection Er as <-.
  exists z. split; auto. split; [cbn [tmap shp]; congruence|]. intros p c i j q Vp Hc Hi Hj Hq.
  destruct (Vz p c i j q Vp Hc Hi Hj Hq) as [V1 V2]. cbn [tmap at_]. rewrite Vr by auto. cbv zeta.
  destruct (beg_index_spec sa Hsa) as (f & Ef & _).
  assert (Hq' : f q = (i mod 2, j mod 2)) by now apply (in_class_beg sa f).
  pose proof (pos_color_chan sa Hsa f Ef q) as PC. rewrite Hq' in PC. cbn [fst snd] in PC.
  pose proof (names_chan sa i j c Hsa) as NC. split; intros Nm.
  - rewrite V1 by auto. apply NC in Nm. now rewrite Nm, Z.eqb_refl.
  - rewrite V2 by auto. rewrite (proj2 (Z.eqb_neq c _)) by (intros E; apply Nm, NC; auto). rewrite <- PC.
    eapply fle_trans; [now apply clamp_close|]. apply Vy'; auto. rewrite Hout.
    apply other_wanted; auto. intros E. apply Nm, NC. congruence.
Qed.

(** *** the gradient-corrected kernels *)
Lemma q8_abs z : fabs (q8 z : F) = q8 (Z.abs z).
Proof.
  assert (N : (fofZ 16 : F) <> f0) by (apply fofZ_neq0; lia). assert (P : flt f0 (fofZ 16 : F)) by (apply fofZ_pos; lia).
  unfold q8. destruct (Z.le_gt_cases 0 z) as [H|H].
  - rewrite Z.abs_eq by auto. apply fabs_pos. apply fdiv_nonneg; auto. now apply fofZ_nonneg.
  - rewrite Z.abs_neq by lia. replace (fdiv (fofZ z) (fofZ 16) : F) with (fopp (fdiv (fofZ (- z)) (fofZ 16) : F)) by (rewrite fofZ_opp; field; auto).
    rewrite fabs_opp. apply fabs_pos. apply fdiv_nonneg; auto. apply fofZ_nonneg. lia.
Qed.
Lemma kernel_abs w l : is_kernel F w l -> zsum 5 (fun a => zsum 5 (fun b => Z.abs (kz l a b))) <= 40 ->
  fle (fsum 5 (fun a => fsum 5 (fun b => fabs (mat_at w a b)))) (fdiv (fofZ 5) (fofZ 2)).
Proof.
  intros K H. assert (N : (fofZ 16 : F) <> f0) by (apply fofZ_neq0; lia). assert (N2 : (fofZ 2 : F) <> f0) by (apply fofZ_neq0; lia).
  assert (E : fsum 5 (fun a => fsum 5 (fun b => fabs (mat_at w a b))) = fdiv (fofZ (zsum 5 (fun a => zsum 5 (fun b => Z.abs (kz l a b))))) (fofZ 16) :> F).
  { rewrite <- fsum2_ofZ. transitivity (fsum 5 (fun a => fmul (finv (fofZ 16)) (fsum 5 (fun b => fofZ (Z.abs (kz l a b)) : F)))).
    - apply fsum_ext. intros a Ha. rewrite <- fsum_mul. apply fsum_ext. intros b Hb. rewrite (K a b Ha Hb), q8_abs. unfold q8. field; auto.
    - rewrite fsum_mul. field; auto. }
  rewrite E. replace (fdiv (fofZ 5) (fofZ 2) : F) with (fdiv (fofZ 40) (fofZ 16) : F).
  - apply fdiv_le; [apply fofZ_pos; lia|now apply fofZ_le].
  - change 40 with (8 * 5). change 16 with (8 * 2). rewrite !fofZ_mul. assert (N8 : (fofZ 8 : F) <> f0) by (apply fofZ_neq0; lia). field; auto.
Qed.
Lemma gradient_abs c q : fle (fsum 5 (fun a => fsum 5 (fun b => fabs (mat_at (wf_dict c q) a b) : F))) (fdiv (fofZ 5) (fofZ 2)).
Proof.
  destruct (kernels F) as (K0 & K1 & K2 & K3).
  destruct q; cbn [wf_dict]; destruct (c =? _); eapply kernel_abs; eauto; vm_compute; discriminate.
Qed.
Lemma gradient_abs_at (x : T) pre m n B q p o i j : 1 <= m -> 1 <= n -> valid pre p -> shp x = pre ++ [1; 2 * m; 2 * n] -> bounded B x ->
  fle (abs_conv_at gradient_corrected_interpolator x (2 * m) (2 * n) q p o i j) (fmul (fdiv (fofZ 5) (fofZ 2)) B).
Proof.
  intros Hm Hn Vp Sx HB. unfold abs_conv_at, bias_at. cbn [gradient_corrected_interpolator interpolator bc_in bc_k bc_w bc_bias].
  rewrite fabs_zero, fsum_1. match goal with |- fle (fadd ?u f0) _ => replace (fadd u f0) with u by ring end.
  assert (B0 : fle f0 B).
  { assert (V : valid (shp x) (p ++ [0; 0; 0])) by (rewrite Sx; apply valid_app; auto; apply valid3_i; lia). eapply fle_trans; [apply fabs_nonneg|exact (HB _ V)]. }
  set (c := if o =? 0 then _ else _). apply (fle_trans F _ (fmul B (fsum 5 (fun a => fsum 5 (fun b => fabs (mat_at (wf_dict c q) a b)))))).
  - rewrite <- fsum_mul. apply fsum_le. intros a Ha. rewrite <- fsum_mul. apply fsum_le. intros b Hb.
    replace (fmul B (fabs (mat_at (wf_dict c q) a b))) with (fmul (fabs (mat_at (wf_dict c q) a b)) B) by ring. apply fmul_le_l; [apply fabs_nonneg|].
    apply HB. rewrite Sx. apply valid_app; auto. apply valid3_i; [lia|apply reflect_in; lia|apply reflect_in; lia].
  - replace (fmul (fdiv (fofZ 5) (fofZ 2)) B) with (fmul B (fdiv (fofZ 5) (fofZ 2))) by ring. apply fmul_le_l; auto. apply gradient_abs.
Qed.
Theorem gradient_rounding pre m n (x : T) s sa (cl e B : F) j1 j2 j1' j2' (z' : T) :
  nonneg pre -> (length pre <= 1)%nat -> 2 <= m -> 2 <= n -> shp x = pre ++ [1; 2 * m; 2 * n] -> bounded B x ->
  In sa patterns -> case_variant s sa -> fle f0 cl -> fle f0 e ->
  fl_demosaic_with e gradient_corrected_interpolator j1' j2' x s cl z' ->
  exists z, demosaic j1 j2 x s cl = Ok z /\
    within (fmul (fsub (fpow (fadd f1 e) 25) f1) (fmul (fdiv (fofZ 5) (fofZ 2)) B)) z' z /\
    forall p c i j, valid pre p -> 0 <= c < 3 -> 0 <= i < 2 * m -> 0 <= j < 2 * n -> names sa i j c ->
      at_ z' (p ++ [c; i; j]) = at_ z (p ++ [c; i; j]).
Proof.
  intros Hpre Lpre Hm Hn Sx HB Hsa Hv Hcl He H.
  assert (K2 : 5 / 2 = 2) by reflexivity.
  assert (D : (length pre <= 1)%nat /\ bc_k (gradient_corrected_interpolator (F := F)) / 2 < 2 * m /\
              bc_k (gradient_corrected_interpolator (F := F)) / 2 < 2 * n /\ 1 <= m /\ 1 <= n).
  { change (bc_k gradient_corrected_interpolator / 2) with 2. lia. }
  destruct (demosaic_rounding pre m n gradient_corrected_interpolator x s sa cl e j1 j2 j1' j2' z') as (z & Ez & Sz & Vz);
    auto; try lia; try reflexivity; [cbn; lia|].
  destruct (demosaic_keeps F pre m n gradient_corrected_interpolator x s sa cl j1 j2 (fun _ => f0) z) as (Sz2 & _ & _);
    auto; try lia; try reflexivity; [cbn; lia|].
  assert (P1 : fle f0 (fsub (fpow (fadd f1 e) 25) f1)) by (apply fle_sub1; now apply pow_ge1).
  exists z. split; auto. split.
  - split; auto. intros ix Vix. rewrite Sz2 in Vix. apply valid_app_inv in Vix as (p & r & -> & Vp & Vr). apply valid3 in Vr as (c & i & j & -> & Hc & Hi & Hj).
    destruct (in_class_total sa i j Hsa) as (q & Hq & _). destruct (Vz p c i j q Vp Hc Hi Hj Hq) as [V1 V2].
    assert (D0 : names sa i j c \/ ~ names sa i j c).
    { rewrite names_chan by auto. destruct (Z.eq_dec (chan sa (2 * (i mod 2) + j mod 2)) c); auto. }
    destruct D0 as [D0|D0].
    + rewrite V1 by auto. replace (fsub _ _) with (@f0 F) by ring. rewrite fabs_zero. apply fmul_nonneg; auto.
      eapply fle_trans; [|apply (gradient_abs_at x pre m n B q p 0 i j); auto; lia]. unfold abs_conv_at.
      apply (fle_trans F _ (fadd f0 f0)); [replace (fadd f0 f0) with (@f0 F) by ring; apply fle_refl|]. apply fle_add; [|apply fabs_nonneg].
      repeat (apply fsum_nonneg; intros ? _). apply fmul_nonneg; apply fabs_nonneg.
    + eapply fle_trans; [now apply V2|]. apply fmul_le_l; auto. apply (gradient_abs_at x pre); auto; lia.
  - intros p c i j Vp Hc Hi Hj Nm. destruct (in_class_total sa i j Hsa) as (q & Hq & _). destruct (Vz p c i j q Vp Hc Hi Hj Hq) as [V1 _]. auto.
Qed.

(** *** attainable results: rounding the weights, in particular exact arithmetic *)
Definition rounded_net (e : F) (M M' : bayer_conv F) : Prop :=
  bc_in M' = bc_in M /\ bc_out M' = bc_out M /\ bc_k M' = bc_k M /\ bc_bias M' = bc_bias M /\
  forall q o c a b, rounds e (bc_w M q o c a b) (bc_w M' q o c a b).
Lemma rounded_net_refl e M : fle f0 e -> rounded_net e M M.
Proof. intros He. repeat (split; auto). intros. now apply rounds_refl. Qed.
Lemma conv_exact e (M M' : bayer_conv F) q (x y : T) : fle f0 e -> 1 <= bc_in M -> 1 <= bc_k M -> rounded_net e M M' ->
  conv2d (bc_in M') (bc_out M') (bc_k M') 2 (bc_w M' q) (match bc_bias M' with None => None | Some b => Some (b q) end) x = Ok y ->
  fl_conv2d e (bc_in M) (bc_out M) (bc_k M) 2 (bc_w M q) (match bc_bias M with None => None | Some b => Some (b q) end) x y.
Proof.
  intros He Hc Hk (E1 & E2 & E3 & E4 & R) E. rewrite E1, E2, E3, E4 in E. unfold conv2d in E. destruct (_ && _) eqn:Eb in E; [|discriminate].
  eexists. unfold conv2d. rewrite Eb. split; [reflexivity|]. injection E as <-.
  split; [reflexivity|]. intros i Vi. cbn [at_]. unfold fl_conv_at. cbv zeta. set (nd := ndim x). set (o := nth (nd - 3) i 0).
  set (g := fun c a b => at_ x (upd (nd - 3) c (upd (nd - 2) (nth (nd - 2) i 0 * 2 + a) (upd (nd - 1) (nth (nd - 1) i 0 * 2 + b) i)))).
  exists (fun t => match t with None => bias_at F M q o | Some (c, a, b) => fmul (bc_w M' q o c a b) (g c a b) end).
  split; [|split].
  - intros c a b _ _ _. fold (g c a b). unfold rounds. specialize (R q o c a b). unfold rounds in R.
    replace (fsub (fmul (bc_w M' q o c a b) (g c a b)) (fmul (bc_w M q o c a b) (g c a b))) with
      (fmul (g c a b) (fsub (bc_w M' q o c a b) (bc_w M q o c a b))) by ring.
    rewrite !fabs_mul. replace (fmul e (fmul (fabs (bc_w M q o c a b)) (fabs (g c a b)))) with (fmul (fabs (g c a b)) (fmul e (fabs (bc_w M q o c a b)))) by ring.
    apply fmul_le_l; auto. apply fabs_nonneg.
  - unfold bias_at. intros bs. destruct (bc_bias M) as [b|]; [|discriminate]. intros Ebs. now injection Ebs as <-.
  - match goal with |- fl_sum _ ?p ?l ?v => assert (Ev : v = lsum (map p l)) end.
    { change (@lsum F) with (@wsum F). rewrite (terms_sum M q (fun c a b => fmul (bc_w M' q o c a b) (g c a b))).
      unfold bias_at. destruct (bc_bias M); [reflexivity|]. unfold g. match goal with |- ?u = fadd ?v f0 => replace (fadd v f0) with v by ring end. reflexivity. }
    rewrite Ev. assert (L : conv_terms (bc_in M) (bc_k M) match bc_bias M with None => None | Some b => Some (b q) end <> []).
    { intros L. apply (f_equal (@length _)) in L. unfold conv_terms in L. rewrite app_length, map_length, prod_len in L by lia. cbn in L. nia. }
    destruct (conv_terms _ _ _) as [|t l]; [now contradiction L|]. now apply list_sum_exact.
Qed.
Definition attains (e : F) (M M' : bayer_conv F) : Prop := forall q x y,
  conv2d (bc_in M') (bc_out M') (bc_k M') 2 (bc_w M' q) (match bc_bias M' with None => None | Some b => Some (b q) end) x = Ok y ->
  fl_conv2d e (bc_in M) (bc_out M) (bc_k M) 2 (bc_w M q) (match bc_bias M with None => None | Some b => Some (b q) end) x y.
Lemma attains_lift e junk (M M' : bayer_conv F) x s y : bc_out M' = bc_out M -> bc_k M' = bc_k M -> attains e M M' ->
  bayer_forward junk M' x s = Ok y -> fl_bayer_forward e junk M x s y.
Proof.
  intros E2 E3 A. unfold bayer_forward, fl_bayer_forward. destruct (check_sensor_alignment s) as [sa'|]; [|discriminate]. cbn [bind].
  destruct (get_sensor_beg_index sa') as [f|] eqn:Ef; [|discriminate]. cbn [bind]. rewrite E2. intros H. exists sa', f. split; auto. split; auto.
  revert H. generalize (tempty (butlast 3 (shp x) ++ [bc_out M] ++ lastn 2 (shp x)) junk). generalize relative_positions.
  induction l as [|q l IH]; intros y0 H; cbn [foldM fl_branches] in *.
  - now injection H.
  - destruct (f q) as [r c] eqn:Eq. cbn [fst snd]. unfold bayer_branch in H at 1. destruct (bayer_pad (bc_k M') r c x) as [xp|] eqn:Ep; [|discriminate]. cbn [bind] in H.
    destruct (conv2d _ _ _ _ _ _ xp) as [v|] eqn:Ec; [|discriminate]. cbn [bind] in H.
    destruct (tsetx y0 _ v) as [y1|] eqn:Es; [|discriminate]. cbn [bind] in H.
    exists xp, v, y1. split; [now rewrite <- E3|]. split; [now apply A|]. split; auto.
Qed.
Theorem bayer_attained e junk (M M' : bayer_conv F) x s y : fle f0 e -> 1 <= bc_in M -> 1 <= bc_k M -> rounded_net e M M' ->
  bayer_forward junk M' x s = Ok y -> fl_bayer_forward e junk M x s y.
Proof.
  intros He Hc Hk R. pose proof R as (_ & E2 & E3 & _). apply attains_lift; auto. intros q u v. now apply conv_exact.
Qed.

(** *** the last addition rounded *)
Lemma list_sum_scaled {A} e c (p : A -> F) o b l : fle f0 e -> fle (fabs (fsub c f1)) e ->
  fl_sum e p (o :: b :: l) (fmul c (lsum (map p (o :: b :: l)))).
Proof.
  intros He Hc. apply (fl_add e p [o] (b :: l) _ (p o) (lsum (map p (b :: l)))); [constructor|now apply list_sum_exact|reflexivity|].
  change (lsum (map p (o :: b :: l))) with (fadd (p o) (lsum (map p (b :: l)))). set (u := fadd (p o) (lsum (map p (b :: l)))). unfold rounds.
  replace (fsub (fmul c u) u) with (fmul u (fsub c f1)) by ring. rewrite fabs_mul.
  replace (fmul e (fabs u)) with (fmul (fabs u) e) by ring. apply fmul_le_l; auto. apply fabs_nonneg.
Qed.
Definition scaled_net (c : F) (M M' : bayer_conv F) : Prop :=
  bc_in M' = bc_in M /\ bc_out M' = bc_out M /\ bc_k M' = bc_k M /\
  bc_bias M' = match bc_bias M with None => None | Some b => Some (fun q o => fmul c (b q o)) end /\
  forall q o ch a b, bc_w M' q o ch a b = fmul c (bc_w M q o ch a b).
Theorem bayer_scaled e c junk (M M' : bayer_conv F) x s y : fle f0 e -> fle (fabs (fsub c f1)) e ->
  1 <= bc_in M -> 1 <= bc_k M -> bc_bias M <> None -> scaled_net c M M' ->
  bayer_forward junk M' x s = Ok y -> fl_bayer_forward e junk M x s y.
Proof.
  intros He Hce Hc Hk Hb (E1 & E2 & E3 & E4 & R). apply attains_lift; auto. clear x y. intros q x y E.
  rewrite E1, E2, E3, E4 in E. unfold conv2d in E. destruct (_ && _) eqn:Eb in E; [|discriminate].
  eexists. unfold conv2d. rewrite Eb. split; [reflexivity|]. injection E as <-.
  split; [reflexivity|]. intros i Vi. cbn [at_]. unfold fl_conv_at. cbv zeta. set (nd := ndim x). set (o := nth (nd - 3) i 0).
  set (g := fun c a b => at_ x (upd (nd - 3) c (upd (nd - 2) (nth (nd - 2) i 0 * 2 + a) (upd (nd - 1) (nth (nd - 1) i 0 * 2 + b) i)))).
  exists (fun t => match t with None => bias_at F M q o | Some (c, a, b) => fmul (bc_w M q o c a b) (g c a b) end).
  split; [|split].
  - intros ch a b _ _ _. now apply rounds_refl.
  - unfold bias_at. intros bs. destruct (bc_bias M) as [b|]; [|discriminate]. intros Ebs. now injection Ebs as <-.
  - match goal with |- fl_sum _ ?p ?l ?v => assert (Ev : v = fmul c (lsum (map p l))) end.
    { change (@lsum F) with (@wsum F). rewrite (terms_sum M q (fun c a b => fmul (bc_w M q o c a b) (g c a b))).
      unfold bias_at. destruct (bc_bias M); [|contradiction].
      match goal with |- fadd ?u (fmul c ?b) = fmul c (fadd ?w ?b') => assert (Eu : u = fmul c w) end.
      { rewrite <- fsum_mul. apply fsum_ext. intros ch _. rewrite <- fsum_mul. apply fsum_ext. intros a _. rewrite <- fsum_mul. apply fsum_ext. intros b _.
        rewrite R. unfold g. ring. }
      rewrite Eu. ring. }
    rewrite Ev. assert (L : (2 <= length (conv_terms (bc_in M) (bc_k M) match bc_bias M with None => None | Some b => Some (b q) end))%nat).
    { unfold conv_terms. rewrite app_length, map_length, prod_len by lia. destruct (bc_bias M); [|contradiction]. cbn. nia. }
    destruct (conv_terms _ _ _) as [|t [|t' l]]; [cbn in L; lia|cbn in L; lia|]. now apply list_sum_scaled.
Qed.
Theorem demosaic_attained e j1 j2 (M M' : bayer_conv F) x s cl z : fle f0 e -> 1 <= bc_in M -> 1 <= bc_k M -> rounded_net e M M' ->
  demosaic_with M' j1 j2 x s cl = Ok z -> fl_demosaic_with e M j1 j2 x s cl z.
Proof.
  intros He Hc Hk R. unfold demosaic_with, fl_demosaic_with. destruct (bayer_forward j1 M' x s) as [y|] eqn:Ey; [|discriminate]. cbn [bind].
  destruct (last_step_demosaic j2 x y s) as [r|] eqn:Er; [|discriminate]. cbn [bind]. intros H. injection H as <-.
  exists y, r. split; [now apply (bayer_attained e j1 M M')|]. auto.
Qed.
End B.
