(** Facts about basic indexing, concatenation and stacking on tensors of shape pre ++ s. *)
From Verif Require Export BaseLemmas TensorLemmas FieldLemmas CfaModel.
Open Scope Z_scope.

Definition nonneg (s : list Z) : Prop := Forall (fun n => 0 <= n) s.

Lemma valid_app s t i j : valid s i -> valid t j -> valid (s ++ t) (i ++ j).
Proof. apply Forall2_app. Qed.
Lemma valid_app_inv s t i : valid (s ++ t) i -> exists p q, i = p ++ q /\ valid s p /\ valid t q.
Proof.
  intros H. apply Forall2_app_inv_l in H as (p & q & Hp & Hq & ->). eauto.
Qed.
Lemma valid1 a i : valid [a] i -> exists k, i = [k] /\ 0 <= k < a.
Proof. intros H. inv H. inv H4. eauto. Qed.
Lemma valid2 a b i : valid [a; b] i -> exists k l, i = [k; l] /\ 0 <= k < a /\ 0 <= l < b.
Proof. intros H. inv H. apply valid1 in H4 as (l & -> & ?). eauto. Qed.
Lemma valid3 a b c i : valid [a; b; c] i -> exists k l m, i = [k; l; m] /\ 0 <= k < a /\ 0 <= l < b /\ 0 <= m < c.
Proof. intros H. inv H. apply valid2 in H4 as (l & m & -> & ?). eauto 6. Qed.
Lemma valid2_i a b k l : 0 <= k < a -> 0 <= l < b -> valid [a; b] [k; l].
Proof. intros. repeat constructor; lia. Qed.
Lemma valid3_i a b c k l m : 0 <= k < a -> 0 <= l < b -> 0 <= m < c -> valid [a; b; c] [k; l; m].
Proof. intros. repeat constructor; lia. Qed.

Definition fullR (pre : list Z) : list rix := map (fun n => RSl (mkR 0 n 1)) pre.

Lemma ell_app (pre s : list Z) (l : list ix) : length l = length s ->
  ell (length (pre ++ s)) l = repeat (ISl sfull) (length pre) ++ l.
Proof. intros H. unfold ell. rewrite app_length, H. f_equal. f_equal. lia. Qed.

Lemma resolve_all_full pre s l :
  nonneg pre ->
  resolve_all (pre ++ s) (repeat (ISl sfull) (length pre) ++ l)
  = (R <- resolve_all s l ;; Ok (fullR pre ++ R)).
Proof.
  induction 1; simpl.
  - now destruct (resolve_all s l).
  - rewrite IHForall, resolve_sfull by auto. now destruct (resolve_all s l).
Qed.
Lemma rlens_full pre R : rlens (fullR pre ++ R) = pre ++ rlens R.
Proof. induction pre; simpl; congruence. Qed.
Lemma rfill_full pre R p i : length p = length pre -> rfill (fullR pre ++ R) (p ++ i) = p ++ rfill R i.
Proof.
  revert p; induction pre; destruct p; simpl; intros; try discriminate; auto.
  unfold rpos at 1; simpl. f_equal; [lia|]. apply IHpre. lia.
Qed.
Lemma rtest_full pre R p j : valid pre p -> rtest (fullR pre ++ R) (p ++ j) = rtest R j.
Proof.
  induction 1; simpl; auto. rewrite IHForall2. unfold rinb; simpl.
  rewrite Z.mod_1_r. destruct (Z.leb_spec 0 y), (Z.ltb_spec y (x * 1)); simpl; auto; lia.
Qed.
Lemma rback_full pre R p j : valid pre p -> rback (fullR pre ++ R) (p ++ j) = p ++ rback R j.
Proof.
  induction 1; simpl; auto. unfold rrel at 1; simpl. rewrite Z.div_1_r, IHForall2. f_equal. lia.
Qed.

(** ** Reading and writing with an ellipsis in front *)
Lemma tgetx_ell {A} (x : tensor A) pre s l R :
  shp x = pre ++ s -> nonneg pre -> length l = length s -> resolve_all s l = Ok R ->
  exists y, tgetx x (ell (ndim x) l) = Ok y /\ shp y = pre ++ rlens R /\
    forall p i, length p = length pre -> at_ y (p ++ i) = at_ x (p ++ rfill R i).
Proof.
  intros Hs Hp Hl HR. unfold tgetx, ndim. rewrite Hs, ell_app, resolve_all_full, HR by auto. simpl.
  eexists; split; [reflexivity|]. simpl. rewrite rlens_full. split; auto.
  intros p i H. now rewrite rfill_full.
Qed.
Lemma tsetx_ell {A} (x v : tensor A) pre s l R :
  shp x = pre ++ s -> nonneg pre -> length l = length s -> resolve_all s l = Ok R ->
  shp v = pre ++ rlens R ->
  (forall j, valid s j -> rtest R j = true -> valid (rlens R) (rback R j)) ->
  exists y, tsetx x (ell (ndim x) l) v = Ok y /\ shp y = pre ++ s /\
    forall p j, valid pre p -> valid s j ->
      at_ y (p ++ j) = if rtest R j then at_ v (p ++ rback R j) else at_ x (p ++ j).
Proof.
  intros Hs Hp Hl HR Hv Hb. unfold tsetx, ndim. rewrite Hs, ell_app, resolve_all_full, HR by auto. simpl.
  rewrite rlens_full, Hv, expandable_refl. eexists; split; [reflexivity|]. simpl. split; auto.
  intros p j Vp Vj. rewrite rtest_full by auto. destruct (rtest R j) eqn:E; auto.
  rewrite rback_full by auto. rewrite bidx_same; auto. apply valid_app; auto.
Qed.

(** The slice r::2 of an even length. *)
Lemma resolve_step2 m r : 0 <= m -> r = 0 \/ r = 1 ->
  exists r', resolve (2 * m) (step2 r) = mkR r' m 2 /\ (0 < m -> r' = r).
Proof.
  intros Hm Hr. unfold resolve, step2, clampi; cbn [s_lo s_hi s_st].
  replace (r <? 0) with false by (symmetry; apply Z.ltb_ge; lia).
  exists (Z.max 0 (Z.min (2 * m) r)). split; [|lia]. f_equal.
  destruct (Z.eq_dec m 0) as [->|].
  - replace (Z.max 0 (Z.min (2 * 0) r)) with 0 by lia. reflexivity.
  - replace (Z.max 0 (Z.min (2 * m) r)) with r by lia.
    rewrite Z.max_r; [|apply Z.div_pos; lia].
    symmetry. apply Z.div_unique with (r := 1 - r); lia.
Qed.
Lemma rinb_step2 m r' r i : (0 < m -> r' = r) -> r = 0 \/ r = 1 -> 0 <= i < 2 * m ->
  rinb (mkR r' m 2) i = (i mod 2 =? r).
Proof.
  intros H Hr Hi. rewrite H by lia. unfold rinb; simpl.
  pose proof (Z.div_mod i 2). pose proof (Z.mod_pos_bound i 2).
  pose proof (Z.div_mod (i - r) 2). pose proof (Z.mod_pos_bound (i - r) 2).
  repeat zcase; simpl; auto; lia.
Qed.
Lemma rrel_step2 m r' r i : (0 < m -> r' = r) -> r = 0 \/ r = 1 -> 0 <= i < 2 * m -> i mod 2 = r ->
  rrel (mkR r' m 2) i = i / 2.
Proof.
  intros H Hr Hi E. rewrite H by lia. unfold rrel; simpl.
  pose proof (Z.div_mod i 2). symmetry. apply Z.div_unique with (r := 0); lia.
Qed.

Ltac listeq := repeat (first [reflexivity | apply (f_equal2 (@cons Z)) | apply f_equal | lia]).
Section Phase.
Context {A : Type}.
Variables (pre : list Z) (C m n : Z).
Hypothesis Hpre : nonneg pre.
Hypothesis HC : 0 <= C.
Hypothesis Hm : 0 <= m.
Hypothesis Hn : 0 <= n.

(** Entries allowed for the channel axis. *)
Lemma resolve_ilist1 k : 0 <= k < C -> resolve C (srng k (k + 1)) = mkR k 1 1.
Proof using Type. intros. rewrite resolve_srng by lia. f_equal. lia. Qed.

(** x[..., k, r::2, c::2] *)
Lemma get_int_phase (x : tensor A) k r c :
  shp x = pre ++ [C; 2 * m; 2 * n] -> 0 <= k < C -> r = 0 \/ r = 1 -> c = 0 \/ c = 1 ->
  exists y, tgetx x (ell (ndim x) [IInt k; ISl (step2 r); ISl (step2 c)]) = Ok y /\ shp y = pre ++ [m; n] /\
    forall p i j, valid pre p -> 0 <= i < m -> 0 <= j < n ->
      at_ y (p ++ [i; j]) = at_ x (p ++ [k; 2 * i + r; 2 * j + c]).
Proof using Hpre HC Hm Hn.
  intros Hs Hk Hr Hc.
  destruct (resolve_step2 m r Hm Hr) as (r' & Er & Er'). destruct (resolve_step2 n c Hn Hc) as (c' & Ec & Ec').
  destruct (tgetx_ell x pre [C; 2 * m; 2 * n] [IInt k; ISl (step2 r); ISl (step2 c)]
              [RInt k; RSl (mkR r' m 2); RSl (mkR c' n 2)] Hs Hpre eq_refl) as (y & E & S & V).
  { unfold resolve_all, resolve_ix. rewrite Er, Ec. replace (k <? 0) with false by (symmetry; apply Z.ltb_ge; lia).
    replace ((0 <=? k) && (k <? C)) with true; [reflexivity|]. symmetry. apply andb_true_iff; split; [apply Z.leb_le|apply Z.ltb_lt]; lia. }
  exists y. split; auto. split; auto. intros p i j Vp Hi Hj. rewrite V by now apply valid_length.
  cbn [rfill]. unfold rpos; cbn [r_lo r_st]. rewrite Er', Ec' by lia. listeq.
Qed.
(** x[..., r::2, c::2] *)
Lemma get_phase (x : tensor A) r c :
  shp x = pre ++ [C; 2 * m; 2 * n] -> r = 0 \/ r = 1 -> c = 0 \/ c = 1 ->
  exists y, tgetx x (ell (ndim x) [ISl (step2 r); ISl (step2 c)]) = Ok y /\ shp y = pre ++ [C; m; n] /\
    forall p k i j, valid pre p -> 0 <= k < C -> 0 <= i < m -> 0 <= j < n ->
      at_ y (p ++ [k; i; j]) = at_ x (p ++ [k; 2 * i + r; 2 * j + c]).
Proof using Hpre HC Hm Hn.
  intros Hs Hr Hc.
  destruct (resolve_step2 m r Hm Hr) as (r' & Er & Er'). destruct (resolve_step2 n c Hn Hc) as (c' & Ec & Ec').
  assert (Hs' : shp x = (pre ++ [C]) ++ [2 * m; 2 * n]) by now rewrite <- app_assoc.
  destruct (tgetx_ell x (pre ++ [C]) [2 * m; 2 * n] [ISl (step2 r); ISl (step2 c)]
              [RSl (mkR r' m 2); RSl (mkR c' n 2)] Hs') as (y & E & S & V); auto.
  { apply Forall_app; split; auto. }
  { unfold resolve_all, resolve_ix. now rewrite Er, Ec. }
  exists y. split; auto. split; [now rewrite S, <- app_assoc|]. intros p k i j Vp Hk Hi Hj.
  change [k; i; j] with ([k] ++ [i; j]). rewrite app_assoc, V.
  2:{ apply valid_length in Vp. rewrite !app_length; simpl; lia. }
  cbn [rfill]. unfold rpos; cbn [r_lo r_st]. rewrite Er', Ec' by lia. rewrite <- app_assoc. cbn [app]. listeq.
Qed.
(** x[..., [k], r::2, c::2] *)
Lemma get_one_phase (x : tensor A) k r c :
  shp x = pre ++ [C; 2 * m; 2 * n] -> 0 <= k < C -> r = 0 \/ r = 1 -> c = 0 \/ c = 1 ->
  exists y, tgetx x (ell (ndim x) [ilist1 k; ISl (step2 r); ISl (step2 c)]) = Ok y /\ shp y = pre ++ [1; m; n] /\
    forall p i j, valid pre p -> 0 <= i < m -> 0 <= j < n ->
      at_ y (p ++ [0; i; j]) = at_ x (p ++ [k; 2 * i + r; 2 * j + c]).
Proof using Hpre HC Hm Hn.
  intros Hs Hk Hr Hc.
  destruct (resolve_step2 m r Hm Hr) as (r' & Er & Er'). destruct (resolve_step2 n c Hn Hc) as (c' & Ec & Ec').
  destruct (tgetx_ell x pre [C; 2 * m; 2 * n] [ilist1 k; ISl (step2 r); ISl (step2 c)]
              [RSl (mkR k 1 1); RSl (mkR r' m 2); RSl (mkR c' n 2)] Hs Hpre eq_refl) as (y & E & S & V).
  { unfold resolve_all, resolve_ix, ilist1. now rewrite resolve_ilist1, Er, Ec. }
  exists y. split; auto. split; auto. intros p i j Vp Hi Hj. rewrite V by now apply valid_length.
  cbn [rfill]. unfold rpos; cbn [r_lo r_st]. rewrite Er', Ec' by lia. listeq.
Qed.
(** x[..., :, r::2, c::2] *)
Lemma get_all_phase (x : tensor A) r c :
  shp x = pre ++ [C; 2 * m; 2 * n] -> r = 0 \/ r = 1 -> c = 0 \/ c = 1 ->
  exists y, tgetx x (ell (ndim x) [ISl sfull; ISl (step2 r); ISl (step2 c)]) = Ok y /\ shp y = pre ++ [C; m; n] /\
    forall p k i j, valid pre p -> 0 <= k < C -> 0 <= i < m -> 0 <= j < n ->
      at_ y (p ++ [k; i; j]) = at_ x (p ++ [k; 2 * i + r; 2 * j + c]).
Proof using Hpre HC Hm Hn.
  intros Hs Hr Hc.
  destruct (resolve_step2 m r Hm Hr) as (r' & Er & Er'). destruct (resolve_step2 n c Hn Hc) as (c' & Ec & Ec').
  destruct (tgetx_ell x pre [C; 2 * m; 2 * n] [ISl sfull; ISl (step2 r); ISl (step2 c)]
              [RSl (mkR 0 C 1); RSl (mkR r' m 2); RSl (mkR c' n 2)] Hs Hpre eq_refl) as (y & E & S & V).
  { unfold resolve_all, resolve_ix. now rewrite resolve_sfull, Er, Ec. }
  exists y. split; auto. split; auto. intros p k i j Vp Hk Hi Hj. rewrite V by now apply valid_length.
  cbn [rfill]. unfold rpos; cbn [r_lo r_st]. rewrite Er', Ec' by lia. listeq.
Qed.
(** x[..., k, :, :] *)
Lemma get_plane (x : tensor A) k :
  shp x = pre ++ [C; m; n] -> 0 <= k < C ->
  exists y, tgetx x (ell (ndim x) [IInt k; ISl sfull; ISl sfull]) = Ok y /\ shp y = pre ++ [m; n] /\
    forall p i j, valid pre p -> 0 <= i < m -> 0 <= j < n ->
      at_ y (p ++ [i; j]) = at_ x (p ++ [k; i; j]).
Proof using Hpre HC Hm Hn.
  intros Hs Hk.
  destruct (tgetx_ell x pre [C; m; n] [IInt k; ISl sfull; ISl sfull]
              [RInt k; RSl (mkR 0 m 1); RSl (mkR 0 n 1)] Hs Hpre eq_refl) as (y & E & S & V).
  { unfold resolve_all, resolve_ix. rewrite !resolve_sfull by auto. replace (k <? 0) with false by (symmetry; apply Z.ltb_ge; lia).
    replace ((0 <=? k) && (k <? C)) with true; [reflexivity|]. symmetry. apply andb_true_iff; split; [apply Z.leb_le|apply Z.ltb_lt]; lia. }
  exists y. split; auto. split; auto. intros p i j Vp Hi Hj. rewrite V by now apply valid_length.
  cbn [rfill]. unfold rpos; cbn [r_lo r_st]. listeq.
Qed.

(** y[..., k, r::2, c::2] = v *)
Lemma set_int_phase (x v : tensor A) k r c :
  shp x = pre ++ [C; 2 * m; 2 * n] -> 0 <= k < C -> r = 0 \/ r = 1 -> c = 0 \/ c = 1 -> shp v = pre ++ [m; n] ->
  exists y, tsetx x (ell (ndim x) [IInt k; ISl (step2 r); ISl (step2 c)]) v = Ok y /\ shp y = pre ++ [C; 2 * m; 2 * n] /\
    forall p a i j, valid pre p -> 0 <= a < C -> 0 <= i < 2 * m -> 0 <= j < 2 * n ->
      at_ y (p ++ [a; i; j]) = if (a =? k) && (i mod 2 =? r) && (j mod 2 =? c) then at_ v (p ++ [i / 2; j / 2]) else at_ x (p ++ [a; i; j]).
Proof using Hpre HC Hm Hn.
  intros Hs Hk Hr Hc Hv.
  destruct (resolve_step2 m r Hm Hr) as (r' & Er & Er'). destruct (resolve_step2 n c Hn Hc) as (c' & Ec & Ec').
  destruct (tsetx_ell x v pre [C; 2 * m; 2 * n] [IInt k; ISl (step2 r); ISl (step2 c)]
              [RInt k; RSl (mkR r' m 2); RSl (mkR c' n 2)] Hs Hpre eq_refl) as (y & E & S & V); auto.
  { unfold resolve_all, resolve_ix. rewrite Er, Ec. replace (k <? 0) with false by (symmetry; apply Z.ltb_ge; lia).
    replace ((0 <=? k) && (k <? C)) with true; [reflexivity|]. symmetry. apply andb_true_iff; split; [apply Z.leb_le|apply Z.ltb_lt]; lia. }
  { intros w Vw. apply valid3 in Vw as (a & i & j & -> & Ha & Hi & Hj). cbn [rtest rback rlens r_len].
    rewrite (rinb_step2 m r' r), (rinb_step2 n c' c) by auto. intros T. bdestr.
    rewrite (rrel_step2 m r' r), (rrel_step2 n c' c) by auto. apply valid2_i; split; try (apply Z.div_pos; lia); apply Z.div_lt_upper_bound; lia. }
  exists y. split; auto. split; auto. intros p a i j Vp Ha Hi Hj. rewrite V by (auto; apply valid3_i; auto).
  cbn [rtest rback]. rewrite (rinb_step2 m r' r), (rinb_step2 n c' c), andb_true_r by auto. rewrite andb_assoc.
  destruct (_ && _) eqn:T; auto. bdestr.
  now rewrite (rrel_step2 m r' r), (rrel_step2 n c' c) by auto.
Qed.
(** y[..., r::2, c::2] = v *)
Lemma set_phase (x v : tensor A) r c :
  shp x = pre ++ [C; 2 * m; 2 * n] -> r = 0 \/ r = 1 -> c = 0 \/ c = 1 -> shp v = pre ++ [C; m; n] ->
  exists y, tsetx x (ell (ndim x) [ISl (step2 r); ISl (step2 c)]) v = Ok y /\ shp y = pre ++ [C; 2 * m; 2 * n] /\
    forall p a i j, valid pre p -> 0 <= a < C -> 0 <= i < 2 * m -> 0 <= j < 2 * n ->
      at_ y (p ++ [a; i; j]) = if (i mod 2 =? r) && (j mod 2 =? c) then at_ v (p ++ [a; i / 2; j / 2]) else at_ x (p ++ [a; i; j]).
Proof using Hpre HC Hm Hn.
  intros Hs Hr Hc Hv.
  destruct (resolve_step2 m r Hm Hr) as (r' & Er & Er'). destruct (resolve_step2 n c Hn Hc) as (c' & Ec & Ec').
  assert (Hs' : shp x = (pre ++ [C]) ++ [2 * m; 2 * n]) by now rewrite <- app_assoc.
  destruct (tsetx_ell x v (pre ++ [C]) [2 * m; 2 * n] [ISl (step2 r); ISl (step2 c)]
              [RSl (mkR r' m 2); RSl (mkR c' n 2)] Hs') as (y & E & S & V); auto.
  { apply Forall_app; split; auto. }
  { unfold resolve_all, resolve_ix. now rewrite Er, Ec. }
  { now rewrite <- app_assoc. }
  { intros w Vw. apply valid2 in Vw as (i & j & -> & Hi & Hj). cbn [rtest rback rlens r_len].
    rewrite (rinb_step2 m r' r), (rinb_step2 n c' c) by auto. intros T. bdestr.
    rewrite (rrel_step2 m r' r), (rrel_step2 n c' c) by auto. apply valid2_i; split; try (apply Z.div_pos; lia); apply Z.div_lt_upper_bound; lia. }
  exists y. split; auto. split; [now rewrite S, <- app_assoc|]. intros p a i j Vp Ha Hi Hj.
  change [a; i; j] with ([a] ++ [i; j]). rewrite !app_assoc, V.
  2:{ apply valid_app; auto. repeat constructor; lia. }
  2:{ apply valid2_i; auto. }
  cbn [rtest rback]. rewrite (rinb_step2 m r' r), (rinb_step2 n c' c), andb_true_r by auto.
  destruct (_ && _) eqn:T; auto. bdestr.
  rewrite (rrel_step2 m r' r), (rrel_step2 n c' c), <- app_assoc by auto. reflexivity.
Qed.
(** y[..., [k], r::2, c::2] = v *)
Lemma set_one_phase (x v : tensor A) k r c :
  shp x = pre ++ [C; 2 * m; 2 * n] -> 0 <= k < C -> r = 0 \/ r = 1 -> c = 0 \/ c = 1 -> shp v = pre ++ [1; m; n] ->
  exists y, tsetx x (ell (ndim x) [ilist1 k; ISl (step2 r); ISl (step2 c)]) v = Ok y /\ shp y = pre ++ [C; 2 * m; 2 * n] /\
    forall p a i j, valid pre p -> 0 <= a < C -> 0 <= i < 2 * m -> 0 <= j < 2 * n ->
      at_ y (p ++ [a; i; j]) = if (a =? k) && (i mod 2 =? r) && (j mod 2 =? c) then at_ v (p ++ [0; i / 2; j / 2]) else at_ x (p ++ [a; i; j]).
Proof using Hpre HC Hm Hn.
  intros Hs Hk Hr Hc Hv.
  destruct (resolve_step2 m r Hm Hr) as (r' & Er & Er'). destruct (resolve_step2 n c Hn Hc) as (c' & Ec & Ec').
  assert (Rk : forall a, rinb (mkR k 1 1) a = (a =? k)).
  { intros a. unfold rinb; simpl. rewrite Z.mod_1_r. repeat zcase; simpl; auto; lia. }
  assert (Rl : forall a, a =? k = true -> rrel (mkR k 1 1) a = 0).
  { intros a H. bdestr. subst. unfold rrel; simpl. rewrite Z.div_1_r. lia. }
  destruct (tsetx_ell x v pre [C; 2 * m; 2 * n] [ilist1 k; ISl (step2 r); ISl (step2 c)]
              [RSl (mkR k 1 1); RSl (mkR r' m 2); RSl (mkR c' n 2)] Hs Hpre eq_refl) as (y & E & S & V); auto.
  { unfold resolve_all, resolve_ix, ilist1. now rewrite resolve_ilist1, Er, Ec. }
  { intros w Vw. apply valid3 in Vw as (a & i & j & -> & Ha & Hi & Hj). cbn [rtest rback rlens r_len].
    rewrite (rinb_step2 m r' r), (rinb_step2 n c' c), Rk by auto. intros T. apply andb_true_iff in T as [T1 T]. rewrite Rl by auto. bdestr.
    rewrite (rrel_step2 m r' r), (rrel_step2 n c' c) by auto. apply valid3_i; try lia; split; try (apply Z.div_pos; lia); apply Z.div_lt_upper_bound; lia. }
  exists y. split; auto. split; auto. intros p a i j Vp Ha Hi Hj. rewrite V by (auto; apply valid3_i; auto).
  cbn [rtest rback]. rewrite (rinb_step2 m r' r), (rinb_step2 n c' c), Rk, andb_true_r by auto. rewrite andb_assoc.
  destruct (_ && _) eqn:T; auto. apply andb_true_iff in T as [T T3]. apply andb_true_iff in T as [T1 T2]. rewrite Rl by auto. bdestr.
  now rewrite (rrel_step2 m r' r), (rrel_step2 n c' c) by auto.
Qed.
End Phase.

(** ** shape access *)
Lemma dim_last3 {A} (x : tensor A) pre a b c : shp x = pre ++ [a; b; c] ->
  dim_last x 3 = Ok a /\ dim_last x 2 = Ok b /\ dim_last x 1 = Ok c.
Proof.
  intros H. unfold dim_last. rewrite H.
  assert (L : length (pre ++ [a; b; c]) = (length pre + 3)%nat) by now rewrite app_length.
  repeat split; (rewrite (pyidx_neg _ _ 0) by (rewrite ?L; lia)); rewrite L; f_equal.
  - replace (Z.to_nat _) with (length pre + 0)%nat by lia. now rewrite app_nth2_plus.
  - replace (Z.to_nat _) with (length pre + 1)%nat by lia. now rewrite app_nth2_plus.
  - replace (Z.to_nat _) with (length pre + 2)%nat by lia. now rewrite app_nth2_plus.
Qed.
Lemma butlast3 (pre : list Z) a b c : butlast 3 (pre ++ [a; b; c]) = pre.
Proof. unfold butlast. rewrite app_length. simpl length. replace (length pre + 3 - 3)%nat with (length pre + 0)%nat by lia.
  rewrite firstn_app_2. simpl. now rewrite app_nil_r. Qed.
Lemma lastn2 (pre : list Z) a b c : lastn 2 (pre ++ [a; b; c]) = [b; c].
Proof. unfold lastn. rewrite app_length. simpl length. replace (length pre + 3 - 2)%nat with (length (pre ++ [a])) by (rewrite app_length; simpl; lia).
  change [a; b; c] with ([a] ++ [b; c]). now rewrite app_assoc, skipn_app, skipn_all, Nat.sub_diag. Qed.
Lemma ndim3 {A} (x : tensor A) pre a b c : shp x = pre ++ [a; b; c] -> ndim x = (length pre + 3)%nat.
Proof. intros H. unfold ndim. now rewrite H, app_length. Qed.
Lemma even2 m n : ((2 * m) mod 2 =? (2 * n) mod 2) && ((2 * n) mod 2 =? 0) = true.
Proof. rewrite !(Z.mul_comm 2), !Z.mod_mul by lia. reflexivity. Qed.

(** ** cat *)
Lemma upd_app_r {A} (p s : list A) d (v : A) : upd (length p + d) v (p ++ s) = p ++ upd d v s.
Proof. induction p; simpl; congruence. Qed.
Lemma all2_refl s : all2 Z.eqb s s = true.
Proof. induction s; simpl; auto. now rewrite Z.eqb_refl. Qed.

Definition lens (d : nat) {A} (l : list (tensor A)) : Z := fold_right Z.add 0 (map (fun u => dimlen u d) l).
(** Concatenation along the first of the trailing axes. *)
Lemma tcat_spec {A} (l : list (tensor A)) pre s :
  l <> [] -> (forall u, In u l -> exists n, shp u = pre ++ n :: s) ->
  exists y, tcat (length pre) l = Ok y /\ shp y = pre ++ lens (length pre) l :: s /\
    at_ y = match l with [] => fun i => at_ y i | t :: l' => cat_at (length pre) t l' end.
Proof.
  destruct l as [|t l]; [congruence|]. intros _ H.
  destruct (H t (or_introl eq_refl)) as [n0 Ht]. unfold tcat.
  assert (E : Nat.ltb (length pre) (ndim t) = true).
  { apply Nat.ltb_lt. unfold ndim. rewrite Ht, app_length. simpl. lia. }
  rewrite E. replace (forallb _ l) with true.
  - simpl andb. cbv iota. eexists. split; [reflexivity|]. cbn [shp at_]. split; auto.
    rewrite Ht. rewrite <- (Nat.add_0_r (length pre)) at 1. now rewrite upd_app_r.
  - symmetry. apply forallb_forall. intros u Hu. destruct (H u (or_intror Hu)) as [n Hn].
    unfold same_off. rewrite Ht, Hn, !app_length. simpl length. rewrite Nat.eqb_refl.
    rewrite <- (Nat.add_0_r (length pre)) at 1 2. rewrite !upd_app_r. simpl. apply all2_refl.
Qed.
Lemma cat_at_hd {A} (t : tensor A) u l pre n s p k i : shp t = pre ++ n :: s -> length p = length pre -> k < n ->
  cat_at (length pre) t (u :: l) (p ++ k :: i) = at_ t (p ++ k :: i).
Proof.
  intros Ht Hp Hk. simpl. unfold dimlen. rewrite Ht, app_nth2 by lia. rewrite <- Hp at 1. rewrite app_nth2 by lia.
  rewrite !Nat.sub_diag. simpl. apply Z.ltb_lt in Hk. now rewrite Hk.
Qed.
Lemma cat_at_tl {A} (t : tensor A) u l pre n s p k i : shp t = pre ++ n :: s -> length p = length pre -> n <= k ->
  cat_at (length pre) t (u :: l) (p ++ k :: i) = cat_at (length pre) u l (p ++ (k - n) :: i).
Proof.
  intros Ht Hp Hk. simpl. unfold dimlen. rewrite Ht. rewrite (app_nth2 pre) by lia. rewrite (app_nth2 p) by lia.
  rewrite Hp, !Nat.sub_diag. simpl. apply Z.ltb_ge in Hk. rewrite Hk.
  f_equal. rewrite <- Hp, <- (Nat.add_0_r (length p)). rewrite upd_app_r. reflexivity.
Qed.
(** Concatenation of tensors of length 1 along the axis. *)
Lemma cat_at_ones {A} (l : list (tensor A)) : forall t pre s p k i,
  (forall u, In u (t :: l) -> shp u = pre ++ 1 :: s) -> length p = length pre -> 0 <= k < 1 + Z.of_nat (length l) ->
  cat_at (length pre) t l (p ++ k :: i) = at_ (nth (Z.to_nat k) (t :: l) t) (p ++ 0 :: i).
Proof.
  induction l as [|u l IH]; intros t pre s p k i H Hp Hk.
  - simpl in *. replace k with 0 by lia. reflexivity.
  - assert (Ht := H t (or_introl eq_refl)). destruct (Z.eq_dec k 0) as [->|].
    + erewrite cat_at_hd by (eauto; lia). reflexivity.
    + erewrite cat_at_tl by (eauto; lia). erewrite IH with (s := s); auto.
      * simpl length in Hk. replace (Z.to_nat k) with (S (Z.to_nat (k - 1))) by lia.
        change (nth (S (Z.to_nat (k - 1))) (t :: u :: l) t) with (nth (Z.to_nat (k - 1)) (u :: l) t).
        f_equal. apply nth_indep. simpl; lia.
      * intros v Hv. apply H. now right.
      * simpl length in Hk. lia.
Qed.
Lemma tcat_ones {A} (l : list (tensor A)) pre s :
  l <> [] -> (forall u, In u l -> shp u = pre ++ 1 :: s) ->
  exists y, tcat (length pre) l = Ok y /\ shp y = pre ++ Z.of_nat (length l) :: s /\
    forall p k i d, length p = length pre -> 0 <= k < Z.of_nat (length l) ->
      at_ y (p ++ k :: i) = at_ (nth (Z.to_nat k) l d) (p ++ 0 :: i).
Proof.
  intros Hl H. destruct (tcat_spec l pre s Hl) as (y & E & S & V).
  { intros u Hu. exists 1. auto. }
  exists y. split; auto. split.
  - rewrite S. do 2 f_equal. unfold lens. clear E S V Hl. induction l; auto.
    cbn [map fold_right length]. rewrite IHl by (intros; apply H; now right).
    unfold dimlen. rewrite (H a (or_introl eq_refl)), app_nth2, Nat.sub_diag by lia. simpl nth. lia.
  - destruct l as [|t l]; [congruence|]. intros p k i d Hp Hk. rewrite V.
    erewrite cat_at_ones with (s := s); eauto. { f_equal. apply nth_indep. simpl length in *. lia. } simpl length in Hk. lia.
Qed.
(** Stacking. *)
Lemma insert_at_app {A} (p s : list A) v : insert_at (length p) v (p ++ s) = p ++ v :: s.
Proof. unfold insert_at. rewrite firstn_app, firstn_all, Nat.sub_diag, skipn_app, skipn_all, Nat.sub_diag. simpl. now rewrite app_nil_r. Qed.
Lemma remove_at_app {A} (p s : list A) v : remove_at (length p) (p ++ v :: s) = p ++ s.
Proof. unfold remove_at. rewrite firstn_app, firstn_all, Nat.sub_diag. simpl firstn. rewrite app_nil_r. f_equal.
  rewrite skipn_app. rewrite skipn_all2 by lia. replace (S (length p) - length p)%nat with 1%nat by lia. reflexivity. Qed.
Lemma tstack_spec {A} (l : list (tensor A)) pre s :
  l <> [] -> (forall u, In u l -> shp u = pre ++ s) ->
  exists y, tstack (length pre) l = Ok y /\ shp y = pre ++ Z.of_nat (length l) :: s /\
    forall p k i d, length p = length pre -> 0 <= k < Z.of_nat (length l) ->
      at_ y (p ++ k :: i) = at_ (nth (Z.to_nat k) l d) (p ++ i).
Proof.
  intros Hl H. destruct (tcat_ones (map (tunsqueeze (length pre)) l) pre s) as (y & E & S & V).
  { destruct l; simpl; congruence. }
  { intros u Hu. apply in_map_iff in Hu as (v & <- & Hv). simpl. rewrite (H v Hv). apply insert_at_app. }
  exists y. rewrite map_length in *. split; auto. split; auto.
  intros p k i d Hp Hk. rewrite (V p k i (tunsqueeze (length pre) d)) by auto. rewrite map_nth. simpl.
  rewrite <- Hp, remove_at_app. reflexivity.
Qed.
