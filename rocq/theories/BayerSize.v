(** BayerConv2d with an odd kernel on images of any size; unbatched forward_unshuffle; small demosaicing. *)
From Coq Require Import Ascii String.
From Verif Require Export BayerOdd.
Import List. Import ListNotations.
Local Notation length := List.length.
Open Scope list_scope.
Open Scope Z_scope.

(** Side lengths on which the branches fit: even, or 3. *)
Definition side_ok (k h : Z) : Prop := k / 2 < h /\ (h mod 2 = 0 /\ 2 <= h \/ h = 3).
(** Row of the branch written to row i; row of the image whose filter value is found there. *)
Definition branch_row (h i : Z) : Z := if h =? 3 then 0 else i / 2.
Definition shown_row (h i : Z) : Z := if h =? 3 then i mod 2 else i.

Lemma resolve_step2_any h r : 2 <= h -> r = 0 \/ r = 1 -> resolve h (step2 r) = mkR r ((h - r + 1) / 2) 2.
Proof.
  intros Hh Hr. unfold resolve, step2, clampi; cbn [s_lo s_hi s_st].
  replace (r <? 0) with false by (symmetry; apply Z.ltb_ge; lia).
  replace (Z.max 0 (Z.min h r)) with r by lia. f_equal.
  rewrite Z.max_r; [f_equal; lia|apply Z.div_pos; lia].
Qed.
Lemma side_lens k h r : side_ok k h -> r = 0 \/ r = 1 -> (h / 2 =? (h - r + 1) / 2) || (h / 2 =? 1) = true.
Proof.
  intros [_ [[H1 H2]| ->]] Hr; [|apply orb_true_iff; now right].
  apply orb_true_iff. left. apply Z.eqb_eq. pose proof (Z.div_mod h 2). pose proof (Z.div_mod (h - r + 1) 2).
  pose proof (Z.mod_pos_bound (h - r + 1) 2). lia.
Qed.
Lemma step2_in h r i : 2 <= h -> r = 0 \/ r = 1 -> 0 <= i < h -> rinb (mkR r ((h - r + 1) / 2) 2) i = (i mod 2 =? r).
Proof.
  intros Hh Hr Hi. unfold rinb; cbn [r_lo r_len r_st].
  pose proof (Z.div_mod i 2). pose proof (Z.mod_pos_bound i 2). pose proof (Z.div_mod (i - r) 2). pose proof (Z.mod_pos_bound (i - r) 2).
  pose proof (Z.div_mod (h - r + 1) 2). pose proof (Z.mod_pos_bound (h - r + 1) 2).
  repeat zcase; simpl; auto; lia.
Qed.
Lemma step2_row k h r i : side_ok k h -> r = 0 \/ r = 1 -> 0 <= i < h -> i mod 2 = r ->
  (if h / 2 =? 1 then 0 else rrel (mkR r ((h - r + 1) / 2) 2) i) = branch_row h i /\ 0 <= branch_row h i < h / 2 /\
  2 * branch_row h i + r = shown_row h i.
Proof.
  intros [_ Hh] Hr Hi E. unfold rrel, branch_row, shown_row; cbn [r_lo r_st].
  pose proof (Z.div_mod i 2). assert (D : (i - r) / 2 = i / 2) by (symmetry; apply Z.div_unique with (r := 0); lia). rewrite D.
  destruct Hh as [[H1 H2]| ->]; [|cbn; lia].
  destruct (Z.eqb_spec h 3) as [->|]; [discriminate|]. pose proof (Z.div_mod h 2).
  destruct (Z.eqb_spec (h / 2) 1); lia.
Qed.
Lemma bidx_pre pre a p i : valid pre p -> length a = length i ->
  bidx (pre ++ a) (p ++ i) = p ++ map2 (fun n k => if n =? 1 then 0 else k) a i.
Proof.
  intros V L. unfold bidx. pose proof (valid_length _ _ V). rewrite !app_length.
  replace (length p + length i - (length pre + length a))%nat with 0%nat by lia. cbn [skipn].
  clear L H. induction V as [|n k pre p Hn V IH]; [reflexivity|]. cbn [app map2]. rewrite IH. f_equal.
  destruct (Z.eqb_spec n 1); lia.
Qed.
Lemma expandable_pre pre a b : length a = length b -> all2 (fun m n => (m =? n) || (m =? 1)) a b = true -> expandable (pre ++ a) (pre ++ b) = true.
Proof.
  intros L H. unfold expandable. rewrite !app_length, L, Nat.leb_refl, Nat.sub_diag. cbn [andb skipn].
  induction pre as [|n pre IH]; cbn [app all2]; auto. now rewrite Z.eqb_refl, IH.
Qed.

Section Size.
Variable F : ofield.
Notation T := (tensor F).

Lemma bayer_pad_any pre C h w k r c (x : T) : shp x = pre ++ [C; h; w] -> r = 0 \/ r = 1 -> c = 0 \/ c = 1 -> 1 <= k -> 2 <= h -> 2 <= w ->
  (length pre <= 1)%nat -> k / 2 < h -> k / 2 < w ->
  exists y, bayer_pad k r c x = Ok y /\ shp y = pre ++ [C; h + 2 * (k / 2) - 1; w + 2 * (k / 2) - 1] /\
    forall p o i j, length p = length pre ->
      at_ y (p ++ [o; i; j]) = at_ x (p ++ [o; refl1 h (i + r - k / 2); refl1 w (j + c - k / 2)]).
Proof.
  intros Hs Hr Hc Hk Hh Hw L H1 H2. assert (0 <= k / 2) by (apply Z.div_pos; lia).
  unfold bayer_pad, reflection_pad2d. assert (N := ndim3 x _ _ _ _ Hs). rewrite Hs.
  rewrite (l3_nth1 pre C h w 0 (ndim x)), (l3_nth2 pre C h w 0 (ndim x)) by auto.
  match goal with |- context [if ?b then _ else _] => replace b with true end.
  - eexists; split; [reflexivity|]. cbn [shp at_]. split.
    + rewrite l3_upd1, l3_upd2 by auto. do 2 f_equal. f_equal; [lia|]. f_equal. lia.
    + intros p o i j Lp. rewrite (l3_nth1 p), (l3_nth2 p), (l3_upd1 p), (l3_upd2 p) by lia. f_equal. f_equal. f_equal. f_equal; [f_equal; lia|]. f_equal. f_equal. lia.
  - symmetry. rewrite N. repeat (apply andb_true_intro; split); try (apply Z.ltb_lt; lia); try (apply Z.leb_le; lia).
    clear - L; destruct (length pre) as [|[|?]]; simpl; auto; lia.
Qed.

Lemma branch_any (M : bayer_conv F) pre C h w q r c (x : T) : shp x = pre ++ [C; h; w] -> r = 0 \/ r = 1 -> c = 0 \/ c = 1 ->
  bc_k M mod 2 = 1 -> 1 <= bc_k M -> bc_in M = C -> (length pre <= 1)%nat -> 2 <= h -> 2 <= w -> bc_k M / 2 < h -> bc_k M / 2 < w ->
  exists v, bayer_branch M q r c x = Ok v /\ shp v = pre ++ [bc_out M; h / 2; w / 2] /\
    forall p o i j, length p = length pre -> 0 <= i < h / 2 -> 0 <= j < w / 2 ->
      at_ v (p ++ [o; i; j]) = conv_at F M x h w q p o (2 * i + r) (2 * j + c).
Proof.
  intros Hs Hr Hc Ko Hk Min L Hh Hw H1 H2. unfold bayer_branch. set (k := bc_k M) in *.
  destruct (bayer_pad_any pre C h w k r c x Hs Hr Hc Hk Hh Hw L H1 H2) as (xp & -> & Sp & Vp). cbn [bind].
  unfold conv2d. assert (N := ndim3 xp _ _ _ _ Sp). rewrite Sp.
  rewrite (l3_nth1 pre C _ _ 0 (ndim xp)), (l3_nth2 pre C _ _ 0 (ndim xp)), (l3_nth3 pre C _ _ 0 (ndim xp)) by auto.
  pose proof (Z.div_mod k 2 ltac:(lia)).
  assert (D : forall h, (h + 2 * (k / 2) - 1 - k) / 2 + 1 = h / 2).
  { intros n. replace (n + 2 * (k / 2) - 1 - k) with (n + (-1) * 2) by lia. rewrite Z.div_add by lia. lia. }
  match goal with |- context [if ?b then _ else _] => replace b with true end.
  - eexists; split; [reflexivity|]. cbn [shp at_]. split.
    + rewrite l3_upd1, l3_upd2, l3_upd3 by auto. rewrite !D by auto. reflexivity.
    + intros p o i j Lp Hi Hj. rewrite (l3_nth1 p), (l3_nth2 p), (l3_nth3 p) by lia.
      unfold conv_at. fold k.
      match goal with |- match _ with None => ?u | Some _ => _ end = match _ with None => ?v | Some _ => _ end =>
        assert (u = v) as ->; [|destruct (bc_bias M); reflexivity] end.
      apply fsum_ext; intros ch _. apply fsum_ext; intros a Ha. apply fsum_ext; intros b Hb. f_equal.
      rewrite (l3_upd1 p), (l3_upd2 p), (l3_upd3 p) by lia. rewrite Vp by auto.
      pose proof (Z.div_mod h 2). pose proof (Z.mod_pos_bound h 2). pose proof (Z.div_mod w 2). pose proof (Z.mod_pos_bound w 2).
      rewrite !refl1_reflect; try lia.
      do 3 f_equal. f_equal; [f_equal; lia|]. f_equal. f_equal. lia.
  - symmetry. rewrite N, Min. repeat (apply andb_true_intro; split); try (apply Z.eqb_eq; lia); try (apply Z.leb_le; lia).
    clear - L; destruct (length pre) as [|[|?]]; simpl; auto; lia.
Qed.

Lemma set_any k pre O h w r c (y v : T) : nonneg pre -> 0 <= O -> side_ok k h -> side_ok k w -> r = 0 \/ r = 1 -> c = 0 \/ c = 1 ->
  0 <= k / 2 -> shp y = pre ++ [O; h; w] -> shp v = pre ++ [O; h / 2; w / 2] ->
  exists z, tsetx y (ell (ndim y) [ISl (step2 r); ISl (step2 c)]) v = Ok z /\ shp z = pre ++ [O; h; w] /\
    forall p o i j, valid pre p -> 0 <= o < O -> 0 <= i < h -> 0 <= j < w ->
      at_ z (p ++ [o; i; j]) = if (i mod 2 =? r) && (j mod 2 =? c) then at_ v (p ++ [o; branch_row h i; branch_row w j]) else at_ y (p ++ [o; i; j]).
Proof.
  intros Hp HO Hh Hw Hr Hc Hk Sy Sv.
  assert (h2 : 2 <= h) by (destruct Hh as [_ [?|?]]; lia). assert (w2 : 2 <= w) by (destruct Hw as [_ [?|?]]; lia).
  assert (Np : nonneg (pre ++ [O])) by (apply Forall_app; split; auto; repeat constructor; auto).
  assert (Sy' : shp y = (pre ++ [O]) ++ [h; w]) by (now rewrite <- app_assoc).
  assert (Sv' : shp v = (pre ++ [O]) ++ [h / 2; w / 2]) by (now rewrite <- app_assoc).
  unfold tsetx, ndim. rewrite Sy', ell_app, resolve_all_full by auto. cbn [resolve_all resolve_ix]. rewrite !resolve_step2_any by auto. cbn [bind].
  rewrite rlens_full, Sv'. cbn [rlens r_len].
  rewrite expandable_pre by (auto; cbn [all2]; rewrite !(side_lens k) by auto; reflexivity).
  eexists. split; [reflexivity|]. cbn [shp at_]. split; [now rewrite <- app_assoc|]. intros p o i j Vp Ho Hi Hj.
  assert (Vo : valid (pre ++ [O]) (p ++ [o])) by (apply valid_app; auto; constructor; [auto|constructor]).
  replace (p ++ [o; i; j]) with ((p ++ [o]) ++ [i; j]) by (now rewrite <- app_assoc).
  rewrite rtest_full by auto. cbn [rtest]. rewrite !step2_in by auto. rewrite andb_true_r.
  destruct (Z.eqb_spec (i mod 2) r); [|reflexivity]. destruct (Z.eqb_spec (j mod 2) c); [|reflexivity]. cbn [andb].
  rewrite rback_full by auto. cbn [rback]. rewrite bidx_pre by auto. cbn [map2].
  destruct (step2_row k h r i) as [-> _]; auto. destruct (step2_row k w c j) as [-> _]; auto. now rewrite <- app_assoc.
Qed.

(** Value of forward on every accepted size. *)
Theorem forward_any pre C h w (M : bayer_conv F) x s sa junk : nonneg pre -> shp x = pre ++ [C; h; w] -> 0 <= bc_out M ->
  In sa patterns -> case_variant s sa -> bc_k M mod 2 = 1 -> 1 <= bc_k M -> bc_in M = C -> (length pre <= 1)%nat ->
  side_ok (bc_k M) h -> side_ok (bc_k M) w ->
  exists y, bayer_forward junk M x s = Ok y /\ shp y = pre ++ [bc_out M; h; w] /\
    forall p o i j q, valid pre p -> 0 <= o < bc_out M -> 0 <= i < h -> 0 <= j < w -> in_class sa i j q ->
      at_ y (p ++ [o; i; j]) = conv_at F M x h w q p o (shown_row h i) (shown_row w j).
Proof.
  intros Hp Hs Ho Hsa Hv Ko Hk Min L Hh Hw.
  assert (h2 : 2 <= h) by (destruct Hh as [_ [?|?]]; lia). assert (w2 : 2 <= w) by (destruct Hw as [_ [?|?]]; lia).
  assert (K0 : 0 <= bc_k M / 2) by (apply Z.div_pos; lia).
  unfold bayer_forward. rewrite Hs, butlast3, lastn2. rewrite (check_sensor_alignment_ok s sa Hsa Hv). cbn [bind].
  destruct (beg_index_spec sa Hsa) as (f & Ef & Hf1 & _ & _ & _ & Hf5 & _). rewrite Ef. cbn [bind].
  set (e := tempty _ junk). assert (He : shp e = pre ++ [bc_out M; h; w]) by reflexivity. clearbody e.
  cbn [relative_positions foldM].
  assert (B : forall q, exists v, bayer_branch M q (fst (f q)) (snd (f q)) x = Ok v /\ shp v = pre ++ [bc_out M; h / 2; w / 2] /\
    forall p o i j, length p = length pre -> 0 <= i < h / 2 -> 0 <= j < w / 2 ->
      at_ v (p ++ [o; i; j]) = conv_at F M x h w q p o (2 * i + fst (f q)) (2 * j + snd (f q))).
  { intros q. destruct (Hf1 q). apply (branch_any M pre C h w); auto; [apply Hh|apply Hw]. }
  destruct (Hf1 PR) as [R0 C0]. destruct (B PR) as (v0 & B0 & S0 & V0). destruct (f PR) as [r0 c0] eqn:E0. cbn [fst snd] in *. rewrite B0. cbn [bind].
  destruct (set_any _ pre _ h w r0 c0 e v0 Hp Ho Hh Hw R0 C0 K0 He S0) as (e0 & -> & He0 & W0). cbn [bind].
  destruct (Hf1 PB) as [R1 C1]. destruct (B PB) as (v1 & B1 & S1 & V1). destruct (f PB) as [r1 c1] eqn:E1. cbn [fst snd] in *. rewrite B1. cbn [bind].
  destruct (set_any _ pre _ h w r1 c1 e0 v1 Hp Ho Hh Hw R1 C1 K0 He0 S1) as (e1 & -> & He1 & W1). cbn [bind].
  destruct (Hf1 PGR) as [R2 C2]. destruct (B PGR) as (v2 & B2 & S2 & V2). destruct (f PGR) as [r2 c2] eqn:E2. cbn [fst snd] in *. rewrite B2. cbn [bind].
  destruct (set_any _ pre _ h w r2 c2 e1 v2 Hp Ho Hh Hw R2 C2 K0 He1 S2) as (e2 & -> & He2 & W2). cbn [bind].
  destruct (Hf1 PGB) as [R3 C3]. destruct (B PGB) as (v3 & B3 & S3 & V3). destruct (f PGB) as [r3 c3] eqn:E3. cbn [fst snd] in *. rewrite B3. cbn [bind].
  destruct (set_any _ pre _ h w r3 c3 e2 v3 Hp Ho Hh Hw R3 C3 K0 He2 S3) as (e3 & -> & He3 & W3). cbn [bind].
  exists e3. split; auto. split; auto. intros p o i j q Vp Hoo Hi Hj Hc. apply (in_class_beg sa f i j q Hsa Ef) in Hc.
  assert (Lp := valid_length _ _ Vp).
  assert (Ne : forall q', q' <> q -> (i mod 2 =? fst (f q')) && (j mod 2 =? snd (f q')) = false).
  { intros q' Hne. apply andb_false_iff. destruct (Z.eqb_spec (i mod 2) (fst (f q'))); auto.
    destruct (Z.eqb_spec (j mod 2) (snd (f q'))); auto. exfalso. apply Hne, Hf5. rewrite Hc.
    destruct (f q'); simpl in *; congruence. }
  rewrite W3, W2, W1, W0 by auto.
  destruct (step2_row _ h (i mod 2) i Hh) as [_ [RH EH]]; auto using mod2. destruct (step2_row _ w (j mod 2) j Hw) as [_ [RW EW]]; auto using mod2.
  pose proof (Ne PR) as N0. pose proof (Ne PB) as N1. pose proof (Ne PGR) as N2. pose proof (Ne PGB) as N3.
  rewrite E0 in N0. rewrite E1 in N1. rewrite E2 in N2. rewrite E3 in N3. cbn [fst snd] in *.
  destruct q; rewrite Hc in *.
  - rewrite N3, N2, N1 by congruence. injection E0 as <- <-. rewrite !Z.eqb_refl. cbn [andb]. rewrite V0 by auto. now rewrite EH, EW.
  - rewrite N3, N2 by congruence. injection E1 as <- <-. rewrite !Z.eqb_refl. cbn [andb]. rewrite V1 by auto. now rewrite EH, EW.
  - rewrite N3 by congruence. injection E2 as <- <-. rewrite !Z.eqb_refl. cbn [andb]. rewrite V2 by auto. now rewrite EH, EW.
  - injection E3 as <- <-. rewrite !Z.eqb_refl. cbn [andb]. rewrite V3 by auto. now rewrite EH, EW.
Qed.

(** Which sizes are accepted. *)
Lemma branch_fits (M : bayer_conv F) pre C h w q r c (x v : T) : shp x = pre ++ [C; h; w] -> r = 0 \/ r = 1 -> c = 0 \/ c = 1 ->
  bc_k M mod 2 = 1 -> bayer_branch M q r c x = Ok v ->
  bc_in M = C /\ (length pre <= 1)%nat /\ 1 <= bc_k M /\ bc_k M / 2 - r < h /\ bc_k M / 2 - 1 + r < h /\ bc_k M / 2 - c < w /\ bc_k M / 2 - 1 + c < w /\ 2 <= h /\ 2 <= w.
Proof.
  intros Hs Hr Hc Ko. unfold bayer_branch. destruct (bayer_pad (bc_k M) r c x) as [xp|] eqn:E; [|discriminate]. cbn [bind].
  unfold bayer_pad, reflection_pad2d in E. assert (N := ndim3 x _ _ _ _ Hs). rewrite Hs in E.
  rewrite (l3_nth1 pre C h w 0 (ndim x)), (l3_nth2 pre C h w 0 (ndim x)) in E by auto.
  match type of E with (if ?b then _ else _) = _ => destruct b eqn:G end; [|discriminate].
  assert (Sp : shp xp = pre ++ [C; h + 2 * (bc_k M / 2) - 1; w + 2 * (bc_k M / 2) - 1]).
  { clear G. apply (f_equal (fun r => match r with Ok t => shp t | Err _ => [] end)) in E. cbv beta iota in E. rewrite <- E. clear E.
    cbn [shp]. rewrite l3_upd1, l3_upd2 by auto. do 2 f_equal. f_equal; [lia|]. f_equal. lia. }
  clear E. unfold conv2d. assert (N2 := ndim3 xp _ _ _ _ Sp). rewrite Sp.
  rewrite (l3_nth1 pre C _ _ 0 (ndim xp)), (l3_nth2 pre C _ _ 0 (ndim xp)), (l3_nth3 pre C _ _ 0 (ndim xp)) by auto.
  match goal with |- context [if ?b then _ else _] => destruct b eqn:B end; [|discriminate]. intros _.
  pose proof (Z.div_mod (bc_k M) 2 ltac:(lia)).
  repeat match goal with H : _ && _ = true |- _ => apply andb_true_iff in H as [H ?] end. bdestr.
  rewrite N in G. apply orb_true_iff in G. rewrite !Nat.eqb_eq in G. lia.
Qed.
Theorem forward_defined pre C h w (M : bayer_conv F) x s sa junk : nonneg pre -> shp x = pre ++ [C; h; w] -> 0 <= bc_out M ->
  In sa patterns -> case_variant s sa -> bc_k M mod 2 = 1 -> 1 <= bc_k M ->
  ((exists y, bayer_forward junk M x s = Ok y) <->
   bc_in M = C /\ (length pre <= 1)%nat /\ side_ok (bc_k M) h /\ side_ok (bc_k M) w).
Proof.
  intros Hp Hs Ho Hsa Hv Ko Hk. split.
  - intros [y E]. pose proof E as E'. unfold bayer_forward in E. rewrite (check_sensor_alignment_ok s sa Hsa Hv) in E. cbn [bind] in E.
    destruct (beg_index_spec sa Hsa) as (f & Ef & Hf1 & _ & _ & _ & _ & Hf6). rewrite Ef in E. cbn [bind] in E.
    assert (B : forall r c, r = 0 \/ r = 1 -> c = 0 \/ c = 1 -> exists q v, bayer_branch M q r c x = Ok v).
    { intros r c Hr Hc. destruct (Hf6 r c Hr Hc) as [q Hq].
      destruct (foldM_ok_in _ _ _ _ q E) as (a' & b' & Hb). { destruct q; simpl; auto. }
      rewrite Hq in Hb. destruct (bayer_branch M q r c x) as [v|] eqn:Eb; [eauto|discriminate]. }
    destruct (B 0 0) as (q0 & v0 & B0); auto. destruct (B 1 1) as (q1 & v1 & B1); auto.
    apply (branch_fits M pre C h w) in B0; auto. apply (branch_fits M pre C h w) in B1; auto.
    destruct B0 as (A1 & A2 & A3 & A4 & A5 & A6 & A7 & A8 & A9). destruct B1 as (_ & _ & _ & B4 & B5 & B6 & B7 & _).
    assert (P : (h mod 2 = 1 /\ 5 <= h) \/ (w mod 2 = 1 /\ 5 <= w) -> False).
    { intros Q. apply (odd_rejected F pre C h w M x s sa junk Hp Hs Ho Hsa Hv Ko ltac:(lia) ltac:(lia) Q y E'). }
    assert (S0 : forall n, 2 <= n -> bc_k M / 2 < n -> ~ (n mod 2 = 1 /\ 5 <= n) -> side_ok (bc_k M) n).
    { intros n Hn Kn Q. split; auto. pose proof (Z.div_mod n 2). pose proof (Z.mod_pos_bound n 2). lia. }
    do 2 (split; auto). split; apply S0; auto; lia.
  - intros (A1 & A2 & A3 & A4). destruct (forward_any pre C h w M x s sa junk) as (y & Hy & _); eauto.
Qed.

(** Demosaicing needs sides larger than half the kernel. *)
Theorem demosaic_small pre h w (x : T) s sa cl j1 j2 : nonneg pre -> shp x = pre ++ [1; h; w] ->
  In sa patterns -> case_variant s sa -> h <= 2 \/ w <= 2 -> forall z, demosaic j1 j2 x s cl <> Ok z.
Proof.
  intros Hp Hs Hsa Hv Hhw z. unfold demosaic, demosaic_with. destruct (bayer_forward j1 _ x s) as [y|] eqn:E; [|discriminate].
  exfalso. assert (G : exists y, bayer_forward j1 gradient_corrected_interpolator x s = Ok y) by eauto.
  apply (forward_defined pre 1 h w gradient_corrected_interpolator x s sa j1) in G; auto; try (cbn; lia).
  destruct G as (_ & _ & [G1 _] & [G2 _]). cbn in G1, G2. lia.
Qed.

(** forward_unshuffle on one image without a batch axis: the result of every channel is a full copy. *)
Lemma set_step4_b B m n (y v : T) O q : 0 <= B -> 0 <= m -> 0 <= n -> 0 <= O -> 0 <= q < 4 ->
  shp y = [B; O * 4; m; n] -> shp v = [O; m; n] ->
  exists z, tsetx y [ISl sfull; ISl (mkS (Some q) None 4); ISl sfull; ISl sfull] v = Ok z /\ shp z = [B; O * 4; m; n] /\
    forall b ch i j, 0 <= b < B -> 0 <= ch < O * 4 -> 0 <= i < m -> 0 <= j < n ->
      at_ z [b; ch; i; j] = if ch mod 4 =? q then at_ v [ch / 4; i; j] else at_ y [b; ch; i; j].
Proof.
  intros HB Hm Hn HO Hq Hy Hv. destruct (resolve_step4 O q HO Hq) as (q' & Eq & Hq').
  unfold tsetx. rewrite Hy. cbn [resolve_all resolve_ix]. rewrite Eq, !resolve_sfull by auto. cbn [bind rlens r_len].
  rewrite Hv. replace (expandable [O; m; n] [B; O; m; n]) with true by (cbn; now rewrite !Z.eqb_refl).
  eexists; split; [reflexivity|]. cbn [shp at_]. split; auto.
  intros b ch i j Hb Hch Hi Hj. cbn [rtest rback].
  assert (I1 : forall N w, 0 <= w < N -> rinb (mkR 0 N 1) w = true).
  { intros N w Hw. unfold rinb; cbn [r_lo r_len r_st]. rewrite Z.mod_1_r. apply andb_true_intro; split; auto.
    apply andb_true_intro; split; [apply Z.leb_le|apply Z.ltb_lt]; lia. }
  rewrite !I1 by auto. rewrite Hq' by lia.
  assert (I2 : rinb (mkR q O 4) ch = (ch mod 4 =? q)).
  { unfold rinb; cbn [r_lo r_len r_st].
    pose proof (Z.div_mod ch 4 ltac:(lia)). pose proof (Z.mod_pos_bound ch 4 ltac:(lia)).
    pose proof (Z.div_mod (ch - q) 4 ltac:(lia)). pose proof (Z.mod_pos_bound (ch - q) 4 ltac:(lia)).
    repeat zcase; simpl; auto; lia. }
  rewrite I2. cbn [andb]. rewrite andb_true_r. destruct (Z.eqb_spec (ch mod 4) q) as [E|E]; auto.
  assert (D : rrel (mkR q O 4) ch = ch / 4).
  { unfold rrel; cbn [r_lo r_st]. pose proof (Z.div_mod ch 4 ltac:(lia)). symmetry. apply Z.div_unique with (r := 0); lia. }
  rewrite D. unfold rrel; cbn [r_lo r_st]. rewrite !Z.div_1_r, !Z.sub_0_r.
  change (bidx [O; m; n] [b; ch / 4; i; j]) with (bidx [O; m; n] [ch / 4; i; j]). rewrite bidx_same; auto.
  assert (0 <= ch / 4 < O) by (split; [apply Z.div_pos|apply Z.div_lt_upper_bound]; lia).
  repeat constructor; lia.
Qed.
Theorem unbatched_copies C m n (M : bayer_conv F) x s sa junk junk' y : 0 <= C -> 0 <= m -> 0 <= n -> shp x = [C; 2 * m; 2 * n] ->
  1 <= bc_k M -> 0 <= bc_out M -> In sa patterns -> case_variant s sa -> bayer_forward junk M x s = Ok y ->
  exists z, bayer_forward_unshuffle junk' M x s = Ok z /\ shp z = C :: shp (pixel_unshuffle2 y) /\
    forall b i, 0 <= b < C -> valid (shp (pixel_unshuffle2 y)) i -> at_ z (b :: i) = at_ (pixel_unshuffle2 y) i.
Proof.
  intros HC Hm Hn Hs Hk Ho Hsa Hv Hy.
  assert (Np : nonneg []) by constructor.
  destruct (bayer_forward_ok [] C m n M x s sa Hs Hk Hsa Hv junk y Hy) as (A1 & A2 & A3 & A4 & A5 & A6).
  destruct (bayer_forward_spec [] C m n Np Hm Hn M x s sa Hs Hk Hsa Hv junk) as (y' & Ey & Sy & Vy); auto.
  rewrite Hy in Ey. injection Ey as <-. cbn [app] in *.
  assert (Z0 : exists z, bayer_forward_unshuffle junk' M x s = Ok z /\ shp z = [C; bc_out M * 4; m; n] /\
    forall f, get_sensor_beg_index sa = Ok f -> forall q b o r c i j, 0 <= b < C -> 0 <= o < bc_out M ->
      r = 0 \/ r = 1 -> c = 0 \/ c = 1 -> 0 <= i < m -> 0 <= j < n -> f q = (r, c) ->
      at_ z [b; o * 4 + (2 * r + c); i; j] = centred C m n (bc_k M) x M q [] o (2 * i + r) (2 * j + c)).
  { unfold bayer_forward_unshuffle.
    destruct (dim_last3 x [] C (2 * m) (2 * n) Hs) as (_ & -> & ->). rewrite Hs. cbn [bind pyidx].
    unfold pyidx. cbn [length Z.of_nat Pos.of_succ_nat Pos.succ Z.ltb Z.compare Z.leb andb Z.to_nat nth_error Z.add].
    rewrite !half2. rewrite (check_sensor_alignment_ok s sa Hsa Hv). cbn [bind].
    destruct (beg_index_spec sa Hsa) as (f & -> & Hf1 & _ & _ & _ & Hf5 & _). cbn [bind].
    set (e := tempty _ junk'). assert (He : shp e = [C; bc_out M * 4; m; n]) by reflexivity. clearbody e.
    cbn [relative_positions foldM].
    assert (Br : forall q, exists v, bayer_branch M q (fst (f q)) (snd (f q)) x = Ok v /\ shp v = [] ++ [bc_out M; m; n] /\
      forall p o i j, length p = length (@nil Z) -> 0 <= i < m -> 0 <= j < n ->
        at_ v (p ++ [o; i; j]) = centred C m n (bc_k M) x M q p o (2 * i + fst (f q)) (2 * j + snd (f q))).
    { intros q. destruct (Hf1 q). apply bayer_branch_spec; auto. }
    assert (Q : forall q, 0 <= fst (f q) * 2 + snd (f q) < 4) by (intros q; destruct (Hf1 q); lia).
    pose proof (Q PR) as Q0. destruct (Br PR) as (v0 & B0 & S0 & V0). destruct (f PR) as [r0 c0] eqn:E0. cbn [fst snd] in *. rewrite B0. cbn [bind].
    destruct (set_step4_b C m n e v0 _ (r0 * 2 + c0) HC Hm Hn Ho Q0 He S0) as (e0 & -> & He0 & W0). cbn [bind].
    pose proof (Q PB) as Q1. destruct (Br PB) as (v1 & B1 & S1 & V1). destruct (f PB) as [r1 c1] eqn:E1. cbn [fst snd] in *. rewrite B1. cbn [bind].
    destruct (set_step4_b C m n e0 v1 _ (r1 * 2 + c1) HC Hm Hn Ho Q1 He0 S1) as (e1 & -> & He1 & W1). cbn [bind].
    pose proof (Q PGR) as Q2. destruct (Br PGR) as (v2 & B2 & S2 & V2). destruct (f PGR) as [r2 c2] eqn:E2. cbn [fst snd] in *. rewrite B2. cbn [bind].
    destruct (set_step4_b C m n e1 v2 _ (r2 * 2 + c2) HC Hm Hn Ho Q2 He1 S2) as (e2 & -> & He2 & W2). cbn [bind].
    pose proof (Q PGB) as Q3. destruct (Br PGB) as (v3 & B3 & S3 & V3). destruct (f PGB) as [r3 c3] eqn:E3. cbn [fst snd] in *. rewrite B3. cbn [bind].
    destruct (set_step4_b C m n e2 v3 _ (r3 * 2 + c3) HC Hm Hn Ho Q3 He2 S3) as (e3 & -> & He3 & W3). cbn [bind].
    exists e3. split; auto. split; auto. intros f' Ef q b o r c i j Hb Hoo Hr Hc Hi Hj Hq. injection Ef as <-.
    assert (Mo : (o * 4 + (2 * r + c)) mod 4 = 2 * r + c).
    { rewrite Z.add_comm, Z.mod_add, Z.mod_small; lia. }
    assert (Do : (o * 4 + (2 * r + c)) / 4 = o).
    { rewrite Z.add_comm, Z.div_add, Z.div_small; lia. }
    assert (Ne : forall q', q' <> q -> (2 * r + c =? fst (f q') * 2 + snd (f q')) = false).
    { intros q' Hne. apply Z.eqb_neq. intros E. apply Hne, Hf5. rewrite Hq. destruct (Hf1 q') as [D1 D2].
      destruct (f q') as [r' c']; cbn [fst snd] in *. f_equal; lia. }
    rewrite W3, W2, W1, W0 by lia. rewrite !Mo, !Do.
    pose proof (Ne PR) as N0. pose proof (Ne PB) as N1. pose proof (Ne PGR) as N2. pose proof (Ne PGB) as N3.
    rewrite E0 in N0. rewrite E1 in N1. rewrite E2 in N2. rewrite E3 in N3. cbn [fst snd] in *.
    assert (Eq : 2 * r + c =? r * 2 + c = true) by (apply Z.eqb_eq; lia).
    destruct q; rewrite Hq in *.
    - rewrite N3, N2, N1 by congruence. injection E0 as <- <-. rewrite Eq. apply (V0 []); auto.
    - rewrite N3, N2 by congruence. injection E1 as <- <-. rewrite Eq. apply (V1 []); auto.
    - rewrite N3 by congruence. injection E2 as <- <-. rewrite Eq. apply (V2 []); auto.
    - injection E3 as <- <-. rewrite Eq. apply (V3 []); auto. }
  destruct Z0 as (z & Ez & Sz & Vz). exists z. split; auto.
  destruct (beg_index_spec sa Hsa) as (f & Ef & Hf1 & _ & _ & _ & _ & Hf6).
  assert (N : ndim y = 3%nat) by (unfold ndim; now rewrite Sy).
  assert (SU : shp (pixel_unshuffle2 y) = [bc_out M * 4; m; n]).
  { unfold pixel_unshuffle2. cbn [shp]. rewrite N, Sy. cbn [Nat.sub nth upd app]. now rewrite !half2. }
  split; [congruence|]. intros b i Hb Vi. rewrite SU in Vi. apply valid3 in Vi as (ch & i' & j & -> & Hch & Hi & Hj).
  unfold pixel_unshuffle2. cbn [at_]. rewrite N. cbn [Nat.sub nth upd app].
  pose proof (Z.div_mod ch 4 ltac:(lia)). pose proof (Z.mod_pos_bound ch 4 ltac:(lia)).
  pose proof (Z.div_mod (ch mod 4) 2 ltac:(lia)). pose proof (Z.mod_pos_bound (ch mod 4) 2 ltac:(lia)).
  assert (0 <= ch / 4 < bc_out M) by (split; [apply Z.div_pos|apply Z.div_lt_upper_bound]; lia).
  assert (R2 : (ch mod 4) / 2 = 0 \/ (ch mod 4) / 2 = 1) by lia.
  assert (C2 : (ch mod 4) mod 2 = 0 \/ (ch mod 4) mod 2 = 1) by lia.
  destruct (Hf6 _ _ R2 C2) as [q Hq].
  replace [b; ch; i'; j] with [b; (ch / 4) * 4 + (2 * ((ch mod 4) / 2) + (ch mod 4) mod 2); i'; j] by (repeat f_equal; lia).
  rewrite (Vz f Ef q) by (auto; lia). symmetry.
  apply (Vy f Ef q [] (ch / 4)); try lia.
  - constructor.
  - rewrite Hq. f_equal.
    + apply Z.mod_unique with (q := i'); lia.
    + apply Z.mod_unique with (q := j); lia.
Qed.
End Size.
