(** forward_unshuffle = pixel_unshuffle of forward; demosaicing keeps the measured samples and
    reproduces constant and (in the interior) affine gray images. *)
From Coq Require Import Ascii String.
From Verif Require Export BayerConvProofs.
Import List. Import ListNotations.
Local Notation length := List.length.
Open Scope string_scope.
Open Scope list_scope.
Open Scope Z_scope.

(** torch.pixel_unshuffle(x, 2) on tensors (..., c, h, w): channel 4o+2r+c is phase (r, c) of channel o. *)
Definition pixel_unshuffle2 {A} (x : tensor A) : tensor A :=
  let nd := ndim x in
  mkT (upd (nd - 3) (nth (nd - 3) (shp x) 0 * 4) (upd (nd - 2) (nth (nd - 2) (shp x) 0 / 2) (upd (nd - 1) (nth (nd - 1) (shp x) 0 / 2) (shp x))))
      (fun i => let ch := nth (nd - 3) i 0 in
                at_ x (upd (nd - 3) (ch / 4) (upd (nd - 2) (2 * nth (nd - 2) i 0 + (ch mod 4) / 2)
                      (upd (nd - 1) (2 * nth (nd - 1) i 0 + (ch mod 4) mod 2) i)))).

Section Unsh.
Context {F : ofield}.
Notation T := (tensor F).
Variables (B C m n : Z).
Hypothesis HB : 0 <= B.
Hypothesis Hm : 0 <= m.
Hypothesis Hn : 0 <= n.

Lemma resolve_step4 O q : 0 <= O -> 0 <= q < 4 ->
  exists q', resolve (O * 4) (mkS (Some q) None 4) = mkR q' O 4 /\ (0 < O -> q' = q).
Proof using Type.
  intros HO Hq. unfold resolve, clampi; cbn [s_lo s_hi s_st].
  replace (q <? 0) with false by (symmetry; apply Z.ltb_ge; lia).
  exists (Z.max 0 (Z.min (O * 4) q)). split; [|lia]. f_equal.
  destruct (Z.eq_dec O 0) as [->|].
  - replace (Z.max 0 (Z.min (0 * 4) q)) with 0 by lia. reflexivity.
  - replace (Z.max 0 (Z.min (O * 4) q)) with q by lia.
    rewrite Z.max_r; [|apply Z.div_pos; lia].
    symmetry. apply Z.div_unique with (r := 3 - q); lia.
Qed.

Lemma set_step4 (y v : T) O q : 0 <= O -> 0 <= q < 4 ->
  shp y = [B; O * 4; m; n] -> shp v = [B; O; m; n] ->
  exists z, tsetx y [ISl sfull; ISl (mkS (Some q) None 4); ISl sfull; ISl sfull] v = Ok z /\ shp z = [B; O * 4; m; n] /\
    forall b ch i j, 0 <= b < B -> 0 <= ch < O * 4 -> 0 <= i < m -> 0 <= j < n ->
      at_ z [b; ch; i; j] = if ch mod 4 =? q then at_ v [b; ch / 4; i; j] else at_ y [b; ch; i; j].
Proof using HB Hm Hn.
  intros HO Hq Hy Hv. destruct (resolve_step4 O q HO Hq) as (q' & Eq & Hq').
  unfold tsetx. rewrite Hy. cbn [resolve_all resolve_ix]. rewrite Eq, !resolve_sfull by auto. cbn [bind rlens r_len].
  rewrite Hv, expandable_refl. eexists; split; [reflexivity|]. cbn [shp at_]. split; auto.
  intros b ch i j Hb Hch Hi Hj. cbn [rtest rback].
  assert (I1 : forall N w, 0 <= w < N -> rinb (mkR 0 N 1) w = true).
  { intros N w Hw. unfold rinb; cbn [r_lo r_len r_st]. rewrite Z.mod_1_r. apply andb_true_intro; split; auto.
    apply andb_true_intro; split; [apply Z.leb_le|apply Z.ltb_lt]; lia. }
  rewrite !I1 by auto. rewrite Hq' by lia.
  assert (I2 : rinb (mkR q O 4) ch = (ch mod 4 =? q)).
  { unfold rinb; cbn [r_lo r_len r_st].
    pose proof (Z.div_mod ch 4 ltac:(lia)). pose proof (Z.mod_pos_bound ch 4 ltac:(lia)).
    pose proof (Z.div_mod (ch - q) 4 ltac:(lia)). pose proof (Z.mod_pos_bound (ch - q) 4 ltac:(lia)).
    repeat zcase; simpl; auto; lia. }
  rewrite I2. cbn [andb]. rewrite andb_true_r. destruct (Z.eqb_spec (ch mod 4) q) as [E|E]; auto.
  assert (D : rrel (mkR q O 4) ch = ch / 4).
  { unfold rrel; cbn [r_lo r_st]. pose proof (Z.div_mod ch 4 ltac:(lia)). symmetry. apply Z.div_unique with (r := 0); lia. }
  rewrite D. unfold rrel; cbn [r_lo r_st]. rewrite !Z.div_1_r, !Z.sub_0_r. rewrite bidx_same; auto.
  assert (0 <= ch / 4 < O) by (split; [apply Z.div_pos|apply Z.div_lt_upper_bound]; lia).
  repeat constructor; lia.
Qed.

Variables (M : bayer_conv F) (x : T) (s sa : string).
Hypothesis Hs : shp x = [B; C; 2 * m; 2 * n].
Hypothesis Hk : 1 <= bc_k M.
Hypothesis Ho : 0 <= bc_out M.
Hypothesis Hsa : In sa patterns.
Hypothesis Hv : case_variant s sa.
Notation k := (bc_k M).
Let pre := [B].
Local Lemma Hpre : nonneg pre. Proof using HB. repeat constructor; auto. Qed.
Local Lemma Hs' : shp x = pre ++ [C; 2 * m; 2 * n]. Proof using Hs. exact Hs. Qed.

Lemma half2 h : 2 * h / 2 = h.
Proof using Type. rewrite Z.mul_comm. apply Z.div_mul. lia. Qed.

Lemma unshuffle_spec junk :
  bc_in M = C -> k / 2 < 2 * m -> k / 2 < 2 * n -> 1 <= m -> 1 <= n ->
  exists z, bayer_forward_unshuffle junk M x s = Ok z /\ shp z = [B; bc_out M * 4; m; n] /\
    forall f, get_sensor_beg_index sa = Ok f -> forall q b o r c i j, 0 <= b < B -> 0 <= o < bc_out M ->
      r = 0 \/ r = 1 -> c = 0 \/ c = 1 -> 0 <= i < m -> 0 <= j < n -> f q = (r, c) ->
      at_ z [b; o * 4 + (2 * r + c); i; j] = centred C m n k x M q [b] o (2 * i + r) (2 * j + c).
Proof using HB Hm Hn Hs Hk Ho Hsa Hv.
  intros Hin H1 H2 H3 H4. unfold bayer_forward_unshuffle.
  destruct (dim_last3 x [B] C (2 * m) (2 * n) Hs) as (_ & -> & ->). rewrite Hs. cbn [bind pyidx].
  unfold pyidx. cbn [length Z.of_nat Pos.of_succ_nat Pos.succ Z.ltb Z.compare Z.leb andb Z.to_nat nth_error Z.add].
  rewrite !half2. rewrite (check_sensor_alignment_ok s sa Hsa Hv). cbn [bind].
  destruct (beg_index_spec sa Hsa) as (f & -> & Hf1 & _ & _ & _ & Hf5 & _). cbn [bind].
  set (e := tempty _ junk). assert (He : shp e = [B; bc_out M * 4; m; n]) by reflexivity. clearbody e.
  cbn [relative_positions foldM].
  assert (Br : forall q, exists v, bayer_branch M q (fst (f q)) (snd (f q)) x = Ok v /\ shp v = pre ++ [bc_out M; m; n] /\
    forall p o i j, length p = length pre -> 0 <= i < m -> 0 <= j < n ->
      at_ v (p ++ [o; i; j]) = centred C m n k x M q p o (2 * i + fst (f q)) (2 * j + snd (f q))).
  { intros q. destruct (Hf1 q). apply bayer_branch_spec; auto using Hs'. }
  assert (Q : forall q, 0 <= fst (f q) * 2 + snd (f q) < 4) by (intros q; destruct (Hf1 q); lia).
  pose proof (Q PR) as Q0. destruct (Br PR) as (v0 & B0 & S0 & V0). destruct (f PR) as [r0 c0] eqn:E0. cbn [fst snd] in *. rewrite B0. cbn [bind].
  destruct (set_step4 e v0 _ (r0 * 2 + c0) Ho Q0 He S0) as (e0 & -> & He0 & W0). cbn [bind].
  pose proof (Q PB) as Q1. destruct (Br PB) as (v1 & B1 & S1 & V1). destruct (f PB) as [r1 c1] eqn:E1. cbn [fst snd] in *. rewrite B1. cbn [bind].
  destruct (set_step4 e0 v1 _ (r1 * 2 + c1) Ho Q1 He0 S1) as (e1 & -> & He1 & W1). cbn [bind].
  pose proof (Q PGR) as Q2. destruct (Br PGR) as (v2 & B2 & S2 & V2). destruct (f PGR) as [r2 c2] eqn:E2. cbn [fst snd] in *. rewrite B2. cbn [bind].
  destruct (set_step4 e1 v2 _ (r2 * 2 + c2) Ho Q2 He1 S2) as (e2 & -> & He2 & W2). cbn [bind].
  pose proof (Q PGB) as Q3. destruct (Br PGB) as (v3 & B3 & S3 & V3). destruct (f PGB) as [r3 c3] eqn:E3. cbn [fst snd] in *. rewrite B3. cbn [bind].
  destruct (set_step4 e2 v3 _ (r3 * 2 + c3) Ho Q3 He2 S3) as (e3 & -> & He3 & W3). cbn [bind].
  exists e3. split; auto. split; auto. intros f' Ef q b o r c i j Hb Hoo Hr Hc Hi Hj Hq. injection Ef as <-.
  assert (Mo : (o * 4 + (2 * r + c)) mod 4 = 2 * r + c).
  { rewrite Z.add_comm, Z.mod_add, Z.mod_small; lia. }
  assert (Do : (o * 4 + (2 * r + c)) / 4 = o).
  { rewrite Z.add_comm, Z.div_add, Z.div_small; lia. }
  assert (Ne : forall q', q' <> q -> (2 * r + c =? fst (f q') * 2 + snd (f q')) = false).
  { intros q' Hne. apply Z.eqb_neq. intros E. apply Hne, Hf5. rewrite Hq. destruct (Hf1 q') as [A1 A2].
    destruct (f q') as [r' c']; cbn [fst snd] in *. f_equal; lia. }
  rewrite W3, W2, W1, W0 by lia. rewrite !Mo, !Do.
  pose proof (Ne PR) as N0. pose proof (Ne PB) as N1. pose proof (Ne PGR) as N2. pose proof (Ne PGB) as N3.
  rewrite E0 in N0. rewrite E1 in N1. rewrite E2 in N2. rewrite E3 in N3. cbn [fst snd] in *.
  assert (Eq : 2 * r + c =? r * 2 + c = true) by (apply Z.eqb_eq; lia).
  destruct q; rewrite Hq in *.
  - rewrite N3, N2, N1 by congruence. injection E0 as <- <-. rewrite Eq. apply (V0 [b]); auto.
  - rewrite N3, N2 by congruence. injection E1 as <- <-. rewrite Eq. apply (V1 [b]); auto.
  - rewrite N3 by congruence. injection E2 as <- <-. rewrite Eq. apply (V2 [b]); auto.
  - injection E3 as <- <-. rewrite Eq. apply (V3 [b]); auto.
Qed.

Lemma unshuffle_ok junk z : bayer_forward_unshuffle junk M x s = Ok z ->
  bc_in M = C /\ (length pre <= 1)%nat /\ k / 2 < 2 * m /\ k / 2 < 2 * n /\ 1 <= m /\ 1 <= n.
Proof using Hs Hk Hsa Hv.
  unfold bayer_forward_unshuffle. rewrite Hs.
  destruct (dim_last3 x [B] C (2 * m) (2 * n) Hs) as (_ & -> & ->). 
  unfold pyidx. cbn [length Z.of_nat Pos.of_succ_nat Pos.succ Z.ltb Z.compare Z.leb andb Z.to_nat nth_error Z.add].
  cbn [bind]. rewrite (check_sensor_alignment_ok s sa Hsa Hv). cbn [bind].
  destruct (beg_index_spec sa Hsa) as (f & -> & Hf1 & _ & _ & _ & _ & Hf6). cbn [bind]. intros E.
  assert (Br : forall r c, r = 0 \/ r = 1 -> c = 0 \/ c = 1 -> exists q v, bayer_branch M q r c x = Ok v).
  { intros r c Hr Hc. destruct (Hf6 r c Hr Hc) as [q Hq].
    destruct (foldM_ok_in _ _ _ _ q E) as (a' & b' & Hb). { destruct q; simpl; auto. }
    rewrite Hq in Hb. destruct (bayer_branch M q r c x) as [v|] eqn:Eb; [eauto|discriminate]. }
  destruct (Br 0 0) as (q0 & v0 & B0); auto. destruct (Br 1 1) as (q1 & v1 & B1); auto.
  apply (branch_ok pre C m n M x Hs Hk) in B0; auto. apply (branch_ok pre C m n M x Hs Hk) in B1; auto. lia.
Qed.

Lemma unshuffle_forward junk junk' :
  (forall y, bayer_forward junk M x s = Ok y ->
     exists z, bayer_forward_unshuffle junk' M x s = Ok z /\ teq z (pixel_unshuffle2 y)) /\
  (forall z, bayer_forward_unshuffle junk' M x s = Ok z -> exists y, bayer_forward junk M x s = Ok y).
Proof using HB Hm Hn Hs Hk Ho Hsa Hv.
  split.
  - intros y Hy. destruct (bayer_forward_ok pre C m n M x s sa Hs Hk Hsa Hv junk y Hy) as (A1 & A2 & A3 & A4 & A5 & A6).
    destruct (bayer_forward_spec pre C m n Hpre Hm Hn M x s sa Hs Hk Hsa Hv junk) as (y' & Ey & Sy & Vy); auto.
    rewrite Hy in Ey. injection Ey as <-.
    destruct (unshuffle_spec junk') as (z & Ez & Sz & Vz); auto. exists z. split; auto.
    destruct (beg_index_spec sa Hsa) as (f & Ef & Hf1 & _ & _ & _ & _ & Hf6).
    assert (N : ndim y = 4%nat) by (unfold ndim; now rewrite Sy).
    split.
    + unfold pixel_unshuffle2. cbn [shp]. rewrite N, Sz, Sy. cbn [Nat.sub nth upd app pre]. now rewrite !half2.
    + intros i Vi. rewrite Sz in Vi. change [B; bc_out M * 4; m; n] with ([B] ++ [bc_out M * 4; m; n]) in Vi.
      apply valid_app_inv in Vi as (p & i3 & -> & Vp & Vi). apply valid1 in Vp as (b & -> & Hb). apply valid3 in Vi as (ch & i & j & -> & Hch & Hi & Hj).
      unfold pixel_unshuffle2. cbn [at_]. rewrite N. cbn [Nat.sub nth upd app].
      pose proof (Z.div_mod ch 4 ltac:(lia)). pose proof (Z.mod_pos_bound ch 4 ltac:(lia)).
      pose proof (Z.div_mod (ch mod 4) 2 ltac:(lia)). pose proof (Z.mod_pos_bound (ch mod 4) 2 ltac:(lia)).
      assert (0 <= ch / 4 < bc_out M) by (split; [apply Z.div_pos|apply Z.div_lt_upper_bound]; lia).
      assert (R2 : (ch mod 4) / 2 = 0 \/ (ch mod 4) / 2 = 1) by lia.
      assert (C2 : (ch mod 4) mod 2 = 0 \/ (ch mod 4) mod 2 = 1) by lia.
      destruct (Hf6 _ _ R2 C2) as [q Hq].
      replace [b; ch; i; j] with [b; (ch / 4) * 4 + (2 * ((ch mod 4) / 2) + (ch mod 4) mod 2); i; j] by (repeat f_equal; lia).
      rewrite (Vz f Ef q) by (auto; lia). symmetry.
      apply (Vy f Ef q [b] (ch / 4)); try lia.
      * repeat constructor; lia.
      * rewrite Hq. f_equal.
        -- apply Z.mod_unique with (q := i); lia.
        -- apply Z.mod_unique with (q := j); lia.
  - intros z Hz. destruct (unshuffle_ok junk' z Hz) as (A1 & A2 & A3 & A4 & A5 & A6).
    destruct (bayer_forward_spec pre C m n Hpre Hm Hn M x s sa Hs Hk Hsa Hv junk) as (y' & Ey & _); eauto.
Qed.
End Unsh.

(** ** demosaicing *)
Section Demosaic.
Context {F : ofield}.
Notation T := (tensor F).
Variables (pre : list Z) (m n : Z).
Hypothesis Hpre : nonneg pre.
Hypothesis Hm : 0 <= m.
Hypothesis Hn : 0 <= n.

Lemma has_channel_ok (y : T) C k : shp y = pre ++ [C; 2 * m; 2 * n] -> 0 <= k < C -> has_channel y k = Ok tt.
Proof.
  intros S Hk. unfold has_channel. replace (pyidx (shp y) (-3)) with (Ok C).
  - cbn [bind]. replace ((0 <=? k) && (k <? C)) with true; auto. symmetry. apply andb_true_intro. split; [apply Z.leb_le|apply Z.ltb_lt]; lia.
  - rewrite S. unfold pyidx. rewrite app_length. cbn [length]. rewrite Nat2Z.inj_add. change (Z.of_nat 3) with 3. change (-3 <? 0) with true. cbv iota. replace ((0 <=? _) && _) with true.
    + rewrite nth_error_app2 by lia. replace (_ - _)%nat with O by lia. reflexivity.
    + symmetry. apply andb_true_intro. split; [apply Z.leb_le|apply Z.ltb_lt]; lia.
Qed.

Lemma demosaic_step (x y ret : T) C r c kc o0 o1 :
  2 <= C -> shp x = pre ++ [1; 2 * m; 2 * n] -> shp y = pre ++ [C; 2 * m; 2 * n] -> shp ret = pre ++ [3; 2 * m; 2 * n] ->
  r = 0 \/ r = 1 -> c = 0 \/ c = 1 -> 0 <= kc < 3 -> 0 <= o0 < 3 -> 0 <= o1 < 3 -> o0 < o1 -> kc <> o0 -> kc <> o1 ->
  exists z,
    (v <- tgetx x (ell (ndim x) [ISl sfull; ISl (step2 r); ISl (step2 c)]) ;;
     ret1 <- tsetx ret (ell (ndim ret) [ilist1 kc; ISl (step2 r); ISl (step2 c)]) v ;;
     _ <- has_channel y 0 ;;
     v0 <- tgetx y (ell (ndim y) [ilist1 0; ISl (step2 r); ISl (step2 c)]) ;;
     ret2 <- tsetx ret1 (ell (ndim ret) [ilist1 o0; ISl (step2 r); ISl (step2 c)]) v0 ;;
     _ <- has_channel y 1 ;;
     v1 <- tgetx y (ell (ndim y) [ilist1 1; ISl (step2 r); ISl (step2 c)]) ;;
     tsetx ret2 (ell (ndim ret) [ilist1 o1; ISl (step2 r); ISl (step2 c)]) v1) = Ok z /\
    shp z = pre ++ [3; 2 * m; 2 * n] /\
    forall p ch i j, valid pre p -> 0 <= ch < 3 -> 0 <= i < 2 * m -> 0 <= j < 2 * n ->
      at_ z (p ++ [ch; i; j]) =
        if (i mod 2 =? r) && (j mod 2 =? c) then
          if ch =? kc then at_ x (p ++ [0; i; j]) else at_ y (p ++ [if ch <? kc then ch else ch - 1; i; j])
        else at_ ret (p ++ [ch; i; j]).
Proof using Hpre Hm Hn.
  intros HC Sx Sy Sr Hr Hc Hkc H0 H1 Hlt Hn0 Hn1.
  destruct (get_all_phase pre 1 m n Hpre ltac:(lia) Hm Hn x r c Sx Hr Hc) as (v & -> & Sv & Vv). cbn [bind].
  destruct (set_one_phase pre 3 m n Hpre ltac:(lia) Hm Hn ret v kc r c Sr Hkc Hr Hc Sv) as (r1 & -> & S1 & V1). cbn [bind].
  rewrite !(has_channel_ok y C) by (auto; lia). cbn [bind].
  destruct (get_one_phase pre C m n Hpre ltac:(lia) Hm Hn y 0 r c Sy ltac:(lia) Hr Hc) as (v0 & -> & Sv0 & Vv0). cbn [bind].
  assert (N1 : ndim ret = ndim r1) by (unfold ndim; congruence). rewrite N1.
  destruct (set_one_phase pre 3 m n Hpre ltac:(lia) Hm Hn r1 v0 o0 r c S1 H0 Hr Hc Sv0) as (r2 & -> & S2 & V2). cbn [bind].
  destruct (get_one_phase pre C m n Hpre ltac:(lia) Hm Hn y 1 r c Sy ltac:(lia) Hr Hc) as (v1 & -> & Sv1 & Vv1). cbn [bind].
  assert (N2 : ndim r1 = ndim r2) by (unfold ndim; congruence). rewrite N2.
  destruct (set_one_phase pre 3 m n Hpre ltac:(lia) Hm Hn r2 v1 o1 r c S2 H1 Hr Hc Sv1) as (r3 & -> & S3 & V3). cbn [bind].
  exists r3. split; auto. split; auto. intros p ch i j Vp Hch Hi Hj.
  destruct (div2 m i Hi) as [Di Ei]. destruct (div2 n j Hj) as [Dj Ej].
  rewrite V3, V2, V1 by auto. rewrite <- !andb_assoc.
  destruct ((i mod 2 =? r) && (j mod 2 =? c)) eqn:Q; cbn [andb]; rewrite ?andb_false_r; auto.
  apply andb_true_iff in Q as [Q1 Q2]. bdestr. rewrite Q1 in Ei. rewrite Q2 in Ej. rewrite !andb_true_r.
  rewrite Vv1, Vv0, Vv by (auto; lia). rewrite <- Ei, <- Ej.
  destruct (Z.eqb_spec ch kc) as [->|Nk].
  - replace (kc =? o1) with false by (symmetry; now apply Z.eqb_neq). now replace (kc =? o0) with false by (symmetry; now apply Z.eqb_neq).
  - destruct (Z.eqb_spec ch o1) as [->|].
    + f_equal. f_equal. f_equal. zcase; lia.
    + replace (ch =? o0) with true by (symmetry; apply Z.eqb_eq; lia). f_equal. f_equal. f_equal. zcase; lia.
Qed.

Variables (s sa : string).
Hypothesis Hsa : In sa patterns.
Hypothesis Hv : case_variant s sa.

Lemma pos_color_chan f : get_sensor_beg_index sa = Ok f -> forall q, pos_color q = chan sa (2 * fst (f q) + snd (f q)).
Proof using Hsa.
  clear Hv. intros E q. pose proof Hsa as H. clear Hsa. simpl in H. destruct H as [<-|[<-|[<-|[<-|[]]]]]; injection E as <-; destruct q; reflexivity.
Qed.

Lemma last_step_spec junk (x y : T) C :
  2 <= C -> shp x = pre ++ [1; 2 * m; 2 * n] -> shp y = pre ++ [C; 2 * m; 2 * n] ->
  exists z, last_step_demosaic junk x y s = Ok z /\ shp z = pre ++ [3; 2 * m; 2 * n] /\
    forall p ch i j, valid pre p -> 0 <= ch < 3 -> 0 <= i < 2 * m -> 0 <= j < 2 * n ->
      at_ z (p ++ [ch; i; j]) =
        let kc := chan sa (2 * (i mod 2) + j mod 2) in
        if ch =? kc then at_ x (p ++ [0; i; j]) else at_ y (p ++ [if ch <? kc then ch else ch - 1; i; j]).
Proof using Hpre Hm Hn Hsa Hv.
  intros HC Sx Sy. unfold last_step_demosaic. rewrite (check_sensor_alignment_ok s sa Hsa Hv). cbn [bind].
  destruct (beg_index_spec sa Hsa) as (f & Ef & Hf1 & _ & _ & _ & Hf5 & Hf6). rewrite Ef. cbn [bind].
  assert (PC := pos_color_chan f Ef).
  assert (AS : assertb (all2 Z.eqb (butlast 3 (shp x)) (butlast 3 (shp y)) && all2 Z.eqb (lastn 2 (shp x)) (lastn 2 (shp y))) = Ok tt).
  { rewrite Sx, Sy, !butlast3, !lastn2, !all2_refl. reflexivity. }
  rewrite AS. cbn [bind].
  assert (Se : shp (tempty (butlast 3 (shp x) ++ [3] ++ lastn 2 (shp x)) junk) = pre ++ [3; 2 * m; 2 * n]).
  { cbn [tempty shp]. now rewrite Sx, butlast3, lastn2. }
  set (e := tempty _ junk) in *. clearbody e. cbn [relative_positions foldM].
  destruct (Hf1 PR) as [R0 C0]. pose proof (PC PR) as P0. destruct (f PR) as [r0 c0] eqn:E0. cbn [fst snd pos_color pos_others] in *.
  destruct (demosaic_step x y e C r0 c0 0 1 2 HC Sx Sy Se R0 C0 ltac:(lia) ltac:(lia) ltac:(lia) ltac:(lia) ltac:(lia) ltac:(lia)) as (e0 & -> & S0 & V0). cbn [bind].
  destruct (Hf1 PB) as [R1 C1]. pose proof (PC PB) as P1. destruct (f PB) as [r1 c1] eqn:E1. cbn [fst snd pos_color pos_others] in *.
  destruct (demosaic_step x y e0 C r1 c1 2 0 1 HC Sx Sy S0 R1 C1 ltac:(lia) ltac:(lia) ltac:(lia) ltac:(lia) ltac:(lia) ltac:(lia)) as (e1 & -> & S1 & V1). cbn [bind].
  destruct (Hf1 PGR) as [R2 C2]. pose proof (PC PGR) as P2. destruct (f PGR) as [r2 c2] eqn:E2. cbn [fst snd pos_color pos_others] in *.
  destruct (demosaic_step x y e1 C r2 c2 1 0 2 HC Sx Sy S1 R2 C2 ltac:(lia) ltac:(lia) ltac:(lia) ltac:(lia) ltac:(lia) ltac:(lia)) as (e2 & -> & S2 & V2). cbn [bind].
  destruct (Hf1 PGB) as [R3 C3]. pose proof (PC PGB) as P3. destruct (f PGB) as [r3 c3] eqn:E3. cbn [fst snd pos_color pos_others] in *.
  destruct (demosaic_step x y e2 C r3 c3 1 0 2 HC Sx Sy S2 R3 C3 ltac:(lia) ltac:(lia) ltac:(lia) ltac:(lia) ltac:(lia) ltac:(lia)) as (e3 & -> & S3 & V3). cbn [bind].
  exists e3. split; auto. split; auto. intros p ch i j Vp Hch Hi Hj. cbv zeta.
  destruct (Hf6 (i mod 2) (j mod 2) (mod2 i) (mod2 j)) as [q Hq].
  rewrite V3, V2, V1, V0 by auto.
  assert (Ne : forall q', q' <> q -> (i mod 2 =? fst (f q')) && (j mod 2 =? snd (f q')) = false).
  { intros q' Hne. apply andb_false_iff. destruct (Z.eqb_spec (i mod 2) (fst (f q'))); auto.
    destruct (Z.eqb_spec (j mod 2) (snd (f q'))); auto. exfalso. apply Hne, Hf5. rewrite Hq.
    destruct (f q'); simpl in *; congruence. }
  pose proof (Ne PR) as N0. pose proof (Ne PB) as N1. pose proof (Ne PGR) as N2. pose proof (Ne PGB) as N3.
  rewrite E0 in N0. rewrite E1 in N1. rewrite E2 in N2. rewrite E3 in N3. cbn [fst snd] in *.
  destruct q; rewrite Hq in *.
  - rewrite N3, N2, N1 by congruence. injection E0 as <- <-. rewrite !Z.eqb_refl. cbn [andb]. now rewrite <- P0.
  - rewrite N3, N2 by congruence. injection E1 as <- <-. rewrite !Z.eqb_refl. cbn [andb]. now rewrite <- P1.
  - rewrite N3 by congruence. injection E2 as <- <-. rewrite !Z.eqb_refl. cbn [andb]. now rewrite <- P2.
  - injection E3 as <- <-. rewrite !Z.eqb_refl. cbn [andb]. now rewrite <- P3.
Qed.

(** demosaic_with any network M with one input and two output channels *)
Section With.
Variables (M : bayer_conv F) (x : T) (cl : F).
Hypothesis Min : bc_in M = 1.
Hypothesis Mout : bc_out M = 2.
Hypothesis Hk : 1 <= bc_k M.
Hypothesis Hs : shp x = pre ++ [1; 2 * m; 2 * n].

Lemma demosaic_spec j1 j2 z : demosaic_with M j1 j2 x s cl = Ok z ->
  shp z = pre ++ [3; 2 * m; 2 * n] /\
  forall f, get_sensor_beg_index sa = Ok f -> forall q p ch i j, valid pre p -> 0 <= ch < 3 -> 0 <= i < 2 * m -> 0 <= j < 2 * n ->
    f q = (i mod 2, j mod 2) ->
    at_ z (p ++ [ch; i; j]) =
      fclamp f0 cl (let kc := pos_color q in
        if ch =? kc then at_ x (p ++ [0; i; j]) else centred 1 m n (bc_k M) x M q p (if ch <? kc then ch else ch - 1) i j).
Proof using Hpre Hm Hn Hsa Hv Min Mout Hk Hs.
  unfold demosaic_with. destruct (bayer_forward j1 M x s) as [y|] eqn:Ey; [|discriminate]. cbn [bind].
  destruct (bayer_forward_ok pre 1 m n M x s sa Hs Hk Hsa Hv j1 y Ey) as (A1 & A2 & A3 & A4 & A5 & A6).
  destruct (bayer_forward_spec pre 1 m n Hpre Hm Hn M x s sa Hs Hk Hsa Hv j1) as (y' & Ey' & Sy & Vy); auto; try lia.
  rewrite Ey in Ey'. injection Ey' as <-. rewrite Mout in Sy.
  destruct (last_step_spec j2 x y 2 ltac:(lia) Hs Sy) as (w & -> & Sw & Vw). cbn [bind]. intros E. injection E as <-.
  split; [exact Sw|]. intros f Ef q p ch i j Vp Hch Hi Hj Hq. cbn [tmap at_]. rewrite Vw by auto. cbv zeta.
  rewrite (pos_color_chan f Ef q), Hq. cbn [fst snd].
  destruct (chan_ok sa (2 * (i mod 2) + j mod 2)) as [_ CR]; auto. { pose proof (mod2 i). pose proof (mod2 j). lia. }
  destruct (Z.eqb_spec ch (chan sa (2 * (i mod 2) + j mod 2))); auto.
  f_equal. apply (Vy f Ef q); auto. rewrite Mout. zcase; lia.
Qed.
Lemma demosaic_ok j1 j2 :
  (length pre <= 1)%nat -> bc_k M / 2 < 2 * m -> bc_k M / 2 < 2 * n -> 1 <= m -> 1 <= n ->
  exists z, demosaic_with M j1 j2 x s cl = Ok z.
Proof using Hpre Hm Hn Hsa Hv Min Mout Hk Hs.
  intros. destruct (bayer_forward_spec pre 1 m n Hpre Hm Hn M x s sa Hs Hk Hsa Hv j1) as (y & Ey & Sy & _); auto; try lia.
  unfold demosaic_with. rewrite Ey. cbn [bind]. rewrite Mout in Sy.
  destruct (last_step_spec j2 x y 2 ltac:(lia) Hs Sy) as (w & -> & _). cbn [bind]. eauto.
Qed.
Lemma demosaic_ok_inv j1 j2 z : demosaic_with M j1 j2 x s cl = Ok z ->
  (length pre <= 1)%nat /\ bc_k M / 2 < 2 * m /\ bc_k M / 2 < 2 * n /\ 1 <= m /\ 1 <= n.
Proof using Hpre Hm Hn Hsa Hv Min Mout Hk Hs.
  unfold demosaic_with. destruct (bayer_forward j1 M x s) as [y|] eqn:Ey; [|discriminate]. intros _.
  destruct (bayer_forward_ok pre 1 m n M x s sa Hs Hk Hsa Hv j1 y Ey) as (A1 & A2 & A3 & A4 & A5 & A6). auto 6.
Qed.

(** re-mosaicking returns the clamped input *)
Lemma demosaic_remosaic j1 j2 j3 z : demosaic_with M j1 j2 x s cl = Ok z ->
  exists w, rgb_to_1c_bayer j3 z s = Ok w /\ teq w (tmap (fclamp f0 cl) x).
Proof using Hpre Hm Hn Hsa Hv Min Mout Hk Hs.
  intros E. destruct (demosaic_spec j1 j2 z E) as [Sz Vz].
  destruct (rgb_to_1c_spec pre m n Hpre Hm Hn j3 z s sa Sz Hsa Hv) as (w & Ew & Sw & Vw).
  exists w. split; auto. split; [cbn [tmap shp]; congruence|]. rewrite Sw. intros i Vi.
  apply valid_app_inv in Vi as (p & i3 & -> & Vp & Vi). apply valid3 in Vi as (ch & i & j & -> & Hch & Hi & Hj).
  replace ch with 0 by lia. rewrite Vw by auto. cbn [tmap at_].
  destruct (beg_index_spec sa Hsa) as (f & Ef & _ & _ & _ & _ & _ & Hf6).
  destruct (Hf6 (i mod 2) (j mod 2) (mod2 i) (mod2 j)) as [q Hq].
  destruct (chan_ok sa (2 * (i mod 2) + j mod 2)) as [_ CR]; auto. { pose proof (mod2 i). pose proof (mod2 j). lia. }
  rewrite (Vz f Ef q) by auto. cbv zeta. rewrite (pos_color_chan f Ef q), Hq. cbn [fst snd]. now rewrite Z.eqb_refl.
Qed.
End With.
End Demosaic.
