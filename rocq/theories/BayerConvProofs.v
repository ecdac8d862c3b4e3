(** BayerConv2d computes centred convolutions; forward_unshuffle is pixel_unshuffle of forward;
    demosaicing keeps measured samples and reproduces flat and affine gray images. *)
From Coq Require Import Ascii String.
From Verif Require Export CfaProofs.
Import List. Import ListNotations.
Local Notation length := List.length.
Open Scope string_scope.
Open Scope list_scope.
Open Scope Z_scope.

(** Mirror extension without repeating the edge (period 2n-2). *)
Definition reflect (n t : Z) : Z :=
  if n =? 1 then 0 else let q := t mod (2 * n - 2) in if q <? n then q else 2 * n - 2 - q.
Lemma refl1_reflect n t : 2 <= n -> - n < t < 2 * n - 1 -> refl1 n t = reflect n t.
Proof.
  intros Hn Ht. unfold refl1, reflect. replace (n =? 1) with false by (symmetry; apply Z.eqb_neq; lia).
  destruct (Z.ltb_spec t 0).
  - replace (t mod (2 * n - 2)) with (t + (2 * n - 2)) by (apply Z.mod_unique with (q := -1); lia).
    cbv zeta. destruct (Z.ltb_spec (t + (2 * n - 2)) n); try lia.
  - destruct (Z.eq_dec t (2 * n - 2)) as [->|].
    + rewrite Z.mod_same by lia. cbv zeta. repeat zcase; lia.
    + rewrite Z.mod_small by lia. cbv zeta. repeat zcase; lia.
Qed.
Lemma reflect_in n t : 1 <= n -> 0 <= reflect n t < n.
Proof.
  intros Hn. unfold reflect. destruct (Z.eqb_spec n 1); [lia|]. pose proof (Z.mod_pos_bound t (2 * n - 2)). cbv zeta. zcase; lia.
Qed.
Lemma reflect_id n t : 0 <= t < n -> reflect n t = t.
Proof.
  intros H. unfold reflect. destruct (Z.eqb_spec n 1); [lia|]. rewrite Z.mod_small by lia. cbv zeta. zcase; lia.
Qed.

(** index bookkeeping for the last three axes *)
Section Last3.
Context {A : Type}.
Variables (p : list A) (a b c d : A) (nd : nat).
Hypothesis H : nd = (length p + 3)%nat.
Lemma l3_nth1 : nth (nd - 1) (p ++ [a; b; c]) d = c.
Proof using H. replace (nd - 1)%nat with (length p + 2)%nat by lia. now rewrite app_nth2_plus. Qed.
Lemma l3_nth2 : nth (nd - 2) (p ++ [a; b; c]) d = b.
Proof using H. replace (nd - 2)%nat with (length p + 1)%nat by lia. now rewrite app_nth2_plus. Qed.
Lemma l3_nth3 : nth (nd - 3) (p ++ [a; b; c]) d = a.
Proof using H. replace (nd - 3)%nat with (length p + 0)%nat by lia. now rewrite app_nth2_plus. Qed.
Lemma l3_upd1 : upd (nd - 1) d (p ++ [a; b; c]) = p ++ [a; b; d].
Proof using H. replace (nd - 1)%nat with (length p + 2)%nat by lia. now rewrite upd_app_r. Qed.
Lemma l3_upd2 : upd (nd - 2) d (p ++ [a; b; c]) = p ++ [a; d; c].
Proof using H. replace (nd - 2)%nat with (length p + 1)%nat by lia. now rewrite upd_app_r. Qed.
Lemma l3_upd3 : upd (nd - 3) d (p ++ [a; b; c]) = p ++ [d; b; c].
Proof using H. replace (nd - 3)%nat with (length p + 0)%nat by lia. now rewrite upd_app_r. Qed.
End Last3.

Lemma foldM_ok_in {A B} (f : A -> B -> res A) l : forall a z e,
  foldM f l a = Ok z -> In e l -> exists a' b', f a' e = Ok b'.
Proof.
  induction l as [|b l IH]; simpl; intros a z e E; [tauto|].
  destruct (f a b) eqn:Ef; simpl in E; [|discriminate]. intros [->|Hi]; eauto.
Qed.

Section BC.
Context {F : ofield}.
Notation T := (tensor F).

Section One.
Variables (pre : list Z) (C m n : Z).
Hypothesis Hpre : nonneg pre.
Hypothesis Hm : 0 <= m.
Hypothesis Hn : 0 <= n.

Section Geo.
Variables (k r c : Z) (x : T).
Hypothesis Hs : shp x = pre ++ [C; 2 * m; 2 * n].
Hypothesis Hr : r = 0 \/ r = 1.
Hypothesis Hc : c = 0 \/ c = 1.

Lemma bayer_pad_spec :
  (length pre <= 1)%nat -> k / 2 < 2 * m -> k / 2 < 2 * n -> 1 <= k -> 1 <= m -> 1 <= n ->
  exists y, bayer_pad k r c x = Ok y /\ shp y = pre ++ [C; 2 * m + 2 * (k / 2) - 1; 2 * n + 2 * (k / 2) - 1] /\
    forall p o i j, length p = length pre ->
      at_ y (p ++ [o; i; j]) = at_ x (p ++ [o; refl1 (2 * m) (i + r - k / 2); refl1 (2 * n) (j + c - k / 2)]).
Proof using Hs Hr Hc.
  intros L H1 H2 Hk H3 H4. assert (0 <= k / 2) by (apply Z.div_pos; lia).
  unfold bayer_pad, reflection_pad2d. assert (N := ndim3 x _ _ _ _ Hs). rewrite Hs.
  rewrite (l3_nth1 pre C (2 * m) (2 * n) 0 (ndim x)), (l3_nth2 pre C (2 * m) (2 * n) 0 (ndim x)) by auto.
  match goal with |- context [if ?b then _ else _] => replace b with true end.
  - eexists; split; [reflexivity|]. cbn [shp at_]. split.
    + rewrite l3_upd1, l3_upd2 by auto. do 2 f_equal. f_equal; [lia|]. f_equal. lia.
    + intros p o i j Lp. rewrite (l3_nth1 p), (l3_nth2 p), (l3_upd1 p), (l3_upd2 p) by lia. f_equal. f_equal. f_equal. f_equal; [f_equal; lia|]. f_equal. f_equal. lia.
  - symmetry. rewrite N. repeat (apply andb_true_intro; split); try (apply Z.ltb_lt; lia); try (apply Z.leb_le; lia).
    clear - L; destruct (length pre) as [|[|?]]; simpl; auto; lia.
Qed.
Lemma bayer_pad_ok y : 1 <= k -> bayer_pad k r c x = Ok y ->
  (length pre <= 1)%nat /\ k / 2 - r < 2 * m /\ k / 2 - 1 + r < 2 * m /\ k / 2 - c < 2 * n /\ k / 2 - 1 + c < 2 * n
  /\ 1 <= 2 * m + 2 * (k / 2) - 1 /\ 1 <= 2 * n + 2 * (k / 2) - 1.
Proof using Hs.
  intros Hk. unfold bayer_pad, reflection_pad2d. assert (N := ndim3 x _ _ _ _ Hs). rewrite Hs.
  rewrite (l3_nth1 pre C (2 * m) (2 * n) 0 (ndim x)), (l3_nth2 pre C (2 * m) (2 * n) 0 (ndim x)) by auto.
  match goal with |- context [if ?b then _ else _] => destruct b eqn:E end; [|discriminate]. intros _.
  repeat match goal with H : _ && _ = true |- _ => apply andb_true_iff in H as [H ?] end. bdestr.
  rewrite N in E. apply orb_true_iff in E. rewrite !Nat.eqb_eq in E. lia.
Qed.

Variable M : bayer_conv F.
Hypothesis Mk : bc_k M = k.
Hypothesis Min : bc_in M = C.
Hypothesis Hk : 1 <= k.

(** value of the filter of class q centred at row R, column S *)
Definition centred (q : pos) (p : list Z) (o R S : Z) : F :=
  let v := fsum C (fun ch => fsum k (fun a => fsum k (fun b =>
     fmul (bc_w M q o ch a b)
          (at_ x (p ++ [ch; reflect (2 * m) (R + a - k / 2); reflect (2 * n) (S + b - k / 2)]))))) in
  match bc_bias M with None => v | Some bs => fadd v (bs q o) end.

Lemma half_range i : 1 <= i -> k / 2 < 2 * i ->
  forall z a, 0 <= z < i -> 0 <= a < k -> forall r, r = 0 \/ r = 1 -> - (2 * i) < 2 * z + a + r - k / 2 < 2 * (2 * i) - 1.
Proof using Hk.
  intros. pose proof (Z.div_mod k 2 ltac:(lia)). pose proof (Z.mod_pos_bound k 2 ltac:(lia)). lia.
Qed.

Lemma bayer_branch_spec q :
  (length pre <= 1)%nat -> k / 2 < 2 * m -> k / 2 < 2 * n -> 1 <= m -> 1 <= n ->
  exists v, bayer_branch M q r c x = Ok v /\ shp v = pre ++ [bc_out M; m; n] /\
    forall p o i j, length p = length pre -> 0 <= i < m -> 0 <= j < n ->
      at_ v (p ++ [o; i; j]) = centred q p o (2 * i + r) (2 * j + c).
Proof using Hs Hr Hc Mk Min Hk.
  intros L H1 H2 H3 H4. unfold bayer_branch. rewrite Mk.
  destruct (bayer_pad_spec L H1 H2 Hk H3 H4) as (xp & -> & Sp & Vp). cbn [bind].
  unfold conv2d. assert (N := ndim3 xp _ _ _ _ Sp). rewrite Sp.
  rewrite (l3_nth1 pre C _ _ 0 (ndim xp)), (l3_nth2 pre C _ _ 0 (ndim xp)), (l3_nth3 pre C _ _ 0 (ndim xp)) by auto.
  pose proof (Z.div_mod k 2 ltac:(lia)). pose proof (Z.mod_pos_bound k 2 ltac:(lia)).
  assert (D : forall h, 1 <= h -> (2 * h + 2 * (k / 2) - 1 - k) / 2 + 1 = h).
  { intros h Hh. assert ((2 * h + 2 * (k / 2) - 1 - k) / 2 = h - 1); [|lia].
    symmetry. apply Z.div_unique with (r := 1 - k mod 2); lia. }
  match goal with |- context [if ?b then _ else _] => replace b with true end.
  - eexists; split; [reflexivity|]. cbn [shp at_]. split.
    + rewrite l3_upd1, l3_upd2, l3_upd3 by auto. rewrite !D by auto. reflexivity.
    + intros p o i j Lp Hi Hj. rewrite (l3_nth1 p), (l3_nth2 p), (l3_nth3 p) by lia.
      unfold centred. rewrite Min.
      match goal with |- match _ with None => ?u | Some _ => _ end = match _ with None => ?v | Some _ => _ end =>
        assert (u = v) as ->; [|destruct (bc_bias M); reflexivity] end.
      apply fsum_ext; intros ch _. apply fsum_ext; intros a Ha. apply fsum_ext; intros b Hb. f_equal.
      rewrite (l3_upd1 p), (l3_upd2 p), (l3_upd3 p) by lia. rewrite Vp by auto.
      rewrite !refl1_reflect; try lia.
      do 3 f_equal. f_equal; [f_equal; lia|]. f_equal. f_equal. lia.
  - symmetry. rewrite N, Min. repeat (apply andb_true_intro; split); try (apply Z.eqb_eq; lia); try (apply Z.leb_le; lia).
    clear - L; destruct (length pre) as [|[|?]]; simpl; auto; lia.
Qed.
End Geo.

(** ** forward *)
Variables (M : bayer_conv F) (x : T) (s sa : string).
Hypothesis Hs : shp x = pre ++ [C; 2 * m; 2 * n].
Hypothesis Hk : 1 <= bc_k M.
Hypothesis Hsa : In sa patterns.
Hypothesis Hv : case_variant s sa.
Notation k := (bc_k M).

Lemma pos_cases f : (forall r c, r = 0 \/ r = 1 -> c = 0 \/ c = 1 -> exists p : pos, f p = (r, c)) ->
  forall i j, exists p, f p = (i mod 2, j mod 2).
Proof using Type. intros H i j. apply H; apply mod2. Qed.

Lemma bayer_forward_spec junk :
  bc_in M = C -> 0 <= bc_out M -> (length pre <= 1)%nat -> k / 2 < 2 * m -> k / 2 < 2 * n -> 1 <= m -> 1 <= n ->
  exists y, bayer_forward junk M x s = Ok y /\ shp y = pre ++ [bc_out M; 2 * m; 2 * n] /\
    forall f, get_sensor_beg_index sa = Ok f -> forall q p o R S, valid pre p -> 0 <= o < bc_out M ->
      0 <= R < 2 * m -> 0 <= S < 2 * n -> f q = (R mod 2, S mod 2) ->
      at_ y (p ++ [o; R; S]) = centred k x M q p o R S.
Proof using Hpre Hm Hn Hs Hk Hsa Hv.
  intros Hin Hout L H1 H2 H3 H4. unfold bayer_forward. rewrite Hs, butlast3, lastn2.
  rewrite (check_sensor_alignment_ok s sa Hsa Hv). cbn [bind].
  destruct (beg_index_spec sa Hsa) as (f & -> & Hf1 & _ & _ & _ & Hf5 & _). cbn [bind].
  set (e := tempty _ junk). assert (He : shp e = pre ++ [bc_out M; 2 * m; 2 * n]) by reflexivity. clearbody e.
  cbn [relative_positions foldM].
  assert (B : forall q, exists v, bayer_branch M q (fst (f q)) (snd (f q)) x = Ok v /\ shp v = pre ++ [bc_out M; m; n] /\
    forall p o i j, length p = length pre -> 0 <= i < m -> 0 <= j < n ->
      at_ v (p ++ [o; i; j]) = centred k x M q p o (2 * i + fst (f q)) (2 * j + snd (f q))).
  { intros q. destruct (Hf1 q). apply bayer_branch_spec; auto. }
  destruct (Hf1 PR) as [R0 C0]. destruct (B PR) as (v0 & B0 & S0 & V0). destruct (f PR) as [r0 c0] eqn:E0. cbn [fst snd] in *. rewrite B0. cbn [bind].
  destruct (set_phase pre _ m n Hpre Hout Hm Hn e v0 r0 c0 He R0 C0 S0) as (e0 & -> & He0 & W0). cbn [bind].
  destruct (Hf1 PB) as [R1 C1]. destruct (B PB) as (v1 & B1 & S1 & V1). destruct (f PB) as [r1 c1] eqn:E1. cbn [fst snd] in *. rewrite B1. cbn [bind].
  destruct (set_phase pre _ m n Hpre Hout Hm Hn e0 v1 r1 c1 He0 R1 C1 S1) as (e1 & -> & He1 & W1). cbn [bind].
  destruct (Hf1 PGR) as [R2 C2]. destruct (B PGR) as (v2 & B2 & S2 & V2). destruct (f PGR) as [r2 c2] eqn:E2. cbn [fst snd] in *. rewrite B2. cbn [bind].
  destruct (set_phase pre _ m n Hpre Hout Hm Hn e1 v2 r2 c2 He1 R2 C2 S2) as (e2 & -> & He2 & W2). cbn [bind].
  destruct (Hf1 PGB) as [R3 C3]. destruct (B PGB) as (v3 & B3 & S3 & V3). destruct (f PGB) as [r3 c3] eqn:E3. cbn [fst snd] in *. rewrite B3. cbn [bind].
  destruct (set_phase pre _ m n Hpre Hout Hm Hn e2 v3 r3 c3 He2 R3 C3 S3) as (e3 & -> & He3 & W3). cbn [bind].
  exists e3. split; auto. split; auto. intros f' Ef q p o R S Vp Ho HR HS Hq. injection Ef as <-.
  assert (Lp := valid_length _ _ Vp).
  destruct (div2 m R HR) as [DR ER]. destruct (div2 n S HS) as [DS ES].
  assert (Ne : forall q', q' <> q -> (R mod 2 =? fst (f q')) && (S mod 2 =? snd (f q')) = false).
  { intros q' Hne. apply andb_false_iff. destruct (Z.eqb_spec (R mod 2) (fst (f q'))); auto.
    destruct (Z.eqb_spec (S mod 2) (snd (f q'))); auto. exfalso. apply Hne, Hf5. rewrite Hq.
    destruct (f q'); simpl in *; congruence. }
  rewrite W3, W2, W1, W0 by auto.
  pose proof (Ne PR) as N0. pose proof (Ne PB) as N1. pose proof (Ne PGR) as N2. pose proof (Ne PGB) as N3.
  rewrite E0 in N0. rewrite E1 in N1. rewrite E2 in N2. rewrite E3 in N3. cbn [fst snd] in *.
  destruct q; rewrite Hq in *.
  - rewrite N3, N2, N1 by congruence. injection E0 as <- <-. rewrite !Z.eqb_refl. cbn [andb]. rewrite V0 by auto. now rewrite <- ER, <- ES.
  - rewrite N3, N2 by congruence. injection E1 as <- <-. rewrite !Z.eqb_refl. cbn [andb]. rewrite V1 by auto. now rewrite <- ER, <- ES.
  - rewrite N3 by congruence. injection E2 as <- <-. rewrite !Z.eqb_refl. cbn [andb]. rewrite V2 by auto. now rewrite <- ER, <- ES.
  - injection E3 as <- <-. rewrite !Z.eqb_refl. cbn [andb]. rewrite V3 by auto. now rewrite <- ER, <- ES.
Qed.

(** forward succeeds exactly on 3-d and 4-d inputs with the right channels, nonempty and larger than half the kernel *)
Lemma branch_ok q r c v : r = 0 \/ r = 1 -> c = 0 \/ c = 1 -> bayer_branch M q r c x = Ok v ->
  bc_in M = C /\ (length pre <= 1)%nat /\ k / 2 - r < 2 * m /\ k / 2 - 1 + r < 2 * m /\ k / 2 - c < 2 * n /\ k / 2 - 1 + c < 2 * n /\ 1 <= m /\ 1 <= n.
Proof using Hs Hk.
  intros Hr Hc. unfold bayer_branch. destruct (bayer_pad k r c x) as [xp|] eqn:E; [|discriminate]. cbn [bind].
  assert (Sp : shp xp = pre ++ [C; 2 * m + 2 * (k / 2) - 1; 2 * n + 2 * (k / 2) - 1]).
  { clear - E Hs Hr Hc. unfold bayer_pad, reflection_pad2d in E. destruct (_ && _) in E; [|discriminate].
    apply (f_equal (fun r => match r with Ok t => shp t | Err _ => [] end)) in E. cbv beta iota in E. rewrite <- E. clear E.
    cbn [shp]. assert (N := ndim3 x _ _ _ _ Hs). rewrite Hs. rewrite l3_upd1, l3_upd2, l3_nth1, l3_nth2 by auto.
    do 2 f_equal. f_equal; [lia|]. f_equal. lia. }
  apply (bayer_pad_ok k r c x Hs xp Hk) in E.
  unfold conv2d. assert (N := ndim3 xp _ _ _ _ Sp). rewrite Sp.
  rewrite (l3_nth1 pre C _ _ 0 (ndim xp)), (l3_nth2 pre C _ _ 0 (ndim xp)), (l3_nth3 pre C _ _ 0 (ndim xp)) by auto.
  match goal with |- context [if ?b then _ else _] => destruct b eqn:B end; [|discriminate]. intros _.
  pose proof (Z.div_mod k 2 ltac:(lia)). pose proof (Z.mod_pos_bound k 2 ltac:(lia)).
  repeat match goal with H : _ && _ = true |- _ => apply andb_true_iff in H as [H ?] end. bdestr. lia.
Qed.
Lemma bayer_forward_ok junk y : bayer_forward junk M x s = Ok y ->
  bc_in M = C /\ (length pre <= 1)%nat /\ k / 2 < 2 * m /\ k / 2 < 2 * n /\ 1 <= m /\ 1 <= n.
Proof using Hs Hk Hsa Hv.
  unfold bayer_forward. rewrite (check_sensor_alignment_ok s sa Hsa Hv). cbn [bind].
  destruct (beg_index_spec sa Hsa) as (f & -> & Hf1 & _ & _ & _ & _ & Hf6). cbn [bind]. intros E.
  assert (B : forall r c, r = 0 \/ r = 1 -> c = 0 \/ c = 1 -> exists q v, bayer_branch M q r c x = Ok v).
  { intros r c Hr Hc. destruct (Hf6 r c Hr Hc) as [q Hq].
    destruct (foldM_ok_in _ _ _ _ q E) as (a' & b' & Hb). { destruct q; simpl; auto. }
    rewrite Hq in Hb. destruct (bayer_branch M q r c x) as [v|] eqn:Eb; [eauto|discriminate]. }
  destruct (B 0 0) as (q0 & v0 & B0); auto. destruct (B 1 1) as (q1 & v1 & B1); auto.
  apply branch_ok in B0; auto. apply branch_ok in B1; auto. lia.
Qed.
End One.
End BC.
