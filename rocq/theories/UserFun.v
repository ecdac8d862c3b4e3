(** Padder.forward with user-supplied padding functions (generic_pad.py:160-161). *)
From Verif Require Export PadSeq.

(** The half-open box from h to t lies inside the shape sh. *)
Definition box (h t sh : list Z) : Prop := length h = length sh /\ length t = length sh /\
  forall d, (d < length sh)%nat -> 0 <= nth d h 0 <= nth d t 0 /\ nth d t 0 <= nth d sh 0.
Definition inside (h t j : list Z) : Prop := forall d, (d < length j)%nat -> nth d h 0 <= nth d j 0 < nth d t 0.
(** On a line along axis a through the box. *)
Definition beside (a : nat) (h t j : list Z) : Prop :=
  forall d, (d < length j)%nat -> d <> a -> nth d h 0 <= nth d j 0 < nth d t 0.
(** A padding function that may write anywhere outside the box it is given, and nothing inside. *)
Definition keeps {F : ofield} (f : tensor F -> list slice -> nat -> res (tensor F)) : Prop :=
  forall y h t a, (a < ndim y)%nat -> box h t (shp y) -> nth a h 0 < nth a t 0 ->
  exists y', f y (map2 srng h t) a = Ok y' /\ shp y' = shp y /\
    forall j, valid (shp y) j -> inside h t j -> at_ y' j = at_ y j.
(** What it writes on the lines through the box along axis a is determined by the values in the box. *)
Definition determined {F : ofield} (f : tensor F -> list slice -> nat -> res (tensor F)) : Prop :=
  forall y1 y2 y1' y2' h t a, (a < ndim y1)%nat -> shp y1 = shp y2 -> box h t (shp y1) -> nth a h 0 < nth a t 0 ->
  (forall j, valid (shp y1) j -> inside h t j -> at_ y1 j = at_ y2 j) ->
  f y1 (map2 srng h t) a = Ok y1' -> f y2 (map2 srng h t) a = Ok y2' ->
  forall j, valid (shp y1) j -> beside a h t j -> at_ y1' j = at_ y2' j.
(** Parameters of an axis of length n: a built-in mode (not "zeros"), or a function that keeps the box. *)
Definition axis_fine_or_fun {F : ofield} (q : axis_params F) (n : Z) : Prop :=
  axis_fine F q n \/ (0 <= ap_before q /\ 0 <= ap_after q /\ 1 <= n /\ exists f, ap_mode q = MFun f /\ keeps f).

Section U.
Variable F : ofield.
Notation T := (tensor F).

Section Loop.
Variable NS : list Z.
Let nd := length NS.
Variable D : Prop.

(** What one call of a padding function guarantees on the buffers y1, y2. *)
Definition step_ok (pf : T -> list slice -> nat -> res T) (y1 y2 : T) h t a : Prop :=
  exists y1' y2', pf y1 (map2 srng h t) a = Ok y1' /\ pf y2 (map2 srng h t) a = Ok y2' /\ shp y1' = NS /\ shp y2' = NS /\
    (forall j, valid NS j -> inside h t j -> at_ y1' j = at_ y1 j) /\
    (forall j, valid NS j -> inside h t j -> at_ y2' j = at_ y2 j) /\
    (D -> (forall j, valid NS j -> inside h t j -> at_ y1 j = at_ y2 j) ->
       forall j, valid NS j -> beside a h t j -> at_ y1' j = at_ y2' j).

Lemma inside_reg h t j : valid NS j -> inside h t j <-> reg NS h t j.
Proof. intros V. pose proof (valid_length _ _ V) as L. unfold inside, reg. rewrite L. tauto. Qed.

Lemma pads_step pf (y1 y2 : T) h t a e : box h t NS -> (a < nd)%nat -> shp y1 = NS -> shp y2 = NS -> core F e ->
  (forall f g u, (forall v, 0 <= v < nth a t 0 - nth a h 0 -> f v = g v) ->
     e (nth a t 0 - nth a h 0) f u = e (nth a t 0 - nth a h 0) g u) ->
  pads F pf y1 (map2 srng h t) a (nth a h 0) (nth a t 0) e ->
  pads F pf y2 (map2 srng h t) a (nth a h 0) (nth a t 0) e -> step_ok pf y1 y2 h t a.
Proof.
  intros B Ha S1 S2 Ce He [y1' [E1 [T1 A1]]] [y2' [E2 [T2 A2]]]. rewrite S1 in T1, A1. rewrite S2 in T2, A2.
  pose proof B as [L1 [L2 B3]].
  assert (X : idxrep NS (map2 srng h t) h t) by (apply idxrep_srng; auto).
  exists y1', y2'. split; auto. split; auto. split; auto. split; auto.
  assert (K : forall (y y' : T), (forall j, valid NS j -> at_ y' j =
      if slabb NS (map2 srng h t) a j && ((0 <=? nth a j 0) && (nth a j 0 <? nth a NS 0))
      then Eof F e y a (nth a h 0) (nth a t 0 - nth a h 0) j (nth a j 0) else at_ y j) ->
    forall j, valid NS j -> inside h t j -> at_ y' j = at_ y j).
  { intros y y' A j V I. rewrite A by auto. destruct (_ && _) eqn:C; auto. unfold Eof.
    pose proof (valid_length _ _ V) as L. rewrite Ce by (specialize (I a ltac:(lia)); lia).
    unfold line. f_equal. replace (nth a h 0 + (nth a j 0 - nth a h 0)) with (nth a j 0) by lia. apply upd_nth. }
  split; [now apply K|]. split; [now apply K|].
  intros _ Eq j V I. pose proof (valid_length _ _ V) as L. rewrite A1, A2 by auto.
  assert (Sl : slabb NS (map2 srng h t) a j = true).
  { apply (slabb_reg NS (map2 srng h t) h t a j X Ha V). intros d Hd Hne.
    apply I; auto. unfold nd in *; lia. }
  rewrite Sl. pose proof (valid_nth _ _ a V Ha) as Va.
  destruct (Z.leb_spec 0 (nth a j 0)); [|lia]. destruct (Z.ltb_spec (nth a j 0) (nth a NS 0)); [|lia]. cbn [andb].
  unfold Eof. apply He. intros v Hv. unfold line. apply Eq.
  - apply valid_upd_in; auto. specialize (B3 a Ha). lia.
  - intros d Hd. rewrite upd_length in Hd. destruct (Nat.eq_dec d a) as [->|N].
    + rewrite nth_upd_eq by auto. lia.
    + rewrite nth_upd_ne by auto. auto.
Qed.

Lemma mode_step fuel (p : padder F) q r h t (y1 y2 : T) a : params p r = Some q -> (a < nd)%nat ->
  box h t NS -> shp y1 = NS -> shp y2 = NS -> nth a h 0 = ap_before q ->
  nth a NS 0 = nth a t 0 + step_after F q (nth a t 0 - nth a h 0) -> nth a NS 0 <= Z.of_nat fuel ->
  (ap_before q =? 0) && (ap_after q =? 0) = false -> is_empty_mode F (ap_mode q) = false ->
  axis_fine_or_fun q (nth a t 0 - nth a h 0) -> (D -> forall f, ap_mode q = MFun f -> determined f) ->
  exists cv ev sl pf, mode_params p (ap_mode q) (- Z.of_nat (S r)) = Ok (cv, ev, sl) /\
    pad_func_of fuel false (ap_mode q) cv ev sl = Ok pf /\ ap_mode q <> MZeros /\ step_ok pf y1 y2 h t a.
Proof.
  intros Hq Ha B S1 S2 Hh HN Hf Hz Hem Hfine Hdet. pose proof B as [L1 [L2 B3]]. pose proof (B3 a Ha) as Ba.
  assert (X : idxrep NS (map2 srng h t) h t) by (apply idxrep_srng; auto).
  unfold step_after in HN. rewrite Hz in HN.
  destruct Hfine as [[P1 [P2 [P3|[P3|[P3 [e He]]]]]]|[P1 [P2 [P3 [f [Hm Kf]]]]]]; try congruence.
  - destruct (mode_params_ok F p (ap_mode q) r q e Hq eq_refl He) as [cv [ev [sl [Hmp He']]]].
    assert (Hnz : ap_mode q <> MZeros) by (intros Q; rewrite Q in He; discriminate).
    assert (Hi : nth a (map2 srng h t) sfull = srng (nth a h 0) (nth a t 0)).
    { rewrite nth_map2 with (da := 0) (db := 0); auto; unfold nd in *; lia. }
    assert (G : forall y : T, shp y = NS -> exists pf, pad_func_of fuel false (ap_mode q) cv ev sl = Ok pf /\
       pads F pf y (map2 srng h t) a (nth a h 0) (nth a t 0) e).
    { intros y Sy. apply (mode_pads F fuel (ap_mode q) (ap_before q) (ap_after q) cv ev sl e y (map2 srng h t) a); auto; try lia.
      - rewrite Sy. eapply idxrep_wfi; eauto. - rewrite Sy. lia. - rewrite Sy. lia. }
    destruct (G y1 S1) as [pf [F1 Q1]]. destruct (G y2 S2) as [pf2 [F2 Q2]]. assert (pf2 = pf) by congruence. subst pf2.
    exists cv, ev, sl, pf. split; auto. split; auto. split; auto. apply (pads_step pf y1 y2 h t a e); auto.
    + eapply mode_ext_core; eauto.
    + intros g g' u Hg. eapply mode_ext_extl; eauto.
  - rewrite Hm. cbn [mode_params pad_func_of]. do 4 eexists. split; [reflexivity|]. split; [reflexivity|]. split; [discriminate|].
    unfold nd in Ha. assert (N1 : (a < ndim y1)%nat) by (unfold ndim; now rewrite S1). assert (N2 : (a < ndim y2)%nat) by (unfold ndim; now rewrite S2).
    destruct (Kf y1 h t a) as [y1' [E1 [T1 A1]]]; auto; try (rewrite S1; auto); try lia.
    destruct (Kf y2 h t a) as [y2' [E2 [T2 A2]]]; auto; try (rewrite S2; auto); try lia.
    rewrite S1 in T1, A1. rewrite S2 in T2, A2.
    exists y1', y2'. split; auto. split; auto. split; auto. split; auto. split; auto. split; auto.
    intros HD Eq. pose proof (Hdet HD f Hm y1 y2 y1' y2' h t a N1) as Df. rewrite S1, S2 in Df.
    apply Df; auto. lia.
Qed.

Lemma box_upd h t a : box h t NS -> (a < nd)%nat -> 0 <= nth a NS 0 -> box (upd a 0 h) (upd a (nth a NS 0) t) NS.
Proof.
  intros [L1 [L2 B]] Ha Hn. unfold nd in Ha. split; [now rewrite upd_length|]. split; [now rewrite upd_length|]. intros d Hd.
  destruct (Nat.eq_dec d a) as [->|N]; [rewrite !nth_upd_eq by lia; lia|rewrite !nth_upd_ne by auto; auto].
Qed.

Lemma fill_loop_two fuel (p : padder F) axes h0 t0 (g : list Z -> F) : box h0 t0 NS -> forall rest pre h t (y1 y2 : T),
  axes = map Z.of_nat (pre ++ rest) -> NoDup rest -> (forall a, In a rest -> (a < nd)%nat) ->
  box h t NS -> (forall d, (d < nd)%nat -> nth d h 0 <= nth d h0 0 /\ nth d t0 0 <= nth d t 0) -> shp y1 = NS -> shp y2 = NS ->
  (forall j, valid NS j -> inside h0 t0 j -> at_ y1 j = g j) -> (forall j, valid NS j -> inside h0 t0 j -> at_ y2 j = g j) ->
  (D -> forall j, valid NS j -> inside h t j -> at_ y1 j = at_ y2 j) ->
  pending F NS p h t rest -> (forall a, In a rest -> nth a NS 0 <= Z.of_nat fuel) ->
  (forall a q, axis_par p rest a = Some q -> axis_fine_or_fun q (nth a t 0 - nth a h 0)) ->
  (D -> forall a q f, axis_par p rest a = Some q -> ap_mode q = MFun f -> determined f) ->
  exists y1' y2' h' t', fill_loop fuel p y1 axes (negs (length rest)) (Idx (map2 srng h t)) = Ok y1' /\
    fill_loop fuel p y2 axes (negs (length rest)) (Idx (map2 srng h t)) = Ok y2' /\ shp y1' = NS /\ shp y2' = NS /\
    (forall j, valid NS j -> inside h0 t0 j -> at_ y1' j = g j) /\ (forall j, valid NS j -> inside h0 t0 j -> at_ y2' j = g j) /\
    (D -> forall j, valid NS j -> inside h' t' j -> at_ y1' j = at_ y2' j) /\
    (no_empty F p rest -> (forall d, (d < nd)%nat -> ~ In d rest -> nth d h 0 = 0 /\ nth d t 0 = nth d NS 0) ->
       forall d, (d < nd)%nat -> nth d h' 0 = 0 /\ nth d t' 0 = nth d NS 0).
Proof.
  intros B0. induction rest as [|a rest IH]; intros pre h t y1 y2 Hax Hnd Hlt B Hle S1 S2 K1 K2 R Hpend Hfuel Hfine Hdet.
  { cbn. exists y1, y2, h, t. do 7 (split; [auto|]). all: intros _ Hc d Hd; apply Hc; auto. }
  apply NoDup_cons_iff in Hnd. destruct Hnd as [H1 H2]. subst axes. destruct Hpend as [[q [Hq [Hha HNa]]] Hpend].
  pose proof (Hlt a (or_introl eq_refl)) as Ha. destruct (params_get F _ _ _ Hq) as [G1 [G2 _]].
  assert (Hax' : map Z.of_nat (pre ++ a :: rest) = map Z.of_nat ((pre ++ [a]) ++ rest)) by now rewrite <- app_assoc.
  assert (Hqa : axis_par p (a :: rest) a = Some q) by (cbn [axis_par]; now rewrite Nat.eqb_refl).
  assert (Hoth : forall b qb, axis_par p rest b = Some qb -> b <> a /\ axis_par p (a :: rest) b = Some qb).
  { intros b qb Hb. assert (b <> a). { intros ->. rewrite axis_par_notin in Hb; auto. discriminate. }
    split; auto. cbn [axis_par]. destruct (Nat.eqb_spec b a); auto. contradiction. }
  pose proof B as [L1 [L2 B3]]. pose proof (B3 a Ha) as Ba.
  cbn [negs length fill_loop]. rewrite pyidx_app_axis. cbn [bind]. rewrite G1. cbn [bind fst snd].
  assert (N1 : ndim y1 = nd) by (unfold ndim, nd; now rewrite S1). assert (N2 : ndim y2 = nd) by (unfold ndim, nd; now rewrite S2).
  assert (Skip : exists y1' y2' h' t', fill_loop fuel p y1 (map Z.of_nat (pre ++ a :: rest)) (negs (length rest)) (Idx (map2 srng h t)) = Ok y1' /\
    fill_loop fuel p y2 (map Z.of_nat (pre ++ a :: rest)) (negs (length rest)) (Idx (map2 srng h t)) = Ok y2' /\ shp y1' = NS /\ shp y2' = NS /\
    (forall j, valid NS j -> inside h0 t0 j -> at_ y1' j = g j) /\ (forall j, valid NS j -> inside h0 t0 j -> at_ y2' j = g j) /\
    (D -> forall j, valid NS j -> inside h' t' j -> at_ y1' j = at_ y2' j) /\
    (no_empty F p rest -> (forall d, (d < nd)%nat -> ~ In d rest -> nth d h 0 = 0 /\ nth d t 0 = nth d NS 0) ->
       forall d, (d < nd)%nat -> nth d h' 0 = 0 /\ nth d t' 0 = nth d NS 0)).
  { apply (IH (pre ++ [a])); auto.
    - intros b Hb. apply Hlt. now right.
    - intros b Hb. apply Hfuel. now right.
    - intros b qb Hb. apply Hfine. now apply Hoth.
    - intros HD b qb f Hb. apply (Hdet HD b qb f). now apply Hoth. }
  destruct ((ap_before q =? 0) && (ap_after q =? 0)) eqn:Hz.
  - destruct Skip as [y1' [y2' [h' [t' [E1 [E2 [E3 [E4 [E5 [E6 [E7 E8]]]]]]]]]]]. exists y1', y2', h', t'. do 7 (split; [assumption|]).
    all: intros [_ Hem] Hc d Hd; apply E8; auto; intros d' Hd' Hn'; destruct (Nat.eq_dec d' a) as [->|N]; [|apply Hc; auto; intros [|]; auto].
    all: unfold step_after in HNa; rewrite Hz in HNa; bdestr; lia.
  - rewrite N1, N2, axis_nat_ok by auto. rewrite ?of_nat_neg. cbn [bind].
    destruct (is_empty_mode F (ap_mode q)) eqn:Hem.
    + rewrite !(fill_value_empty F fuel p q (length rest)) by auto. cbn [bind fst snd].
      destruct Skip as [y1' [y2' [h' [t' [E1 [E2 [E3 [E4 [E5 [E6 [E7 E8]]]]]]]]]]]. exists y1', y2', h', t'. do 7 (split; [assumption|]).
      all: intros [Hem' _]; specialize (Hem' q Hq Hz); congruence.
    + destruct (mode_step fuel p q (length rest) h t y1 y2 a) as [cv [ev [sl [pf [M1 [M2 [M3 [z1 [z2 [Z1 [Z2 [Z3 [Z4 [Z5 [Z6 Z7]]]]]]]]]]]]]]]; auto.
      { apply Hfuel. now left. } { intros HD f Hf. eapply Hdet; eauto. }
      assert (E : forall (y y' : T), pf y (map2 srng h t) a = Ok y' -> fill_value_1d fuel false p y (- Z.of_nat (S (length rest))) a (Idx (map2 srng h t)) =
          Ok (y', Idx (map2 srng (upd a 0 h) (upd a (nth a NS 0) t)))).
      { intros y y' Hy. unfold fill_value_1d. rewrite G1. cbn [bind fst snd]. rewrite Hz, G2. cbn [bind].
        rewrite mode_match_fill by auto. rewrite M1. cbn [bind]. rewrite M2. cbn [bind]. rewrite Hy. cbn [bind].
        rewrite (head_tail_nth (map2 srng h t) a (nth a h 0) (nth a t 0)).
        2: { rewrite map2_length_eq; unfold nd in *; lia. } 2: { rewrite nth_map2 with (da := 0) (db := 0); auto; unfold nd in *; lia. }
        cbn [bind]. unfold modify_idx. rewrite map2_upd. do 4 f_equal. apply f_equal2; [lia|].
        unfold step_after in HNa. rewrite Hz in HNa. rewrite HNa. destruct (ap_mode q); cbn [is_periodize parity_slot]; lia. }
      rewrite (E y1 z1 Z1), (E y2 z2 Z2). cbn [bind fst snd].
      assert (Hfull : forall j, valid NS j -> inside (upd a 0 h) (upd a (nth a NS 0) t) j -> beside a h t j).
      { intros j V I d Hd N. specialize (I d Hd). now rewrite !nth_upd_ne in I by auto. }
      assert (Hsub : forall j, valid NS j -> inside h0 t0 j -> inside h t j).
      { intros j V I d Hd. specialize (I d Hd). pose proof (valid_length _ _ V) as Lj. specialize (Hle d ltac:(unfold nd; lia)). lia. }
      assert (HN0 : 0 <= nth a NS 0) by lia.
      destruct (IH (pre ++ [a]) (upd a 0 h) (upd a (nth a NS 0) t) z1 z2) as [y1' [y2' [h' [t' [E1 [E2 [E3 [E4 [E5 [E6 [E7 E8]]]]]]]]]]]; auto.
      * intros b Hb. apply Hlt. now right.
      * now apply box_upd.
      * intros d Hd. specialize (Hle d Hd). destruct B0 as [_ [_ B0]]. specialize (B0 d Hd). unfold nd in *.
        destruct (Nat.eq_dec d a) as [->|N]; [rewrite !nth_upd_eq by lia; lia|rewrite !nth_upd_ne by auto; auto].
      * intros j V I. rewrite Z5 by auto. auto.
      * intros j V I. rewrite Z6 by auto. auto.
      * apply pending_upd; auto.
      * intros b Hb. apply Hfuel. now right.
      * intros b qb Hb. destruct (Hoth b qb Hb) as [N Hb']. rewrite !nth_upd_ne by auto. auto.
      * intros HD b qb f Hb. apply (Hdet HD b qb f). now apply Hoth.
      * exists y1', y2', h', t'. do 7 (split; [assumption|]).
        all: intros [_ Hem'] Hc d Hd; apply E8; auto; intros d' Hd' Hn'; unfold nd in *;
          destruct (Nat.eq_dec d' a) as [->|N]; [rewrite !nth_upd_eq by lia; lia|rewrite !nth_upd_ne by auto; apply Hc; auto; intros [|]; auto].
Qed.
End Loop.

Lemma user_params_ok (p : padder F) (x : T) al : NoDup al ->
  (forall a, In a (last_axes p al) -> exists q, axis_par p (last_axes p al) a = Some q /\ axis_fine_or_fun q (nth a (shp x) 0)) -> params_ok F p al.
Proof.
  intros Hn H r Hr. pose proof (last_axes_nodup F p al Hn) as Hd. set (rest := last_axes p al) in *.
  assert (E : exists l1 a l2, rest = l1 ++ a :: l2 /\ length l2 = r).
  { assert (Hk : (length rest - 1 - r < length rest)%nat) by lia. destruct (nth_split rest 0%nat Hk) as [l1 [l2 [E L]]].
    exists l1, (nth (length rest - 1 - r) rest 0%nat), l2. split; auto. apply (f_equal (@length nat)) in E. rewrite app_length in E. cbn [length] in E. lia. }
  destruct E as [l1 [a [l2 [E L]]]]. destruct (H a) as [q [Hq Hf]]. { rewrite E. apply in_app_iff. right. now left. }
  rewrite E in Hq, Hd. apply NoDup_remove_2 in Hd. rewrite axis_par_in in Hq by (rewrite in_app_iff in Hd; tauto). rewrite L in Hq.
  exists q. split; auto. destruct Hf as [[P1 [P2 _]]|[P1 [P2 _]]]; auto.
Qed.

Definition all_fine_or_fun (p : padder F) (x : T) al : Prop :=
  forall a, In a (last_axes p al) -> exists q, axis_par p (last_axes p al) a = Some q /\ axis_fine_or_fun q (nth a (shp x) 0).

Lemma user_two (D : Prop) fuel junk1 junk2 (p : padder F) (x : T) ax al : pad_call fuel p x ax al -> all_fine_or_fun p x al ->
  (D -> (forall a q f, axis_par p (last_axes p al) a = Some q -> ap_mode q = MFun f -> determined f) /\
        (forall a q, axis_par p (last_axes p al) a = Some q -> is_empty_mode F (ap_mode q) = false)) ->
  exists y1 y2, padder_forward fuel junk1 p x ax = Ok y1 /\ padder_forward fuel junk2 p x ax = Ok y2 /\
    shp y1 = full_shape p al (shp x) /\ shp y2 = shp y1 /\
    (forall i, valid (shp x) i ->
      at_ y1 (map (fun d => nth d i 0 + match axis_par p (last_axes p al) d with Some q => ap_before q | None => 0 end)
                 (seq 0 (ndim x))) = at_ x i) /\
    (D -> teq y1 y2).
Proof.
  intros PC Hf HD. pose proof PC as [Hnd Hsh Hax Hlt Hdup Hfuel]. pose proof (user_params_ok p x al Hdup Hf) as Hpar.
  destruct (forward_setup F fuel junk1 p x ax al Hnd Hsh Hax Hlt Hdup Hpar) as [X [LNS [Ht [Hp [H0 [y1 [S1 [A1 [_ F1]]]]]]]]].
  destruct (forward_setup F fuel junk2 p x ax al Hnd Hsh Hax Hlt Hdup Hpar) as [_ [_ [_ [_ [_ [y2 [S2 [A2 [_ F2]]]]]]]]].
  pose proof (out_shape_full F p x al Hdup) as EF. set (NS := out_shape p (shp x) al) in *.
  set (h := heads F p x al) in *. set (t := tails F p x al) in *. set (rest := last_axes p al) in *.
  assert (Hdr : NoDup rest) by (apply last_axes_nodup; auto).
  assert (Hb : forall d, (d < ndim x)%nat -> match axis_par p rest d with Some q => ap_before q | None => 0 end = nth d h 0).
  { intros d Hd. unfold h, heads. fold rest. rewrite widths_before_par; auto.
    intros r Hr. destruct (Hpar r Hr) as [q [E _]]. congruence. }
  pose proof X as [L [L1 [L2 XB]]].
  assert (B : box h t NS). { split; auto. split; auto. intros d Hd. apply XB. auto. }
  rewrite F1, F2. destruct (list_eqb (shp x) NS) eqn:Eq.
  - apply list_eqb_eq in Eq. exists x, x. split; auto. split; auto. split; [congruence|]. split; auto. split; [|intros; apply teq_refl].
    intros i V. f_equal. apply list_ext with (d := 0); [rewrite map_length, seq_length; symmetry; now apply valid_length|].
    rewrite map_length, seq_length. intros d Hd. rewrite nth_map_seq by auto. rewrite Hb by auto.
    destruct B as [_ [_ B]]. specialize (B d ltac:(lia)). specialize (Ht d Hd). rewrite <- Eq in B. lia.
  - destruct (last_axes_suffix F p al) as [pre Hpre]. fold rest in Hpre.
    destruct (fill_loop_two NS D fuel p (map Z.of_nat al) h t (fun j => at_ x (map2 Z.sub j h)) B rest pre h t y1 y2)
      as [z1 [z2 [h' [t' [E1 [E2 [E3 [E4 [E5 [E6 [E7 E8]]]]]]]]]]]; auto.
    { now rewrite <- Hpre. } { intros a Ha. rewrite LNS. apply Hlt. eapply last_axes_in; eauto. }
    { intros; lia. }
    { intros j V I. apply A1. now apply inside_reg. } { intros j V I. apply A2. now apply inside_reg. }
    { intros _ j V I. rewrite A1, A2 by (now apply inside_reg). reflexivity. }
    { intros a Ha. apply Hfuel. apply Hlt. eapply last_axes_in; eauto. }
    { intros a q Hq. pose proof (axis_par_some_in F p rest a q Hq) as Ha. destruct (Hf a Ha) as [q' [Hq' Q]]. fold rest in Hq'.
      assert (q' = q) by congruence. subst q'. rewrite Ht by (apply Hlt; eapply last_axes_in; eauto).
      replace (nth a h 0 + nth a (shp x) 0 - nth a h 0) with (nth a (shp x) 0) by lia. exact Q. }
    { intros d a q f. apply (HD d). }
    exists z1, z2. split; auto. split; auto. split; [congruence|]. split; [congruence|]. split.
    + intros i V. pose proof (valid_length _ _ V) as Li. fold (ndim x) in Li.
      set (j := map (fun d => nth d i 0 + match axis_par p rest d with Some q => ap_before q | None => 0 end) (seq 0 (ndim x))).
      assert (Nj : forall d, (d < ndim x)%nat -> nth d j 0 = nth d i 0 + nth d h 0).
      { intros d Hd. unfold j. rewrite nth_map_seq by auto. now rewrite Hb. }
      assert (Lj : length j = ndim x) by (unfold j; now rewrite map_length, seq_length).
      assert (Bj : forall d, (d < ndim x)%nat -> nth d h 0 <= nth d j 0 < nth d t 0).
      { intros d Hd. rewrite Nj, Ht by auto. pose proof (valid_nth _ _ d V Hd). lia. }
      assert (Vj : valid NS j). { apply valid_iff. split; [congruence|]. intros d Hd. rewrite LNS in Hd. specialize (Bj d Hd).
        destruct B as [_ [_ B]]. specialize (B d ltac:(lia)). lia. }
      rewrite E5 by (auto; intros d Hd; apply Bj; lia). f_equal. apply list_ext with (d := 0); [rewrite map2_length_eq; lia|].
      rewrite map2_length_eq by lia. intros d Hd. rewrite nth_map2 with (da := 0) (db := 0) by lia. rewrite Nj by lia. lia.
    + intros HDD. destruct (HD HDD) as [_ He]. split; [congruence|]. rewrite E3. intros j V. apply E7; auto.
      assert (Hne : no_empty F p rest) by (apply (no_empty_by_par F p rest Hdr); intros a q _ Hq; eapply He; eauto).
      pose proof (valid_length _ _ V) as Lj. intros d Hd. destruct E8 with (d := d) as [Q1 Q2]; auto.
      * intros d' Hd' Hn'. rewrite LNS in Hd'. split; [now apply H0|]. rewrite Ht by auto. rewrite H0 by auto.
        unfold NS. rewrite (out_shape_par F p) by auto. fold rest. rewrite axis_par_notin by auto. lia.
      * lia.
      * rewrite Q1, Q2. apply valid_nth; auto. lia.
Qed.

Theorem user_block fuel junk (p : padder F) (x : T) ax al : pad_call fuel p x ax al -> all_fine_or_fun p x al ->
  exists y, padder_forward fuel junk p x ax = Ok y /\ shp y = full_shape p al (shp x) /\
    forall i, valid (shp x) i ->
      at_ y (map (fun d => nth d i 0 + match axis_par p (last_axes p al) d with Some q => ap_before q | None => 0 end)
                 (seq 0 (ndim x))) = at_ x i.
Proof.
  intros PC Hf. destruct (user_two False fuel junk junk p x ax al PC Hf) as [y [_ [H1 [_ [H2 [_ [H3 _]]]]]]]; [tauto|]. eauto.
Qed.
Theorem user_no_junk fuel junk1 junk2 (p : padder F) (x : T) ax al : pad_call fuel p x ax al -> all_fine_or_fun p x al ->
  (forall a q, axis_par p (last_axes p al) a = Some q -> is_empty_mode F (ap_mode q) = false) ->
  (forall a q f, axis_par p (last_axes p al) a = Some q -> ap_mode q = MFun f -> determined f) ->
  exists y1 y2, padder_forward fuel junk1 p x ax = Ok y1 /\ padder_forward fuel junk2 p x ax = Ok y2 /\ teq y1 y2.
Proof.
  intros PC Hf He Hd. destruct (user_two True fuel junk1 junk2 p x ax al PC Hf) as [y1 [y2 [H1 [H2 [_ [_ [_ H3]]]]]]]; [auto|]. eauto 6.
Qed.

(** ** A function that extends lines *)
Definition extends (f : T -> list slice -> nat -> res T) (e : Z -> (Z -> F) -> Z -> F) : Prop :=
  forall y h t a, (a < ndim y)%nat -> box h t (shp y) -> nth a h 0 < nth a t 0 ->
  exists y', f y (map2 srng h t) a = Ok y' /\ shp y' = shp y /\
    forall j, valid (shp y) j -> beside a h t j ->
      at_ y' j = e (nth a t 0 - nth a h 0) (fun u => at_ y (upd a (nth a h 0 + u) j)) (nth a j 0 - nth a h 0).

Theorem user_one_axis fuel junk (p : padder F) (x : T) ax a q f e : pad_call fuel p x ax [a] -> params p 0 = Some q ->
  0 <= ap_before q -> 0 <= ap_after q -> 0 < ap_before q + ap_after q -> 1 <= nth a (shp x) 0 ->
  ap_mode q = MFun f -> extends f e ->
  (forall n g g' t, (forall u, 0 <= u < n -> g u = g' u) -> e n g t = e n g' t) ->
  exists y, padder_forward fuel junk p x ax = Ok y /\ shp y = upd a (ap_before q + nth a (shp x) 0 + ap_after q) (shp x) /\
    forall j, valid (shp y) j -> at_ y j = e (nth a (shp x) 0) (fun u => at_ x (upd a u j)) (nth a j 0 - ap_before q).
Proof.
  intros PC Hq P1 P2 P3 Hn Hm Ef Ee. pose proof PC as [Hnd Hsh Hax Hlt Hdup Hfuel].
  assert (Ha : (a < ndim x)%nat) by (apply Hlt; now left).
  assert (LA : last_axes p [a] = [a]) by apply last_axes_single.
  assert (Hpar : params_ok F p [a]). { intros r Hr. rewrite LA in Hr. cbn in Hr. assert (r = 0)%nat by lia. subst r. eauto. }
  destruct (forward_setup F fuel junk p x ax [a] Hnd Hsh Hax Hlt Hdup Hpar) as [X [LNS [Ht [Hp [H0 [y0 [S1 [A1 [_ F1]]]]]]]]].
  rewrite (out_shape_single F p (shp x) a q Ha Hq) in *.
  assert (Hz : (ap_before q =? 0) && (ap_after q =? 0) = false).
  { apply andb_false_iff. destruct (Z.eqb_spec (ap_before q) 0); [right; apply Z.eqb_neq; lia|now left]. }
  assert (Es : step_after F q (nth a (shp x) 0) = ap_after q) by (unfold step_after; rewrite Hz, Hm; cbn; lia).
  rewrite Es in *. set (NS := upd a (ap_before q + nth a (shp x) 0 + ap_after q) (shp x)) in *.
  set (h := heads F p x [a]) in *. set (t := tails F p x [a]) in *. rewrite LA in *. destruct Hp as [[q' [Hq' [Hh HN]]] _].
  cbn [length] in Hq'. assert (q' = q) by congruence. subst q'.
  rewrite F1. destruct (list_eqb (shp x) NS) eqn:Eq.
  { apply list_eqb_eq in Eq. exfalso. apply (f_equal (fun l => nth a l 0)) in Eq. unfold NS in Eq. rewrite nth_upd_eq in Eq by exact Ha. lia. }
  pose proof X as [L [L1 [L2 XB]]]. assert (B : box h t NS). { split; auto. split; auto. intros d Hd. apply XB. auto. }
  assert (N0 : ndim y0 = ndim x) by (unfold ndim at 1; now rewrite S1).
  pose proof (Ht a Ha) as Hta.
  destruct (Ef y0 h t a) as [y [E1 [E2 E3]]]; [lia|now rewrite S1|lia|].
  destruct (params_get F _ _ _ Hq) as [G1 [G2 _]].
  exists y. split.
  - cbn [map length negs fill_loop pyidx]. change (pyidx [Z.of_nat a] (- Z.of_nat 1)) with (Ok (Z.of_nat a)). cbn [bind].
    rewrite G1. cbn [bind fst snd]. rewrite Hz, N0, axis_nat_ok by auto. rewrite ?of_nat_neg. cbn [bind]. unfold fill_value_1d. rewrite G1. cbn [bind fst snd]. rewrite Hz, G2, Hm.
    cbn [bind mode_params pad_func_of]. rewrite E1. cbn [bind]. rewrite (head_tail_nth (map2 srng h t) a (nth a h 0) (nth a t 0)).
    2: { rewrite map2_length_eq; lia. } 2: { rewrite nth_map2 with (da := 0) (db := 0); auto; lia. }
    reflexivity.
  - split; [congruence|]. rewrite E2, S1. rewrite S1 in E3. intros j V. pose proof (valid_length _ _ V) as Lj.
    assert (Bj : beside a h t j).
    { intros d Hd N. rewrite Lj, LNS in Hd. rewrite Ht by auto. rewrite H0 by (intros [|[]]; auto). pose proof (valid_nth _ _ d V ltac:(lia)) as Vd.
      unfold NS in Vd. rewrite nth_upd_ne in Vd by auto. lia. }
    rewrite E3 by auto. rewrite Hta, Hh. replace (ap_before q + nth a (shp x) 0 - ap_before q) with (nth a (shp x) 0) by lia.
    apply Ee. intros u Hu. rewrite A1.
    + f_equal. apply list_ext with (d := 0); [rewrite map2_length_eq; rewrite !upd_length; lia|]. rewrite map2_length_eq by (rewrite upd_length; lia).
      rewrite upd_length. intros d Hd. rewrite nth_map2 with (da := 0) (db := 0) by (rewrite ?upd_length; lia).
      destruct (Nat.eq_dec d a) as [->|N]; [rewrite !nth_upd_eq by lia; lia|rewrite !nth_upd_ne by auto]. rewrite H0 by (intros [|[]]; auto). lia.
    + split; [rewrite upd_length; lia|]. intros d Hd. destruct (Nat.eq_dec d a) as [->|N]; [rewrite nth_upd_eq by lia; lia|]. rewrite nth_upd_ne by auto. apply Bj; auto. lia.
Qed.
End U.
