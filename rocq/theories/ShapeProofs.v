(** shapes/conv_like.py: counting windows and original elements (C25-C27). *)
From Verif Require Export PoolModel TensorLemmas FieldLemmas PadUtilProofs.
Open Scope Z_scope.

(** Number of the positions 0..n-1 of the original that window j (of size k, stride s) sees when
    pb elements are put before it. *)
Definition seen (n pb k s j : Z) : Z :=
  Z.of_nat (length (filter (fun e => (j * s <=? pb + e) && (pb + e <? j * s + k)) (zrange n))).

Lemma filter_none {A} (f : A -> bool) l : (forall a, In a l -> f a = false) -> filter f l = [].
Proof.
  induction l as [|a l IH]; simpl; intros H; auto. rewrite (H a) by auto. apply IH. auto.
Qed.
Lemma filter_all {A} (f : A -> bool) l : (forall a, In a l -> f a = true) -> filter f l = l.
Proof.
  induction l as [|a l IH]; simpl; intros H; auto. rewrite (H a) by auto. f_equal. apply IH. auto.
Qed.
Lemma filter_zseq lo hi a n : 0 <= lo - a <= hi - a -> hi - a <= Z.of_nat n ->
  length (filter (fun e => (lo <=? e) && (e <? hi)) (zseq a n)) = Z.to_nat (hi - lo).
Proof.
  intros H1 H2. replace n with (Z.to_nat (lo - a) + (Z.to_nat (hi - lo) + Z.to_nat (Z.of_nat n - (hi - a))))%nat by lia.
  rewrite !zseq_app, !filter_app, !app_length.
  rewrite (filter_none _ (zseq a _)), (filter_all _ (zseq _ (Z.to_nat (hi - lo)))), (filter_none _ (zseq _ (Z.to_nat (_ - (hi - a))))).
  - rewrite zseq_length. simpl. lia.
  - intros e He. apply In_zseq in He. destruct (Z.leb_spec lo e); destruct (Z.ltb_spec e hi); auto; lia.
  - intros e He. apply In_zseq in He. destruct (Z.leb_spec lo e); destruct (Z.ltb_spec e hi); auto; lia.
  - intros e He. apply In_zseq in He. destruct (Z.leb_spec lo e); destruct (Z.ltb_spec e hi); auto; lia.
Qed.
Lemma seen_formula n pb k s j : 0 <= n -> 0 <= k ->
  seen n pb k s j = Z.max 0 (Z.min (j * s + k) (pb + n) - Z.max (j * s) pb).
Proof.
  intros Hn Hk. unfold seen.
  rewrite (filter_ext _ (fun e => (j * s - pb <=? e) && (e <? j * s - pb + k))).
  2:{ intros e. destruct (Z.leb_spec (j * s) (pb + e)); destruct (Z.leb_spec (j * s - pb) e);
      destruct (Z.ltb_spec (pb + e) (j * s + k)); destruct (Z.ltb_spec e (j * s - pb + k)); auto; lia. }
  set (lo := j * s - pb). replace (Z.max 0 _) with (Z.max 0 (Z.min (lo + k) n - Z.max lo 0)) by lia.
  clearbody lo. destruct (Z_lt_le_dec (Z.min (lo + k) n) (Z.max lo 0)).
  - rewrite filter_none; [simpl; lia|]. intros e He. apply In_zrange in He.
    destruct (Z.leb_spec lo e); destruct (Z.ltb_spec e (lo + k)); auto; lia.
  - unfold zrange.
    rewrite (filter_ext_in _ (fun e => (Z.max lo 0 <=? e) && (e <? Z.min (lo + k) n))).
    + rewrite filter_zseq by lia. lia.
    + intros e He. apply In_zseq in He. destruct (Z.leb_spec lo e); destruct (Z.leb_spec (Z.max lo 0) e);
      destruct (Z.ltb_spec e (lo + k)); destruct (Z.ltb_spec e (Z.min (lo + k) n)); auto; lia.
Qed.

(** A list segment whose entries are the counts of windows p, p+1, ... *)
Definition good (n pb k s p : Z) (l : list Z) : Prop :=
  forall i, 0 <= i < Z.of_nat (length l) ->
    nth (Z.to_nat i) l 0 = Z.max 0 (Z.min k (pb - s * (p + i) + n) - Z.max 0 (pb - s * (p + i))).
Lemma good_app n pb k s p l1 l2 : good n pb k s p l1 -> good n pb k s (p + Z.of_nat (length l1)) l2 ->
  good n pb k s p (l1 ++ l2).
Proof.
  intros H1 H2 i Hi. rewrite app_length in Hi. destruct (Z_lt_le_dec i (Z.of_nat (length l1))).
  - rewrite app_nth1 by lia. apply H1. lia.
  - rewrite app_nth2 by lia.
    replace (Z.to_nat i - length l1)%nat with (Z.to_nat (i - Z.of_nat (length l1))) by lia.
    rewrite H2 by lia.
    replace (p + Z.of_nat (length l1) + (i - Z.of_nat (length l1))) with (p + i) by lia. reflexivity.
Qed.
Lemma good_const n pb k s p v m : 
  (forall i, 0 <= i < m -> v = Z.max 0 (Z.min k (pb - s * (p + i) + n) - Z.max 0 (pb - s * (p + i)))) ->
  good n pb k s p (zrepeat v m).
Proof.
  intros H i Hi. unfold zrepeat in *. rewrite repeat_length in Hi.
  rewrite nth_indep with (d' := v) by (rewrite repeat_length; lia). rewrite nth_repeat. apply H. lia.
Qed.

Lemma rising_spec k s : forall m pb, 
  length (fst (rising m k s pb)) = m /\ snd (rising m k s pb) = pb - s * Z.of_nat m /\
  forall i, (i < m)%nat -> nth i (fst (rising m k s pb)) 0 = k - (pb - s * Z.of_nat i).
Proof.
  induction m as [|m IH]; intros pb; cbn [rising].
  - cbn. split; [auto|]. split; [lia|]. intros; lia.
  - specialize (IH (pb - s)). destruct (rising m k s (pb - s)) as [l q]. cbn [fst snd] in *.
    destruct IH as [H1 [H2 H3]]. split; [cbn; lia|]. split; [lia|]. intros [|i] Hi; cbn [nth]; [lia|].
    rewrite H3 by lia. lia.
Qed.
Lemma plateau_spec n s : 1 <= s -> forall fuel pb, pb <= Z.of_nat fuel ->
  exists m, plateau fuel n s pb = Ok (zrepeat n m, pb - s * m) /\ 0 <= m /\ pb - s * m <= 0 /\
    (forall i, 0 <= i < m -> 0 < pb - s * i) /\ (pb <= 0 -> m = 0).
Proof.
  intros Hs. induction fuel as [|fuel IH]; intros pb Hf; cbn [plateau].
  - destruct (Z.ltb_spec 0 pb); [lia|]. exists 0. replace (pb - s * 0) with pb by lia. repeat split; auto; lia.
  - destruct (Z.ltb_spec 0 pb).
    + destruct (IH (pb - s)) as [m [E [H1 [H2 [H3 H4]]]]]; [lia|]. exists (m + 1). rewrite E. cbn [bind fst snd].
      split; [|split; [lia|]]. 
      * unfold zrepeat. replace (Z.to_nat (m + 1)) with (S (Z.to_nat m)) by lia. simpl repeat.
        replace (pb - s - s * m) with (pb - s * (m + 1)) by lia. reflexivity.
      * split; [lia|]. split; [|lia]. intros i Hi. destruct (Z.eq_dec i 0); [subst; lia|].
        specialize (H3 (i - 1)). lia.
    + exists 0. replace (pb - s * 0) with pb by lia. repeat split; auto; lia.
Qed.

Lemma div_bounds a s : 1 <= s -> s * (a / s) <= a < s * (a / s) + s.
Proof. intros. pose proof (Z.mul_div_le a s). pose proof (Z.mul_succ_div_gt a s). lia. Qed.

Theorem n_original_1d_spec n pb pa k s : 0 <= n -> 0 <= pb -> 0 <= pa -> 1 <= k -> 1 <= s ->
  k <= n + pb + pa ->
  exists l, n_original_elements_1d n (pb, pa) k s = Ok l /\
    Z.of_nat (length l) = (n + pb + pa - k) / s + 1 /\
    forall j, 0 <= j < Z.of_nat (length l) -> nth (Z.to_nat j) l 0 = seen n pb k s j.
Proof.
  intros Hn Hpb Hpa Hk Hs HN. unfold n_original_elements_1d, conv_1d.
  destruct (Z.eqb_spec s 0); [lia|]. cbn [bind].
  replace (n + pb + pa - 1 * (k - 1) - 1) with (n + pb + pa - k) by lia.
  set (out := (n + pb + pa - k) / s + 1).
  assert (Hout : 1 <= out). { unfold out. pose proof (Z.div_pos (n + pb + pa - k) s). lia. }
  destruct (Z.ltb_spec (pb + pa + n) k); [lia|].
  (* leading zeros *)
  set (st0 := if k <? pb then _ else _).
  assert (S0 : exists p0 l0, st0 = (l0, pb - s * p0) /\ p0 = Z.of_nat (length l0) /\
     good n pb k s 0 l0 /\ pb - s * p0 <= k /\ 1 - s <= pb - s * p0).
  { unfold st0. destruct (Z.ltb_spec k pb).
    - pose proof (div_bounds (pb - k) s Hs). pose proof (Z.div_mod (pb - k) s ltac:(lia)).
      pose proof (Z.div_pos (pb - k) s ltac:(lia) ltac:(lia)).
      exists ((pb - k) / s + 1), (zrepeat 0 ((pb - k) / s + 1)). split; [|split; [|split; [|split]]].
      + f_equal. rewrite (Z.mod_eq (pb - k) s) by lia. lia.
      + unfold zrepeat. rewrite repeat_length. lia.
      + apply good_const. intros i Hi. assert (s * i <= s * ((pb - k) / s)) by (apply Z.mul_le_mono_nonneg_l; lia). lia.
      + lia.
      + lia.
    - exists 0, []. replace (pb - s * 0) with pb by lia. split; auto. split; auto. split; [intros i Hi; simpl in Hi; lia|]. lia. }
  destruct S0 as [p0 [l0 [-> [Hp0 [G0 [C1 C2]]]]]].
  set (c0 := pb - s * p0) in *.
  set (nrm := (c0 + n - k) / s + 1). set (nr := Z.min nrm (c0 / s + 1)).
  pose proof (rising_spec k s (Z.to_nat nr) c0) as [R1 [R2 R3]].
  destruct (rising (Z.to_nat nr) k s c0) as [l1 c1]. cbn [fst snd] in R1, R2, R3. subst c1.
  pose proof (div_bounds (c0 + n - k) s Hs) as D1. pose proof (div_bounds c0 s Hs) as D2.
  assert (D3 : -1 <= c0 / s). { apply Z.div_le_lower_bound; lia. }
  set (ns := Z.max (nrm - nr) 0).
  set (p1 := p0 + Z.max nr 0). set (p2 := p1 + ns).
  replace (c0 - s * Z.of_nat (Z.to_nat nr) - s * ns) with (pb - s * p2).
  2:{ unfold p2, p1, c0. replace (Z.of_nat (Z.to_nat nr)) with (Z.max nr 0) by lia. ring. }
  destruct (plateau_spec n s Hs (Z.to_nat (pb - s * p2)) (pb - s * p2)) as [m [E3 [M1 [M2 [M3 M4]]]]]; [lia|].
  rewrite E3. cbn [bind].
  set (p3 := p2 + m). replace (pb - s * p2 - s * m) with (pb - s * p3) in * by (unfold p3; ring).
  (* facts *)
  assert (Fe : pb - s * p2 + n < k).
  { assert (nrm <= p2 - p0) by (unfold p2, p1, ns; lia).
    assert (s * nrm <= s * (p2 - p0)) by (apply Z.mul_le_mono_nonneg_l; lia).
    unfold nrm in *. unfold c0 in *. lia. }
  assert (G1 : good n pb k s p0 l1).
  { intros i Hi. rewrite R1 in Hi. rewrite R3 by lia. replace (Z.of_nat (Z.to_nat i)) with i by lia.
    assert (i <= nr - 1) by lia. assert (i <= nrm - 1) by lia. assert (i <= c0 / s) by lia.
    assert (s * i <= s * (nrm - 1)) by (apply Z.mul_le_mono_nonneg_l; lia).
    assert (s * i <= s * (c0 / s)) by (apply Z.mul_le_mono_nonneg_l; lia).
    replace (pb - s * (p0 + i)) with (c0 - s * i) by (unfold c0; ring).
    assert (0 <= s * i) by (apply Z.mul_nonneg_nonneg; lia). unfold nrm in *. lia. }
  assert (G2 : good n pb k s p1 (zrepeat k ns)).
  { apply good_const. intros i Hi. unfold p1. unfold ns in Hi.
    assert (Hr : nr = c0 / s + 1) by lia. assert (0 <= nr) by lia.
    assert (i + nr <= nrm - 1) by lia.
    assert (s * (i + nr) <= s * (nrm - 1)) by (apply Z.mul_le_mono_nonneg_l; lia).
    assert (s * nr <= s * (i + nr)) by (apply Z.mul_le_mono_nonneg_l; lia).
    replace (pb - s * (p0 + Z.max nr 0 + i)) with (c0 - s * (i + nr)) by (unfold c0; rewrite Z.max_l by lia; ring).
    unfold nrm in *. rewrite Hr in *. lia. }
  assert (G3 : good n pb k s p2 (zrepeat n m)).
  { apply good_const. intros i Hi. specialize (M3 i Hi). 
    replace (pb - s * (p2 + i)) with (pb - s * p2 - s * i) by ring.
    assert (0 <= s * i) by (apply Z.mul_nonneg_nonneg; lia). lia. }
  assert (Fe3 : pb - s * p3 + n < k).
  { unfold p3. assert (0 <= s * m) by (apply Z.mul_nonneg_nonneg; lia). lia. }
  set (r3 := n + (pb - s * p3)).
  set (st4 := if r3 <? 0 then _ else _).
  assert (S4 : exists l4 z, st4 = (l4, z) /\ good n pb k s p3 l4 /\
     z = (n + pb - s * (p3 + Z.of_nat (length l4)) + pa - k) / s + 1 /\
     pb - s * (p3 + Z.of_nat (length l4)) + n <= 0).
  { unfold st4. destruct (Z.ltb_spec r3 0).
    - exists [], ((r3 + pa - k) / s + 1). split; auto. split; [intros i Hi; simpl in Hi; lia|]. split.
      + simpl length. f_equal. f_equal. unfold r3. lia.
      + simpl length. unfold r3 in *. lia.
    - set (l := down_range (Z.min r3 k) s).
      assert (Hmin : Z.min r3 k = r3) by (unfold r3; lia).
      assert (Ll : Z.of_nat (length l) = - (- r3 / s)).
      { unfold l, down_range. rewrite map_length, zrange_length, Hmin.
        assert (- r3 / s <= 0) by (apply Z.div_le_upper_bound; lia). lia. }
      pose proof (div_bounds (- r3) s Hs) as D4.
      exists l, ((pa + (r3 - s * Z.of_nat (length l)) - k) / s + 1). split; auto. split; [|split].
      + intros i Hi. unfold l, down_range. unfold l, down_range in Hi. rewrite map_length, zrange_length in Hi.
        rewrite nth_indep with (d' := Z.min r3 k - 0 * s) by (rewrite map_length, zrange_length; lia).
        rewrite (map_nth (fun j => Z.min r3 k - j * s)), nth_zrange by lia. rewrite Hmin.
        replace (Z.of_nat (Z.to_nat i)) with i by lia.
        assert (i <= - (- r3 / s) - 1) by (rewrite Hmin in Hi; lia).
        assert (s * i <= s * (- (- r3 / s) - 1)) by (apply Z.mul_le_mono_nonneg_l; lia).
        assert (0 <= s * i) by (apply Z.mul_nonneg_nonneg; lia).
        replace (pb - s * (p3 + i)) with (pb - s * p3 - s * i) by ring. unfold r3 in *. lia.
      + f_equal. f_equal. unfold r3. ring.
      + rewrite Ll. unfold r3 in *. 
        replace (pb - s * (p3 + - (- (n + (pb - s * p3)) / s)) + n) with ((n + (pb - s * p3)) + s * (- (n + (pb - s * p3)) / s)) by ring. lia. }
  destruct S4 as [l4 [z [-> [G4 [Hz F4]]]]].
  set (p4 := p3 + Z.of_nat (length l4)) in *.
  assert (G5 : good n pb k s p4 (zrepeat 0 z)).
  { apply good_const. intros i Hi. assert (0 <= s * i) by (apply Z.mul_nonneg_nonneg; lia).
    replace (pb - s * (p4 + i)) with (pb - s * p4 - s * i) by ring. lia. }
  set (L := l0 ++ l1 ++ zrepeat k ns ++ zrepeat n m ++ l4 ++ zrepeat 0 z).
  assert (Lr : forall v q, 0 <= q -> Z.of_nat (length (zrepeat (A := Z) v q)) = q).
  { intros. unfold zrepeat. rewrite repeat_length. lia. }
  assert (GL : good n pb k s 0 L).
  { unfold L. apply good_app; auto. rewrite <- Hp0. apply good_app; auto.
    rewrite R1. replace (0 + p0 + Z.of_nat (Z.to_nat nr)) with p1 by (unfold p1; lia).
    apply good_app; auto. rewrite Lr by lia. fold p2. apply good_app; auto. rewrite Lr by lia. fold p3. apply good_app; auto. }
  assert (HL : out <= Z.of_nat (length L)).
  { unfold L. rewrite !app_length, !Nat2Z.inj_add, R1, !Lr by lia. rewrite <- Hp0.
    assert (Z.of_nat (length (zrepeat 0 z)) = Z.max 0 z) by (unfold zrepeat; rewrite repeat_length; lia). rewrite H0.
    assert (z = out - p4).
    { rewrite Hz. unfold out. replace (n + pb - s * p4 + pa - k) with (n + pb + pa - k + (- p4) * s) by ring.
      rewrite Z.div_add by lia. ring. }
    unfold p4, p3, p2, p1 in *. lia. }
  exists (pyfirst out L). split; [reflexivity|].
  assert (Ep : pyfirst out L = firstn (Z.to_nat out) L).
  { unfold pyfirst. destruct (Z.ltb_spec out 0); [lia|]. reflexivity. }
  rewrite Ep. rewrite firstn_length, Nat.min_l by lia. split; [lia|]. intros j Hj.
  rewrite <- (firstn_skipn (Z.to_nat out) L) in GL.
  specialize (GL j). rewrite app_length, firstn_length, Nat.min_l in GL by lia.
  rewrite app_nth1 in GL by (rewrite firstn_length; lia). rewrite GL by lia.
  rewrite seen_formula by lia. replace (0 + j) with j by lia. lia.
Qed.
Lemma n_original_1d_none n pb pa k s : 1 <= s -> n + pb + pa < k -> n_original_elements_1d n (pb, pa) k s = Ok [].
Proof.
  intros Hs H. unfold n_original_elements_1d, conv_1d. destruct (Z.eqb_spec s 0); [lia|]. cbn [bind].
  destruct (Z.ltb_spec (pb + pa + n) k); [reflexivity|lia].
Qed.
