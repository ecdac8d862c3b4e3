(** Pooling along a list of axes that may repeat axes (C126). *)
From Verif Require Export PoolTwice PoolPropLemmas PadRepeat.
Open Scope Z_scope.

(** The module SeparablePoolNd(kernel=k, stride=s) with one kernel for every axis (pooling/base.py:155-186). *)
Definition single {F : ofield} (k : list F) (s : Z) : pool F := mkPool (NItem k) (NItem (klen k)) (NItem s) None 0.
(** One call for each entry of the list of axes, from the left; the first error ends the chain. *)
Fixpoint axis_by_axis {F : ofield} (fuel : nat) (junk : list Z -> F) (x : tensor F) (al : list nat) (kers : list (list F)) (sts : list Z) : res (tensor F) :=
  match al, kers, sts with
  | a :: al', k :: kers', s :: sts' =>
    y <- snd (sep_forward fuel junk (single k s) x (AxInt (Z.of_nat a))) ;; axis_by_axis fuel junk y al' kers' sts'
  | _, _, _ => Ok x
  end.
(** The axes named by a call, each of them an axis of the image, possibly more than once. *)
Definition names {A} (x : tensor A) (ax : axes_arg) (al : list nat) : Prop :=
  check_axes (Z.of_nat (ndim x)) ax = Ok (map Z.of_nat al) /\ forall a, In a al -> (a < ndim x)%nat.

(** The sum of the numbers that belong to the occurrences of axis d. *)
Fixpoint on_axis (al : list nat) (vs : list Z) (d : nat) : Z :=
  match al, vs with
  | a :: al', v :: vs' => (if Nat.eqb d a then v else 0) + on_axis al' vs' d
  | _, _ => 0
  end.

Section PR.
Variable F : ofield.
Notation T := (tensor F).

Lemma single_init (k : list F) s : k <> [] -> 1 <= s -> sep_init (NItem k) (NItem (Some s)) None = Ok (single k s).
Proof.
  intros Hk Hs. unfold sep_init, read_stride. cbn. unfold check_stride. destruct (Z.ltb_spec s 1); [lia|]. cbn.
  unfold single, klen. reflexivity.
Qed.

Lemma pool_step_ndim a k s (w : list F) (x u y : T) : (a < ndim x)%nat -> tunfold a k s x = Ok u -> tmatvec u w = Ok y -> ndim y = ndim x.
Proof.
  intros Ha. unfold tunfold. destruct (_ && _); [|discriminate]. intros E; inv E. unfold tmatvec. cbn [shp]. destruct (_ =? _); [|discriminate].
  intros E; inv E. unfold ndim. cbn [shp]. rewrite removelast_last. apply upd_length.
Qed.

Lemma single_forward fuel junk (k : list F) s (x : T) a : (a < ndim x)%nat ->
  snd (sep_forward fuel junk (single k s) x (AxInt (Z.of_nat a))) = pool_loop (single k s) x 0 [Z.of_nat a].
Proof.
  intros Ha. unfold sep_forward. cbn [check_axes]. destruct (Z.leb_spec 0 (Z.of_nat a)); [|lia]. cbn [single pl_ndim Z.eqb orb].
  unfold pool_pad. cbn [check_axes map]. destruct (Z.leb_spec 0 (Z.of_nat a)); [|lia]. cbn [forallb].
  destruct (Z.leb_spec 0 (Z.of_nat a)); [|lia]. destruct (Z.leb_spec (Z.of_nat a) (Z.of_nat (ndim x))); [|lia]. reflexivity.
Qed.

Lemma pool_loop_chain fuel junk (m : pool F) : forall al i (x : T) kers sts,
  (forall a, In a al -> (a < ndim x)%nat) -> length kers = length al -> length sts = length al ->
  (forall r, (r < length al)%nat -> nds_get (pl_size m) (i + Z.of_nat r) = Ok (klen (nth r kers [])) /\
     nds_get (pl_kernel m) (i + Z.of_nat r) = Ok (nth r kers []) /\ nds_get (pl_stride m) (i + Z.of_nat r) = Ok (nth r sts 1)) ->
  pool_loop m x i (map Z.of_nat al) = axis_by_axis fuel junk x al kers sts.
Proof.
  induction al as [|a al IH]; intros i x kers sts Hl Lk Ls H; [reflexivity|].
  destruct kers as [|k kers]; [discriminate|]. destruct sts as [|s sts]; [discriminate|]. cbn [length] in Lk, Ls.
  destruct (H 0%nat) as (G1 & G2 & G3); [cbn; lia|]. cbn [nth] in G1, G2, G3. replace (i + Z.of_nat 0) with i in * by lia.
  assert (Hrec : forall r, (r < length al)%nat -> nds_get (pl_size m) (i + 1 + Z.of_nat r) = Ok (klen (nth r kers [])) /\
     nds_get (pl_kernel m) (i + 1 + Z.of_nat r) = Ok (nth r kers []) /\ nds_get (pl_stride m) (i + 1 + Z.of_nat r) = Ok (nth r sts 1)).
  { intros r Hr. specialize (H (S r)). cbn [nth] in H. replace (i + Z.of_nat (S r)) with (i + 1 + Z.of_nat r) in H by lia. apply H. cbn. lia. }
  cbn [map pool_loop axis_by_axis]. rewrite single_forward by (apply Hl; now left). cbn [pool_loop single pl_size pl_stride pl_kernel nds_get]. rewrite G1, G2, G3. cbn [bind].
  assert (Ha : (a < ndim x)%nat) by (apply Hl; now left).
  destruct (klen k =? 0); cbn [bind]; [apply IH; auto; try lia; intros b Hb; apply Hl; now right|].
  rewrite axis_nat_ok by auto. cbn [bind]. destruct (tunfold a (klen k) s x) as [u|e] eqn:U; cbn [bind]; [|reflexivity].
  destruct (tmatvec u k) as [y|e] eqn:Y; cbn [bind]; [|reflexivity].
  apply IH; auto; try lia. intros b Hb. rewrite (pool_step_ndim a (klen k) s k x u y); auto. apply Hl. now right.
Qed.

Theorem pool_chain fuel junk fuel' junk' (m : pool F) (x : T) ax al kers sts : names x ax al -> built (length al) kers sts None m ->
  snd (sep_forward fuel junk m x ax) = axis_by_axis fuel' junk' x al kers sts.
Proof.
  intros [N1 N2] B. destruct (built_par _ _ _ _ _ _ B) as [PP [Pd _]]. destruct PP as [L1 [L2 [L3 L4]]].
  unfold sep_forward. rewrite N1. rewrite map_length.
  assert (E : (pl_ndim m =? 0) || (pl_ndim m =? Z.of_nat (length al)) = true) by (apply orb_true_iff; rewrite !Z.eqb_eq; exact L3).
  rewrite E. unfold pool_pad. rewrite Pd. cbn [check_axes].
  assert (E2 : forallb (fun a => (0 <=? a) && (a <=? Z.of_nat (ndim x))) (map (fun a => if 0 <=? a then a else Z.of_nat (ndim x) + a) (map Z.of_nat al)) = true).
  { apply forallb_forall. intros b Hb. apply in_map_iff in Hb as (c & <- & Hc). apply in_map_iff in Hc as (d & <- & Hd). specialize (N2 d Hd).
    destruct (Z.leb_spec 0 (Z.of_nat d)); [|lia]. apply andb_true_iff. rewrite !Z.leb_le. lia. }
  rewrite E2. cbn [assertb bind snd]. apply pool_loop_chain; auto.
  intros r Hr. destruct (L4 r Hr) as (Q1 & Q2 & Q3 & _). auto.
Qed.

(** *** Same padding *)
Lemma on_axis_nonneg d : forall al vs, (forall v, In v vs -> 0 <= v) -> 0 <= on_axis al vs d.
Proof.
  induction al as [|a al IH]; intros [|v vs] H; cbn [on_axis]; try lia.
  assert (0 <= v) by (apply H; now left). assert (0 <= on_axis al vs d) by (apply IH; intros u Hu; apply H; now right).
  destruct (Nat.eqb d a); lia.
Qed.
Lemma widths_sum (p : padder F) sh nd : forall rest (ws : list (Z * Z)) d, length ws = length rest -> (forall a, In a rest -> (a < nd)%nat) ->
  (forall r, (r < length rest)%nat -> exists q, params p (length rest - 1 - r) = Some q /\ ap_before q = fst (nth r ws (0, 0)) /\ ap_after q = snd (nth r ws (0, 0)) /\
     step_free (ap_mode q) = true) ->
  nth d (widths_before p rest (repeat 0 nd)) 0 + nth d (widths_after p sh rest (repeat 0 nd)) 0 = on_axis rest (map (fun w => fst w + snd w) ws) d.
Proof.
  induction rest as [|a rest IH]; intros [|w ws] d L Hlt H; try discriminate.
  - cbn. rewrite !nth_repeat. lia.
  - cbn [length] in L. cbn [widths_before widths_after map on_axis].
    destruct (H 0%nat) as (q & Q1 & Q2 & Q3 & Q4); [cbn; lia|]. cbn [length nth] in Q1, Q2, Q3. replace (S (length rest) - 1 - 0)%nat with (length rest) in Q1 by lia.
    rewrite Q1, before_add by (rewrite repeat_length; apply Hlt; now left). rewrite free_slot, Z.add_0_r by auto.
    assert (IH' := IH ws d). rewrite <- IH'; [|lia|intros b Hb; apply Hlt; now right|].
    + destruct ((ap_before q =? 0) && (ap_after q =? 0)) eqn:E.
      * bdestr. destruct (Nat.eqb d a); lia.
      * rewrite after_add by (rewrite repeat_length; apply Hlt; now left). destruct (Nat.eqb d a); lia.
    + intros r Hr. specialize (H (S r)). cbn [length nth] in H. replace (S (length rest) - 1 - S r)%nat with (length rest - 1 - r)%nat in H by lia.
      apply H. lia.
Qed.
Lemma with_width_params n (p : padder F) ms ws r : padder_for n p ms -> length ws = n -> (r < n)%nat ->
  exists q, params (with_width p ws) (n - 1 - r) = Some q /\ ap_before q = fst (nth r ws (0, 0)) /\ ap_after q = snd (nth r ws (0, 0)) /\ ap_mode q = nth r ms MUnknown.
Proof.
  intros [H1 H2 H3 H4] Lw Hr. unfold params.
  assert (Hw : expand n (NList ws) = Some ws) by (simpl; now rewrite Lw, Nat.eqb_refl).
  change (p_width (with_width p ws)) with (NList ws). change (p_mode (with_width p ws)) with (p_mode p).
  change (p_const (with_width p ws)) with (p_const p). change (p_end (with_width p ws)) with (p_end p).
  change (p_stat (with_width p ws)) with (p_stat p).
  rewrite (item_expand n _ _ r (0, 0) Hw Hr). rewrite (item_expand n _ _ r MUnknown H1 Hr).
  destruct (expand n (p_const p)) as [cs|] eqn:X1; [|congruence]. destruct (expand n (p_end p)) as [es|] eqn:X2; [|congruence].
  destruct (expand n (p_stat p)) as [ss|] eqn:X3; [|congruence].
  rewrite (item_expand n _ _ r (f0, f0) X1 Hr), (item_expand n _ _ r (f0, f0) X2 Hr), (item_expand n _ _ r (None, None) X3 Hr).
  destruct (nth r ws (0, 0)) as [b c]. eexists. split; [reflexivity|]. simpl. auto.
Qed.

(** A chain of poolings with stride one. *)
Lemma chain_shape fuel junk : forall al (kers : list (list F)) (x : T), (forall a, In a al -> (a < ndim x)%nat) -> length kers = length al ->
  (forall a, In a al -> 1 + on_axis al (map (fun k => Z.max 0 (klen k - 1)) kers) a <= nth a (shp x) 0) ->
  exists y, axis_by_axis fuel junk x al kers (repeat 1 (length al)) = Ok y /\ ndim y = ndim x /\
    forall d, nth d (shp y) 0 = nth d (shp x) 0 - on_axis al (map (fun k => Z.max 0 (klen k - 1)) kers) d.
Proof.
  induction al as [|a al IH]; intros [|k kers] x Hlt L H; try discriminate.
  - exists x. split; [reflexivity|]. split; auto. intros d. cbn. lia.
  - cbn [length] in L. cbn [length repeat axis_by_axis]. rewrite single_forward by (apply Hlt; now left). cbn [pool_loop single pl_size pl_stride pl_kernel nds_get bind].
    assert (NN : forall d, 0 <= on_axis al (map (fun k => Z.max 0 (klen k - 1)) kers) d).
    { intros d. apply on_axis_nonneg. intros v Hv. apply in_map_iff in Hv as (k' & <- & _). lia. }
    cbn [map on_axis] in H. assert (Ha : (a < ndim x)%nat) by (apply Hlt; now left).
    assert (G := H a (or_introl eq_refl)). rewrite Nat.eqb_refl in G. specialize (NN a) as NNa.
    destruct (Z.eqb_spec (klen k) 0) as [E|E]; cbn [bind].
    + destruct (IH kers x) as (y & Y1 & Y2 & Y3); auto; [intros b Hb; apply Hlt; now right| |].
      { intros b Hb. specialize (H b (or_intror Hb)). rewrite E in H. destruct (Nat.eqb b a); lia. }
      exists y. split; auto. split; auto. intros d. rewrite Y3. cbn [map on_axis]. rewrite E. destruct (Nat.eqb d a); lia.
    + rewrite axis_nat_ok by auto. cbn [bind]. assert (K1 : 1 <= klen k) by (unfold klen in *; lia).
      destruct (tunfold_matvec F x a k 1) as (u & x' & U1 & U2 & U3 & _); auto; [intros ->; apply E; reflexivity|lia|lia|].
      rewrite U1. cbn [bind]. rewrite U2. cbn [bind]. rewrite Z.div_1_r in U3.
      assert (Nx : ndim x' = ndim x) by (unfold ndim; rewrite U3; apply upd_length).
      assert (Sx : forall d, nth d (shp x') 0 = nth d (shp x) 0 - (if Nat.eqb d a then Z.max 0 (klen k - 1) else 0)).
      { intros d. rewrite U3. destruct (Nat.eqb_spec d a) as [->|N]; [rewrite nth_upd_eq by auto; lia|rewrite nth_upd_ne by auto; lia]. }
      destruct (IH kers x') as (y & Y1 & Y2 & Y3); auto; [intros b Hb; rewrite Nx; apply Hlt; now right| |].
      { intros b Hb. specialize (H b (or_intror Hb)). rewrite Sx. lia. }
      exists y. split; auto. split; [congruence|]. intros d. rewrite Y3, Sx. cbn [map on_axis]. lia.
Qed.

(** A filter (stride one, same padding) along axes that may repeat. *)
Record same_repeat (fuel : nat) (p : padder F) (x : T) (ax : axes_arg) (al : list nat) (ms : list (mode F)) (kers : list (list F)) : Prop := {
  sr_names : names x ax al;
  sr_nd : (0 < ndim x)%nat;
  sr_pos : forall d, (d < ndim x)%nat -> 0 <= nth d (shp x) 0;
  sr_pos1 : forall a, In a al -> 1 <= nth a (shp x) 0;
  sr_padder : padder_for (length al) p ms;
  sr_modes : forall m, In m ms -> step_free m = true;
  sr_fuel : forall d, (d < ndim x)%nat -> nth d (shp x) 0 + on_axis al (map (fun k => Z.max 0 (klen k - 1)) kers) d <= Z.of_nat fuel }.

Theorem same_chain fuel junk fuel' junk' (m : pool F) (x : T) ax al kers p ms : built (length al) kers (repeat 1 (length al)) (Some p) m ->
  same_repeat fuel p x ax al ms kers ->
  exists ws xp xp' y, length ws = length al /\
    (forall r, (r < length al)%nat -> is_same_width (klen (nth r kers [])) 1 (nth (nth r al 0%nat) (shp x) 0) (nth r ws (0, 0))) /\
    padder_forward fuel junk (with_width p ws) x ax = Ok xp /\ one_by_one fuel junk' (with_width p ws) x al = Ok xp' /\ teq xp xp' /\
    sep_forward fuel junk m x ax = (set_padder m (with_width p ws), Ok y) /\
    axis_by_axis fuel' junk' xp al kers (repeat 1 (length al)) = Ok y /\ shp y = shp x.
Proof.
  intros B [[A1 A2] N0 P0 P1' PFo M1 FU]. destruct (built_par _ _ _ _ _ _ B) as (PP & Hp & He1 & He2 & _). pose proof PP as [L1 [L2 [P3 P4]]].
  set (ns := map (fun a => nth a (shp x) 0) al). set (sts := repeat 1 (length al)) in *.
  destruct (to_same_ok F (length al) p ms (pl_size m) (pl_stride m) (map klen kers) sts ns) as [ws [T1 [T2 T3]]]; auto.
  { unfold ns. apply map_length. }
  { intros r Hr. split; [unfold sts; rewrite nth_repeat; lia|]. split.
    - rewrite (nth_indep (map klen kers) 0 (klen (@nil F))) by (rewrite map_length; lia). rewrite map_nth. unfold klen. lia.
    - unfold ns. rewrite nth_indep with (d' := (fun a => nth a (shp x) 0) 0%nat) by (now rewrite map_length).
      rewrite (map_nth (fun a => nth a (shp x) 0)). assert (1 <= nth (nth r al 0%nat) (shp x) 0) by (apply P1', nth_In; auto). lia. }
  assert (T4 : forall r, (r < length al)%nat -> is_same_width (klen (nth r kers [])) 1 (nth (nth r al 0%nat) (shp x) 0) (nth r ws (0, 0))).
  { intros r Hr. specialize (T3 r Hr). rewrite (nth_indep (map klen kers) 0 (klen (@nil F))) in T3 by (rewrite map_length; lia).
    rewrite map_nth in T3. unfold ns in T3. rewrite (nth_indep (map _ al) 0 ((fun a => nth a (shp x) 0) 0%nat)) in T3 by (now rewrite map_length).
    rewrite (map_nth (fun a => nth a (shp x) 0)) in T3. unfold sts in T3. rewrite nth_repeat in T3. exact T3. }
  assert (La : last_axes (with_width p ws) al = al).
  { unfold last_axes. simpl p_ndim. destruct (Z.ltb_spec 0 (Z.of_nat (length ws))); auto.
    rewrite Nat2Z.id. replace (length al - length ws)%nat with 0%nat by lia. reflexivity. }
  assert (Wt : forall r, (r < length al)%nat -> 0 <= fst (nth r ws (0, 0)) /\ 0 <= snd (nth r ws (0, 0)) /\ fst (nth r ws (0, 0)) + snd (nth r ws (0, 0)) = Z.max 0 (klen (nth r kers []) - 1)).
  { intros r Hr. destruct (T4 r Hr) as (c & C1 & C2 & C3). unfold is_ceil_div in C1. lia. }
  assert (Ew : map (fun w => fst w + snd w) ws = map (fun k => Z.max 0 (klen k - 1)) kers).
  { apply list_ext with (d := 0); [rewrite !map_length; lia|]. intros r Hr. rewrite map_length in Hr.
    rewrite (nth_indep (map _ ws) 0 ((fun w : Z * Z => fst w + snd w) (0, 0))) by (rewrite map_length; lia).
    rewrite (map_nth (fun w : Z * Z => fst w + snd w)).
    rewrite (nth_indep (map _ kers) 0 ((fun k : list F => Z.max 0 (klen k - 1)) [])) by (rewrite map_length; lia).
    rewrite (map_nth (fun k : list F => Z.max 0 (klen k - 1))). apply Wt. lia. }
  assert (Lm : length ms = length al) by (apply (expand_length _ _ _ (pf_mode _ _ _ PFo))).
  assert (Qp : forall r, (r < length al)%nat -> exists q, params (with_width p ws) (length al - 1 - r) = Some q /\ ap_before q = fst (nth r ws (0, 0)) /\ ap_after q = snd (nth r ws (0, 0)) /\
     step_free (ap_mode q) = true).
  { intros r Hr. destruct (with_width_params (length al) p ms ws r PFo T2 Hr) as (q & Q1 & Q2 & Q3 & Q4). exists q. split; auto. split; auto. split; auto.
    rewrite Q4. apply M1. apply nth_In. lia. }
  assert (So : forall d, (d < ndim x)%nat -> nth d (out_shape (with_width p ws) (shp x) al) 0 = nth d (shp x) 0 + on_axis al (map (fun k => Z.max 0 (klen k - 1)) kers) d).
  { intros d Hd. rewrite <- Ew. rewrite <- (widths_sum (with_width p ws) (shp x) (ndim x) al ws d T2 A2 Qp). unfold out_shape. rewrite La. fold (ndim x).
    assert (Lb : forall rest v, length (widths_before (with_width p ws) rest v) = length v).
    { induction rest as [|a rest IHr]; intros v; cbn [widths_before]; auto. rewrite IHr. destruct (params _ _); auto. apply upd_length. }
    assert (Lf : forall rest v, length (widths_after (with_width p ws) (shp x) rest v) = length v).
    { induction rest as [|a rest IHr]; intros v; cbn [widths_after]; auto. rewrite IHr. destruct (params _ _); auto. destruct (_ && _); auto. apply upd_length. }
    assert (Lx : length (map2 Z.add (widths_before (with_width p ws) al (repeat 0 (ndim x))) (shp x)) = ndim x).
    { rewrite map2_length, Lb, repeat_length. unfold ndim. lia. }
    rewrite nth_map2 with (da := 0) (db := 0) by (rewrite ?Lx, ?Lf, ?repeat_length; auto).
    rewrite nth_map2 with (da := 0) (db := 0) by (rewrite ?Lb, ?repeat_length; auto). lia. }
  assert (RC : repeat_call fuel (with_width p ws) x ax al).
  { constructor; auto. intros d Hd. rewrite So by auto. auto. }
  assert (RF : repeat_fine (with_width p ws) x al).
  { unfold repeat_fine. rewrite La. intros l1 a l2 E. assert (Hr : (length l1 < length al)%nat) by (rewrite E, app_length; cbn; lia).
    destruct (Qp (length l1) Hr) as (q & Q1 & Q2 & Q3 & Q4). exists q.
    split; [rewrite <- Q1; f_equal; rewrite E, app_length; cbn; lia|]. destruct (Wt _ Hr) as (W1 & W2 & _). split; [lia|]. split; [lia|].
    right. split; auto. left. apply P1'. rewrite E. apply in_elt. }
  destruct (repeat_one_by_one F fuel junk junk' (with_width p ws) x ax al RC RF) as (xp & xp' & X1 & X2 & X3 & X4). rewrite La in X2.
  assert (Nx : ndim xp = ndim x).
  { unfold ndim at 1. rewrite X4. destruct (repeat_forward F fuel junk (with_width p ws) x ax al RC RF) as (y1 & s1 & _).
    unfold out_shape. rewrite La. fold (ndim x).
    assert (Lb : forall rest v, length (widths_before (with_width p ws) rest v) = length v).
    { induction rest as [|a rest IHr]; intros v; cbn [widths_before]; auto. rewrite IHr. destruct (params _ _); auto. apply upd_length. }
    assert (Lf : forall rest v, length (widths_after (with_width p ws) (shp x) rest v) = length v).
    { induction rest as [|a rest IHr]; intros v; cbn [widths_after]; auto. rewrite IHr. destruct (params _ _); auto. destruct (_ && _); auto. apply upd_length. }
    assert (Lx : length (map2 Z.add (widths_before (with_width p ws) al (repeat 0 (ndim x))) (shp x)) = ndim x).
    { rewrite map2_length, Lb, repeat_length. unfold ndim. lia. }
    rewrite map2_length, Lx, Lf, repeat_length. lia. }
  assert (Sx : forall d, (d < ndim x)%nat -> nth d (shp xp) 0 = nth d (shp x) 0 + on_axis al (map (fun k => Z.max 0 (klen k - 1)) kers) d).
  { intros d Hd. rewrite X4. auto. }
  destruct (chain_shape fuel' junk' al kers xp) as (y & Y1 & Y2 & Y3); auto.
  { intros a Ha. rewrite Nx. auto. }
  { intros a Ha. rewrite Sx by auto. specialize (P1' a Ha). lia. }
  exists ws, xp, xp', y. split; auto. split; auto. split; auto. split; auto. split; auto. split; [|split; auto].
  - unfold sep_forward. rewrite A1. rewrite map_length.
    assert (E : (pl_ndim m =? 0) || (pl_ndim m =? Z.of_nat (length al)) = true).
    { apply orb_true_iff. destruct P3 as [->| ->]; [left|right]; apply Z.eqb_refl. }
    rewrite E. unfold pool_pad. rewrite check_axes_seq_nat by auto. rewrite Hp.
    assert (EM : mapM (fun a => pyidx (shp x) a) (map Z.of_nat al) = Ok ns).
    { rewrite mapM_ok with (g := fun a => nth (Z.to_nat a) (shp x) 0).
      - f_equal. unfold ns. rewrite map_map. apply map_ext. intros a. now rewrite Nat2Z.id.
      - intros z Hz. apply in_map_iff in Hz. destruct Hz as [a [<- Ha]]. specialize (A2 a Ha). unfold ndim in A2.
        rewrite pyidx_nonneg with (d := 0) by lia. reflexivity. }
    rewrite EM. rewrite T1. cbn [bind].
    rewrite (padder_forward_axes F fuel junk _ x _ ax) by (rewrite A1; apply check_axes_seq_nat; auto).
    rewrite X1. cbn [bind]. f_equal. rewrite <- Y1. apply pool_loop_chain; auto.
    + intros a Ha. rewrite Nx. auto.
    + intros r Hr. destruct (P4 r Hr) as (Q1 & Q2 & Q3 & _). auto.
  - apply list_ext with (d := 0); [unfold ndim in *; congruence|]. intros d Hd. fold (ndim y) in Hd. rewrite Y3, Sx by congruence. lia.
Qed.

(** The same axis twice in a row, without padding: one pooling with the merged kernel. *)
Lemma single_built (k : list F) s : 1 <= s -> k <> [] -> built 1 [k] [s] None (single k s).
Proof.
  intros Hs Hk. apply (built_init 1 [k] (NItem k) (NItem (Some s)) [Some s]); try reflexivity. now apply single_init.
Qed.
Theorem repeat_merged fuel junk fuel' junk' (m m' : pool F) (x : T) a k1 k2 s1 s2 : (a < ndim x)%nat -> k1 <> [] -> k2 <> [] ->
  built 2 [k1; k2] [s1; s2] None m -> built 1 [in_turn k1 s1 k2] [s1 * s2] None m' -> klen (in_turn k1 s1 k2) <= nth a (shp x) 0 ->
  exists y y', snd (sep_forward fuel junk m x (AxSeq [Z.of_nat a; Z.of_nat a])) = Ok y /\
    snd (sep_forward fuel' junk' m' x (AxInt (Z.of_nat a))) = Ok y' /\ teq y y'.
Proof.
  intros Ha H1 H2 B B' Hf.
  assert (N : names x (AxSeq [Z.of_nat a; Z.of_nat a]) [a; a]).
  { split; [apply (check_axes_seq_nat (ndim x) [a; a])|]; intros b [<-|[<-|[]]]; auto. }
  destruct (built_par _ _ _ _ _ _ B) as [[_ [_ [_ PP]]] _].
  assert (S1 : 1 <= s1) by (apply (PP 0%nat); auto). assert (S2 : 1 <= s2) by (apply (PP 1%nat); auto).
  assert (OA : on_axes x (AxInt (Z.of_nat a)) [a]).
  { split; [cbn; destruct (Z.leb_spec 0 (Z.of_nat a)); [reflexivity|lia]|intros b [<-|[]]; auto|repeat constructor; intros []]. }
  destruct (pool_twice F fuel' junk' fuel junk fuel junk m' (single k1 s1) (single k2 s2) x (AxInt (Z.of_nat a)) [a] [k1] [s1] [k2] [s2] [in_turn k1 s1 k2] [s1 * s2]) as (y & z & w & Y1 & Y2 & Y3 & Y4); auto.
  - now apply single_built.
  - now apply single_built.
  - intros [|r] Hr; [|cbn in Hr; lia]. cbn [nth]. split; auto. split; auto. destruct k1; [congruence|]. destruct k2; [congruence|]. reflexivity.
  - exists z, w. split; auto. rewrite (pool_chain fuel junk fuel junk m x _ [a; a] [k1; k2] [s1; s2] N B). cbn [axis_by_axis].
    rewrite Y1. cbn [bind]. rewrite Y2. reflexivity.
Qed.
End PR.
