(** Reasoning along one axis: tensors obtained by slicing [x[f(a, b)]] are
    described by line functions, and slice assignments by the interval of
    the axis that they overwrite. *)
From Verif Require Export TensorLemmas PadModel.

Lemma skipn_nth (i : list Z) n :
  (n < length i)%nat -> skipn n i = nth n i 0 :: skipn (S n) i.
Proof.
  revert n; induction i; intros n H; simpl in H; [lia|].
  destruct n; [reflexivity|]. simpl skipn at 1. rewrite (IHi n) by lia. reflexivity.
Qed.

Definition dR : rsl := mkR 0 0 1.

Record wfi (sh : list Z) (idx : list slice) (dim : nat) : Prop := {
  wfi_len : length idx = length sh;
  wfi_st : forall d, (d < length idx)%nat -> s_st (nth d idx sfull) = 1;
  wfi_dim : (dim < length sh)%nat;
  wfi_sh : forall d, (d < length sh)%nat -> 0 <= nth d sh 0
}.

(** Positions whose other coordinates are inside the region of [idx]. *)
Definition slabb (sh : list Z) (idx : list slice) (dim : nat) (j : list Z) : bool :=
  all2 rinb (map2 resolve sh (upd dim sfull idx)) j.

Lemma make_idx_upd sl dim nd : (dim < nd)%nat -> make_idx sl dim nd = upd dim sl (repeat sfull nd).
Proof.
  intros H. unfold make_idx. replace nd with (dim + S (nd - dim - 1))%nat at 2 by lia.
  generalize (nd - dim - 1)%nat as k. intros k. clear.
  induction dim; [reflexivity|]. simpl in *. now rewrite IHdim.
Qed.

Section Line.
Context {F : ofield}.
Notation T := (tensor F).
Variables (sh : list Z) (idx : list slice) (dim : nat).
Hypothesis W : wfi sh idx dim.

Let R0 := map2 resolve sh idx.
Let lens := map r_len R0.
Let N := nth dim sh 0.

Lemma R0_length : length R0 = length sh.
Proof. unfold R0. apply map2_length_eq. symmetry. apply W. Qed.
Lemma lens_length : length lens = length sh.
Proof. unfold lens. rewrite map_length. apply R0_length. Qed.
Lemma nth_R0 d : (d < length sh)%nat -> nth d R0 dR = resolve (nth d sh 0) (nth d idx sfull).
Proof. intros. unfold R0. apply nth_map2; auto. now rewrite (wfi_len _ _ _ W). Qed.
Lemma nth_lens d : (d < length sh)%nat -> nth d lens 0 = r_len (nth d R0 dR).
Proof. intros. unfold lens. change 0 with (r_len dR). apply map_nth. Qed.
Lemma N_nonneg : 0 <= N.
Proof. apply W. apply W. Qed.
Lemma nth_R0_st d : (d < length sh)%nat -> r_st (nth d R0 dR) = 1.
Proof. intros. rewrite nth_R0, resolve_st by auto. apply W. now rewrite (wfi_len _ _ _ W). Qed.
Lemma nth_R0_range d : (d < length sh)%nat ->
  0 <= r_lo (nth d R0 dR) <= nth d sh 0 /\ 0 <= r_len (nth d R0 dR) /\
  (0 < r_len (nth d R0 dR) -> r_lo (nth d R0 dR) + r_len (nth d R0 dR) <= nth d sh 0).
Proof.
  intros. rewrite nth_R0 by auto. apply resolve_range; [now apply W|].
  apply W. now rewrite (wfi_len _ _ _ W).
Qed.
Lemma R_upd sl : map2 resolve sh (upd dim sl idx) = upd dim (resolve N sl) R0.
Proof. unfold R0. now rewrite map2_upd_r with (da := 0). Qed.

Lemma slabb_spec j : valid sh j ->
  slabb sh idx dim j = true <->
  forall d, (d < length sh)%nat -> d <> dim -> rinb (nth d R0 dR) (nth d j 0) = true.
Proof.
  intros Hj. pose proof (valid_length _ _ Hj) as L. unfold slabb. rewrite R_upd.
  rewrite (all2_iff _ _ _ dR 0), upd_length, R0_length. split.
  - intros [_ H] d Hd Hne. specialize (H d Hd). rewrite nth_upd_ne in H; auto.
  - intros H. split; auto. intros d Hd. destruct (Nat.eq_dec dim d).
    + subst d. rewrite nth_upd_eq by (rewrite R0_length; auto).
      rewrite resolve_sfull by apply N_nonneg. unfold rinb; simpl.
      pose proof (valid_nth _ _ _ Hj Hd). fold N in H0. rewrite Z.mod_1_r.
      repeat zcase; auto; lia.
    + rewrite nth_upd_ne by auto. auto.
Qed.

Lemma slabb_upd j c : slabb sh idx dim j = true -> valid sh j -> 0 <= c < N ->
  slabb sh idx dim (upd dim c j) = true.
Proof.
  intros H V Hc. apply slabb_spec; [apply valid_upd_in; auto|].
  intros d Hd Hne. rewrite nth_upd_ne by auto. revert d Hd Hne. now apply slabb_spec.
Qed.

Lemma slabb_upd_eq j c : valid sh j -> 0 <= c < N ->
  slabb sh idx dim (upd dim c j) = slabb sh idx dim j.
Proof.
  intros V Hc. destruct (slabb sh idx dim j) eqn:E.
  - now apply slabb_upd.
  - destruct (slabb sh idx dim (upd dim c j)) eqn:E2; auto. rewrite <- E. symmetry.
    apply slabb_upd with (c := nth dim j 0) in E2.
    + rewrite upd_upd, upd_nth in E2. auto.
    + apply valid_upd_in; auto.
    + apply valid_nth; auto. apply W.
Qed.

(** Positions on a line of the slab; the coordinate along [dim] is immaterial. *)
Definition online (j : list Z) : Prop :=
  forall c, 0 <= c < N -> valid sh (upd dim c j) /\ slabb sh idx dim (upd dim c j) = true.

Lemma online_valid j : valid sh j -> slabb sh idx dim j = true -> online j.
Proof. intros V S c Hc. split; [apply valid_upd_in; auto|apply slabb_upd; auto]. Qed.

Definition dinv (G : list Z -> Z -> F) : Prop := forall j k c, G (upd dim c j) k = G j k.

(** Full-rank slab tensor with extent m along [dim]. *)
Definition frep (v : T) (m : Z) (G : list Z -> Z -> F) : Prop :=
  dinv G /\ shp v = upd dim m lens /\
  forall i, valid (upd dim m lens) i -> at_ v i = G (map2 rpos R0 i) (nth dim i 0).
(** Tensor broadcastable to such a slab tensor. *)
Definition lrep (v : T) (m : Z) (G : list Z -> Z -> F) : Prop :=
  dinv G /\ brep v (upd dim m lens) (fun i => G (map2 rpos R0 i) (nth dim i 0)).

Lemma frep_lrep v m G : frep v m G -> lrep v m G.
Proof. intros [H1 [H2 H3]]. split; auto. now apply brep_full. Qed.

Lemma online_pos i m : valid (upd dim m lens) i -> online (map2 rpos R0 i).
Proof.
  intros V c Hc. pose proof (valid_length _ _ V) as L. rewrite upd_length, lens_length in L.
  assert (L2 : length (map2 rpos R0 i) = length sh).
  { rewrite map2_length_eq; rewrite R0_length; auto. }
  assert (Hd : forall d, (d < length sh)%nat -> d <> dim ->
    let k := nth d (map2 rpos R0 i) 0 in
    0 <= k < nth d sh 0 /\ rinb (nth d R0 dR) k = true).
  { intros d Hd Hne. pose proof (valid_nth _ _ d V) as Hv.
    rewrite upd_length, lens_length, nth_upd_ne in Hv by auto. specialize (Hv Hd).
    rewrite nth_lens in Hv by auto. cbv zeta.
    rewrite nth_map2 with (da := dR) (db := 0) by (rewrite ?R0_length; lia).
    unfold rpos, rinb. rewrite nth_R0_st by auto. pose proof (nth_R0_range d Hd) as [A [B C]].
    rewrite !Z.mul_1_r, Z.mod_1_r. split; [lia|]. repeat zcase; auto; lia. }
  assert (V2 : valid sh (upd dim c (map2 rpos R0 i))).
  { apply valid_iff. rewrite upd_length. split; auto. intros d Hd2.
    rewrite nth_upd, L2. destruct (Nat.eqb_spec dim d); simpl.
    - subst d. destruct (Nat.ltb_spec dim (length sh)); [auto|lia].
    - apply Hd; auto. }
  split; auto. apply slabb_spec; auto. intros d Hd2 Hne. rewrite nth_upd_ne by auto.
  apply Hd; auto.
Qed.

Lemma frep_ext v m G G' : frep v m G -> dinv G' ->
  (forall j k, online j -> 0 <= k < m -> G j k = G' j k) -> frep v m G'.
Proof.
  intros [H1 [H2 H3]] Hd He. split; auto. split; auto. intros i V. rewrite H3 by auto.
  apply He; [eapply online_pos; eauto|]. pose proof (valid_nth _ _ dim V) as Hv.
  rewrite upd_length, lens_length, nth_upd_eq in Hv by (rewrite lens_length; apply W).
  apply Hv. apply W.
Qed.
Lemma lrep_ext v m G G' : lrep v m G -> dinv G' ->
  (forall j k, online j -> 0 <= k < m -> G j k = G' j k) -> lrep v m G'.
Proof.
  intros [H1 H2] Hd He. split; auto. eapply brep_ext; eauto. intros i V.
  apply He; [eapply online_pos; eauto|]. pose proof (valid_nth _ _ dim V) as Hv.
  rewrite upd_length, lens_length, nth_upd_eq in Hv by (rewrite lens_length; apply W).
  apply Hv. apply W.
Qed.

(** ** Reading a slab *)
Lemma tget_frep x sl a m : shp x = sh ->
  resolve N sl = mkR a m 1 -> 0 <= m ->
  exists v, tget x (upd dim sl idx) = Ok v /\
    frep v m (fun j k => at_ x (upd dim (a + k) j)).
Proof.
  intros Hx Hsl Hm. unfold tget. rewrite Hx, upd_length, (wfi_len _ _ _ W), Nat.eqb_refl.
  eexists; split; [reflexivity|]. rewrite R_upd, Hsl. split; [|split].
  - intros j k c. now rewrite upd_upd.
  - simpl. rewrite upd_map. reflexivity.
  - intros i V. simpl. rewrite map2_upd_l with (db := 0). unfold rpos at 1. simpl.
    now rewrite Z.mul_1_r.
Qed.

Lemma upd_same_slice : upd dim (nth dim idx sfull) idx = idx.
Proof. apply upd_nth. Qed.

Lemma frep_map (f : F -> F) v m G : frep v m G -> frep (tmap f v) m (fun j k => f (G j k)).
Proof.
  intros [H1 [H2 H3]]. split; [|split].
  - intros j k c. now rewrite H1.
  - auto.
  - intros i V. simpl. now rewrite H3.
Qed.
Lemma lrep_map (f : F -> F) v m G : lrep v m G -> lrep (tmap f v) m (fun j k => f (G j k)).
Proof.
  intros [H1 H2]. split.
  - intros j k c. now rewrite H1.
  - now apply (tmap_brep f) in H2.
Qed.

Lemma frep_flip v m G : frep v m G -> frep (tflip dim v) m (fun j k => G j (m - 1 - k)).
Proof.
  intros [H1 [H2 H3]]. split; [|split].
  - intros j k c. now rewrite H1.
  - auto.
  - intros i V. simpl.
    pose proof (valid_nth _ _ dim V) as Hv.
    rewrite upd_length, lens_length, nth_upd_eq in Hv by (rewrite lens_length; apply W).
    specialize (Hv (wfi_dim _ _ _ W)).
    rewrite H2, nth_upd_eq by (rewrite lens_length; apply W).
    pose proof (valid_length _ _ V) as Lv. rewrite upd_length, lens_length in Lv.
    rewrite H3.
    + rewrite map2_upd_r with (da := dR), H1. f_equal. apply nth_upd_eq. rewrite Lv. apply W.
    + rewrite <- (upd_upd dim m m lens). apply valid_upd; auto. lia.
Qed.

(** A slab of extent 1 broadcasts to any extent. *)
Lemma frep_one v m G : frep v 1 G -> lrep v m (fun j _ => G j 0).
Proof.
  intros [H1 [H2 H3]]. split; [intros j k c; now rewrite H1|]. split.
  - rewrite H2. unfold expandable. rewrite !upd_length, Nat.leb_refl, Nat.sub_diag. simpl.
    apply (all2_iff _ _ _ 0 0). rewrite !upd_length. split; auto. intros n Hn.
    rewrite !nth_upd. destruct (Nat.eqb dim n && Nat.ltb dim (length lens)); simpl.
    + now rewrite orb_true_r.
    + now rewrite Z.eqb_refl.
  - intros i V. rewrite H2. pose proof (valid_length _ _ V) as L. rewrite upd_length, lens_length in L.
    assert (E : bidx (upd dim 1 lens) i = upd dim 0 i).
    { apply list_ext with (d := 0).
      - rewrite bidx_length; rewrite !upd_length, lens_length; lia.
      - intros n Hn. rewrite bidx_length, upd_length, lens_length in Hn by (rewrite upd_length, lens_length; lia).
        unfold bidx. rewrite upd_length, lens_length, L, Nat.sub_diag. simpl.
        rewrite nth_map2 with (da := 0) (db := 0) by (rewrite ?upd_length, ?lens_length; lia).
        rewrite !nth_upd, L, lens_length. destruct (Nat.eqb_spec dim n); simpl.
        + subst n. destruct (Nat.ltb_spec dim (length sh)); [auto|lia].
        + pose proof (valid_nth _ _ n V) as Hv. rewrite upd_length, lens_length, nth_upd_ne in Hv by auto.
          specialize (Hv Hn). zcase; lia. }
    rewrite E, H3.
    + rewrite map2_upd_r with (da := dR), H1. f_equal. apply nth_upd_eq. rewrite L. apply W.
    + rewrite <- (upd_upd dim 1 m lens). apply valid_upd; auto. lia.
Qed.

(** Tensors of the form view([-1] + [1]*k). *)
Lemma lrep_col (t : T) m : shp t = [m] ->
  lrep (tview_col (length sh - dim - 1) t) m (fun _ k => at_ t [k]).
Proof.
  intros Ht. pose proof (wfi_dim _ _ _ W) as Hd. split; [intros j k c; auto|].
  assert (Hsk : forall i : list Z, length i = length sh ->
     skipn dim i = nth dim i 0 :: skipn (S dim) i).
  { intros i Hi. apply skipn_nth. now rewrite Hi. }
  split; cbn [tview_col shp at_]; rewrite Ht; cbn [nth].
  - unfold expandable. apply andb_true_iff; split.
    + apply Nat.leb_le. cbn [length]. rewrite repeat_length, upd_length, lens_length. lia.
    + cbn [length]. rewrite repeat_length, upd_length, lens_length.
      replace (length sh - S (length sh - dim - 1))%nat with dim by lia.
      rewrite Hsk by (rewrite upd_length; apply lens_length). cbn [all2].
      rewrite nth_upd_eq by (rewrite lens_length; auto). rewrite Z.eqb_refl.
      cbn [orb andb].
      apply (all2_iff _ _ _ 0 0). rewrite repeat_length, skipn_length, upd_length, lens_length.
      split; [lia|]. intros n Hn. replace (nth n (repeat 1 (length sh - dim - 1)) 0) with 1.
      * now rewrite orb_true_r.
      * symmetry. apply (repeat_spec (length sh - dim - 1) 1). apply nth_In. now rewrite repeat_length.
  - intros i V. pose proof (valid_length _ _ V) as L. rewrite upd_length, lens_length in L.
    unfold bidx. cbn [length]. rewrite repeat_length, L.
    replace (length sh - S (length sh - dim - 1))%nat with dim by lia.
    rewrite Hsk by auto. cbn [map2 nth]. f_equal. f_equal.
    pose proof (valid_nth _ _ dim V) as Hv.
    rewrite upd_length, lens_length, nth_upd_eq in Hv by (rewrite lens_length; apply W).
    specialize (Hv Hd). zcase; lia.
Qed.

Lemma lrep_map2 (f : F -> F -> F) u v m G H :
  lrep u m G -> lrep v m H ->
  exists w, tmap2 f u v = Ok w /\ lrep w m (fun j k => f (G j k) (H j k)).
Proof.
  intros [A1 A2] [B1 B2]. destruct (tmap2_brep f _ _ _ _ _ A2 B2) as [w [Hw Hb]].
  exists w. split; auto. split; auto. intros j k c. now rewrite A1, B1.
Qed.

Lemma lrep_const (c : F) m : lrep (tscalar c) m (fun _ _ => c).
Proof. split; [intros j k d; auto|]. apply tscalar_brep. Qed.

(** Slicing the flipped cache with make_idx. *)
Lemma tget_make_idx v m G sl a m' : frep v m G ->
  resolve m sl = mkR a m' 1 -> 0 <= a -> 0 <= m' -> a + m' <= m ->
  exists w, tget v (make_idx sl dim (length sh)) = Ok w /\ frep w m' (fun j k => G j (a + k)).
Proof.
  intros [H1 [H2 H3]] Hsl Ha Hm' Hle. pose proof (wfi_dim _ _ _ W) as Hd.
  unfold tget. rewrite make_idx_upd by auto.
  rewrite H2, !upd_length, repeat_length, lens_length, Nat.eqb_refl.
  eexists; split; [reflexivity|].
  assert (HR : map2 resolve (upd dim m lens) (upd dim sl (repeat sfull (length sh)))
               = upd dim (mkR a m' 1) (map (fun n => mkR 0 n 1) lens)).
  { rewrite map2_upd, Hsl. f_equal. apply list_ext with (d := dR).
    - rewrite map2_length_eq, map_length; auto. now rewrite repeat_length, lens_length.
    - intros n Hn. rewrite map2_length_eq in Hn by now rewrite repeat_length, lens_length.
      rewrite lens_length in Hn.
      rewrite nth_map2 with (da := 0) (db := sfull) by (rewrite ?repeat_length, ?lens_length; auto).
      rewrite (nth_indep _ dR (mkR 0 0 1)) by (rewrite map_length, lens_length; auto).
      rewrite (map_nth (fun n => mkR 0 n 1)).
      replace (nth n (repeat sfull (length sh)) sfull) with sfull.
      + rewrite resolve_sfull; auto. rewrite nth_lens by auto. apply nth_R0_range; auto.
      + symmetry. apply (repeat_spec (length sh) sfull). apply nth_In. now rewrite repeat_length. }
  rewrite HR. split; [|split].
  - intros j k c. now rewrite H1.
  - simpl. rewrite upd_map, map_map. simpl. rewrite map_id. reflexivity.
  - intros i V. simpl. pose proof (valid_length _ _ V) as L. rewrite upd_length, lens_length in L.
    rewrite map2_upd_l with (db := 0).
    replace (map2 rpos (map (fun n => mkR 0 n 1) lens) i) with i.
    2:{ pose proof lens_length as L2. rewrite <- L in L2. clear - L2. revert i L2.
        induction lens; destruct i; simpl; intros; try discriminate; auto.
        f_equal; [unfold rpos; simpl; lia|]. apply IHl. lia. }
    pose proof (valid_nth _ _ dim V) as Hv.
    rewrite upd_length, lens_length, nth_upd_eq in Hv by (rewrite lens_length; apply W).
    specialize (Hv Hd).
    unfold rpos at 1; simpl. rewrite Z.mul_1_r. rewrite H3.
    + rewrite map2_upd_r with (da := dR), H1. f_equal. apply nth_upd_eq. rewrite L. auto.
    + rewrite <- (upd_upd dim m m' lens). apply valid_upd; auto. lia.
Qed.

(** ** Writing a slab *)
Lemma tset_lrep x sl v a m G : shp x = sh ->
  resolve N sl = mkR a m 1 -> 0 <= a -> 0 <= m -> a + m <= N -> lrep v m G ->
  exists y, tset x (upd dim sl idx) v = Ok y /\ shp y = sh /\
    forall j, valid sh j ->
      at_ y j = if slabb sh idx dim j && ((a <=? nth dim j 0) && (nth dim j 0 <? a + m))
                then G j (nth dim j 0 - a) else at_ x j.
Proof.
  intros Hx Hsl Ha Hm Hle [HG [He Hb]]. unfold tset.
  rewrite Hx, upd_length, (wfi_len _ _ _ W), Nat.eqb_refl, R_upd, Hsl, upd_map. simpl r_len.
  fold lens. rewrite He. eexists; split; [reflexivity|]. split; [reflexivity|].
  intros j V. simpl. pose proof (valid_length _ _ V) as L. pose proof (wfi_dim _ _ _ W) as Hd.
  assert (E : all2 rinb (upd dim (mkR a m 1) R0) j =
     slabb sh idx dim j && ((a <=? nth dim j 0) && (nth dim j 0 <? a + m))).
  { apply eq_true_iff_eq. rewrite andb_true_iff, (slabb_spec j V), (all2_iff _ _ _ dR 0), upd_length, R0_length.
    split.
    - intros [_ H]. split.
      + intros d Hd2 Hne. specialize (H d Hd2). rewrite nth_upd_ne in H; auto.
      + specialize (H dim Hd). rewrite nth_upd_eq in H by (rewrite R0_length; auto).
        unfold rinb in H; simpl in H. rewrite Z.mul_1_r in H. bdestr. repeat zcase; auto; lia.
    - intros [H H']. split; auto. intros d Hd2. destruct (Nat.eq_dec dim d).
      + subst d. rewrite nth_upd_eq by (rewrite R0_length; auto). unfold rinb; simpl.
        rewrite Z.mul_1_r, Z.mod_1_r. bdestr. repeat zcase; auto; lia.
      + rewrite nth_upd_ne by auto. auto. }
  rewrite E. destruct (slabb sh idx dim j && _) eqn:E2; auto.
  bdestr. rewrite Hb.
  2:{ apply valid_iff. rewrite upd_length, lens_length. split.
      - rewrite map2_length_eq; rewrite ?upd_length, R0_length; auto.
      - intros d Hd2. rewrite nth_map2 with (da := dR) (db := 0) by (rewrite ?upd_length, ?R0_length; lia).
        rewrite !nth_upd, R0_length, lens_length. destruct (Nat.eqb_spec dim d); simpl.
        + subst d. destruct (Nat.ltb_spec dim (length sh)); [|lia]. unfold rrel; simpl.
          rewrite Z.div_1_r. lia.
        + rewrite nth_lens by auto. pose proof (proj1 (slabb_spec j V) H d Hd2) as Hr.
          assert (Hne : d <> dim) by auto. specialize (Hr Hne). unfold rinb, rrel in *.
          rewrite nth_R0_st in * by auto. rewrite Z.div_1_r. bdestr. lia. }
  assert (Ei : map2 rpos R0 (map2 rrel (upd dim (mkR a m 1) R0) j) =
    upd dim (rpos (nth dim R0 dR) (nth dim j 0 - a)) j).
  { apply list_ext with (d := 0).
    - rewrite map2_length_eq; rewrite ?R0_length, ?upd_length; auto.
      rewrite map2_length_eq; rewrite ?upd_length, R0_length; auto.
    - rewrite map2_length_eq; rewrite ?R0_length.
      2: rewrite map2_length_eq; rewrite ?upd_length, R0_length; auto.
      intros n Hn. rewrite nth_map2 with (da := dR) (db := 0).
      2: rewrite R0_length; auto.
      2: rewrite map2_length_eq; rewrite ?upd_length, R0_length; auto.
      rewrite nth_map2 with (da := dR) (db := 0) by (rewrite ?upd_length, ?R0_length; lia).
      rewrite !nth_upd, R0_length, L. destruct (Nat.eqb_spec dim n); simpl.
      + subst n. destruct (Nat.ltb_spec dim (length sh)); [|lia]. unfold rrel; simpl. now rewrite Z.div_1_r.
      + unfold rpos, rrel. rewrite nth_R0_st by auto. rewrite Z.div_1_r. lia. }
  rewrite Ei, HG. f_equal.
  rewrite nth_map2 with (da := dR) (db := 0) by (rewrite ?upd_length, ?R0_length; lia).
  rewrite nth_upd_eq by (rewrite R0_length; auto). unfold rrel; simpl. apply Z.div_1_r.
Qed.

(** ** Partially filled buffers *)

(** On the slab, the buffer holds E on [lo, hi) along the axis, and it is
    still x0 everywhere else. *)
Definition agree (x0 : T) (E : list Z -> Z -> F) (lo hi : Z) (x : T) : Prop :=
  shp x = sh /\
  forall j, valid sh j ->
    at_ x j = if slabb sh idx dim j && ((lo <=? nth dim j 0) && (nth dim j 0 <? hi))
              then E j (nth dim j 0) else at_ x0 j.

Lemma agree_get x0 E lo hi x sl a m : dinv E -> agree x0 E lo hi x ->
  resolve N sl = mkR a m 1 -> 0 <= m -> lo <= a -> a + m <= hi -> 0 <= lo -> hi <= N ->
  exists v, tget x (upd dim sl idx) = Ok v /\ frep v m (fun j k => E j (a + k)).
Proof.
  intros HE [Hs Ha] Hr Hm H1 H2 H3 H4.
  destruct (tget_frep x sl a m Hs Hr Hm) as [v [Hv Hf]]. exists v. split; auto.
  eapply frep_ext; eauto.
  - intros j k c. apply HE.
  - intros j k Hj Hk. destruct (Hj (a + k)) as [V S]; [lia|]. simpl. rewrite Ha by auto.
    rewrite S. simpl. pose proof (wfi_dim _ _ _ W) as Hd. pose proof (valid_length _ _ V) as L.
    rewrite upd_length in L.
    rewrite nth_upd_eq by (rewrite L; auto).
    destruct (Z.leb_spec lo (a + k)); [|lia]. destruct (Z.ltb_spec (a + k) hi); [|lia].
    simpl. apply HE.
Qed.

Lemma agree_set_before x0 E lo hi x sl v lo' G : dinv E -> agree x0 E lo hi x ->
  resolve N sl = mkR lo' (lo - lo') 1 -> 0 <= lo' <= lo -> lo <= hi -> hi <= N -> lrep v (lo - lo') G ->
  (forall j k, online j -> 0 <= k < lo - lo' -> G j k = E j (lo' + k)) ->
  exists y, tset x (upd dim sl idx) v = Ok y /\ agree x0 E lo' hi y.
Proof.
  intros HE [Hs Ha] Hr H1 H2 H3 Hl HG.
  destruct (tset_lrep x sl v lo' (lo - lo') G) as [y [Hy [Hys Hya]]]; auto; try lia.
  exists y. split; auto. split; auto. intros j V. rewrite Hya by auto.
  destruct (slabb sh idx dim j) eqn:S; simpl.
  - destruct (Z.leb_spec lo' (nth dim j 0)); simpl.
    + destruct (Z.ltb_spec (nth dim j 0) (lo' + (lo - lo'))).
      * destruct (Z.ltb_spec (nth dim j 0) hi); [|lia].
        rewrite HG; [f_equal; lia| apply online_valid; auto |lia].
      * rewrite Ha, S by auto. simpl. destruct (Z.leb_spec lo (nth dim j 0)); [|lia]. reflexivity.
    + rewrite Ha, S by auto. simpl. destruct (Z.leb_spec lo (nth dim j 0)); [lia|]. reflexivity.
  - rewrite Ha, S by auto. reflexivity.
Qed.

Lemma agree_set_after x0 E lo hi x sl v hi' G : dinv E -> agree x0 E lo hi x ->
  resolve N sl = mkR hi (hi' - hi) 1 -> 0 <= lo <= hi -> hi <= hi' -> hi' <= N -> lrep v (hi' - hi) G ->
  (forall j k, online j -> 0 <= k < hi' - hi -> G j k = E j (hi + k)) ->
  exists y, tset x (upd dim sl idx) v = Ok y /\ agree x0 E lo hi' y.
Proof.
  intros HE [Hs Ha] Hr H1 H2 H3 Hl HG.
  destruct (tset_lrep x sl v hi (hi' - hi) G) as [y [Hy [Hys Hya]]]; auto; try lia.
  exists y. split; auto. split; auto. intros j V. rewrite Hya by auto.
  destruct (slabb sh idx dim j) eqn:S; simpl.
  - destruct (Z.leb_spec hi (nth dim j 0)); simpl.
    + destruct (Z.ltb_spec (nth dim j 0) (hi + (hi' - hi))).
      * destruct (Z.leb_spec lo (nth dim j 0)); [|lia]. destruct (Z.ltb_spec (nth dim j 0) hi'); [|lia].
        rewrite HG; [simpl; f_equal; lia| apply online_valid; auto |lia].
      * rewrite Ha, S by auto. simpl. destruct (Z.leb_spec lo (nth dim j 0)); [|lia].
        destruct (Z.ltb_spec (nth dim j 0) hi'); [lia|].
        destruct (Z.ltb_spec (nth dim j 0) hi); [lia|]. reflexivity.
    + rewrite Ha, S by auto. simpl. destruct (Z.ltb_spec (nth dim j 0) hi'); [|lia].
      destruct (Z.ltb_spec (nth dim j 0) hi); [|lia]. reflexivity.
  - rewrite Ha, S by auto. reflexivity.
Qed.

Lemma agree_init x0 E lo hi : shp x0 = sh ->
  (forall j, valid sh j -> slabb sh idx dim j = true -> lo <= nth dim j 0 < hi ->
     at_ x0 j = E j (nth dim j 0)) -> agree x0 E lo hi x0.
Proof.
  intros Hs H. split; auto. intros j V. destruct (slabb sh idx dim j) eqn:S; simpl; auto.
  destruct (Z.leb_spec lo (nth dim j 0)); simpl; auto.
  destruct (Z.ltb_spec (nth dim j 0) hi); simpl; auto.
Qed.

(** Replacing E by a function equal to it on the covered interval. *)
Lemma agree_ext x0 E E' lo hi x : agree x0 E lo hi x ->
  (forall j k, online j -> lo <= k < hi -> E j k = E' j k) -> agree x0 E' lo hi x.
Proof.
  intros [Hs H] He. split; auto. intros j V. rewrite H by auto.
  destruct (slabb sh idx dim j) eqn:S; simpl; auto.
  destruct (Z.leb_spec lo (nth dim j 0)); simpl; auto.
  destruct (Z.ltb_spec (nth dim j 0) hi); simpl; auto.
  apply He; [apply online_valid; auto|lia].
Qed.
End Line.
