(** Edge filters: the fast path of _conv_edge, component, magnitude (C44-C46). *)
From Verif Require Export EdgeModel PoolPropLemmas.
Open Scope Z_scope.

(** t is the integer part of v: v rounded towards zero. *)
Definition integer_part {F : ofield} (v : F) (t : Z) : Prop :=
  (0 <= t /\ fle (fofZ t) v /\ flt v (fofZ (t + 1))) \/
  (t <= 0 /\ flt (fofZ (t - 1)) v /\ fle v (fofZ t)).
(** trunc is Python's int(): every scalar has its integer part. *)
Definition truncates {F : ofield} (trunc : F -> Z) : Prop := forall v : F, integer_part v (trunc v).

(** The kernel that _conv_edge really uses (edges.py:59-69). *)
Definition used_kernel {F : ofield} (trunc : F -> Z) (ker : list F) : list F :=
  if zlist_eqb (map trunc ker) [-1; 0; 1] then central_kernel
  else if zlist_eqb (map trunc ker) [1; -2; 1] then laplace_kernel
  else ker.

Section E.
Variable F : ofield.
Add Field Fed : (f_field F).
Notation T := (tensor F).
Variable trunc : F -> Z.

Lemma trunc_int z : truncates trunc -> trunc (fofZ z) = z.
Proof.
  intros H. assert (Hlt : forall a b, flt (fofZ a : F) (fofZ b) -> a < b).
  { intros a b Hab. destruct (Z.lt_ge_cases a b); auto. exfalso.
    assert (fle (fofZ b : F) (fofZ a)) by (apply fofZ_le; auto).
    pose proof (fle_flt_trans F _ _ _ H1 Hab) as Q. apply (flt_ne F) in Q. congruence. }
  assert (Hle : forall a b, fle (fofZ a : F) (fofZ b) -> a <= b).
  { intros a b Hab. destruct (Z.le_gt_cases a b); auto. exfalso.
    assert (Q : fle (fofZ b : F) (fofZ a)) by (apply fofZ_le; lia).
    pose proof (fle_antisym F _ _ Hab Q) as E. apply fofZ_inj in E. lia. }
  destruct (H (fofZ z)) as [[A [B C]]|[A [B C]]].
  - apply Hle in B. apply Hlt in C. lia.
  - apply Hlt in B. apply Hle in C. lia.
Qed.

Lemma zlist_eqb_spec l m : zlist_eqb l m = true -> l = m.
Proof.
  unfold zlist_eqb. revert m. induction l as [|a l IH]; intros [|b m]; simpl; try discriminate; auto.
  intros H. apply andb_true_iff in H. destruct H as [H1 H2]. apply Z.eqb_eq in H1. subst. f_equal. auto.
Qed.
Lemma used_length ker : length (used_kernel trunc ker) = length ker.
Proof.
  unfold used_kernel. destruct (zlist_eqb _ _) eqn:E1.
  - apply zlist_eqb_spec in E1. apply (f_equal (@length Z)) in E1. rewrite map_length in E1. rewrite E1. reflexivity.
  - clear E1. destruct (zlist_eqb _ _) eqn:E1; auto.
    apply zlist_eqb_spec in E1. apply (f_equal (@length Z)) in E1. rewrite map_length in E1. rewrite E1. reflexivity.
Qed.
Lemma used_klen ker : klen (used_kernel trunc ker) = klen ker.
Proof. unfold klen. now rewrite used_length. Qed.

(** *** slices along one axis *)
Definition nonneg_shape (t : T) : Prop := forall d, (d < ndim t)%nat -> 0 <= nth d (shp t) 0.

Lemma slice_axis_ok (t : T) sl a lo m : (a < ndim t)%nat -> nonneg_shape t ->
  resolve (nth a (shp t) 0) sl = mkR lo m 1 ->
  exists w, slice_axis t sl (Z.of_nat a) = Ok w /\ shp w = upd a m (shp t) /\
    forall i, length i = ndim t -> at_ w i = at_ t (upd a (lo + nth a i 0) i).
Proof.
  intros Ha Hp Hs. unfold slice_axis. rewrite axis_nat_ok by auto. cbn [bind].
  rewrite make_idx_upd by auto. unfold tget. rewrite upd_length, repeat_length. unfold ndim. rewrite Nat.eqb_refl.
  eexists. split; [reflexivity|]. cbn [shp at_].
  assert (R : map2 resolve (shp t) (upd a sl (repeat sfull (length (shp t)))) = upd a (mkR lo m 1) (map (fun n => mkR 0 n 1) (shp t))).
  { apply list_ext with (d := mkR 0 0 1).
    - rewrite map2_length_eq by (now rewrite upd_length, repeat_length). now rewrite upd_length, map_length.
    - intros d Hd. rewrite map2_length_eq in Hd by (now rewrite upd_length, repeat_length).
      rewrite nth_map2 with (da := 0) (db := sfull) by (rewrite ?upd_length, ?repeat_length; auto).
      rewrite !nth_upd. rewrite map_length, repeat_length. destruct (Nat.eqb_spec a d) as [->|E]; cbn [andb].
      + destruct (Nat.ltb_spec d (length (shp t))); [auto|lia].
      + rewrite nth_repeat. rewrite (map_nth (fun n => mkR 0 n 1) (shp t) 0). apply resolve_sfull. apply Hp. auto. }
  rewrite R. split.
  - rewrite upd_map, map_map. cbn [r_len]. now rewrite map_id.
  - intros i Hi. f_equal. rewrite map2_upd_l with (db := 0). f_equal; [unfold rpos; cbn; lia|].
    clear - Hi. revert Hi. generalize (shp t). induction i as [|k i IH]; intros [|n l] H; simpl in *; try discriminate; auto.
    f_equal; [unfold rpos; cbn; lia|]. apply IH. lia.
Qed.

Lemma resolve_hi n : 2 <= n -> resolve n (mkS (Some 2) None 1) = mkR 2 (n - 2) 1.
Proof. intros. unfold resolve; cbn [s_lo s_hi s_st]. rewrite clampi_in by lia. rewrite Z.div_1_r. f_equal. lia. Qed.
Lemma resolve_lo n : 2 <= n -> resolve n (mkS (Some 0) (Some (-2)) 1) = mkR 0 (n - 2) 1.
Proof.
  intros. unfold resolve; cbn [s_lo s_hi s_st]. rewrite clampi_in by lia. rewrite Z.div_1_r. unfold clampi.
  change (-2 <? 0) with true. cbv iota. f_equal. lia.
Qed.
Lemma resolve_mid n : 2 <= n -> resolve n (mkS (Some 1) (Some (-1)) 1) = mkR 1 (n - 2) 1.
Proof.
  intros. unfold resolve; cbn [s_lo s_hi s_st]. rewrite clampi_in by lia. rewrite Z.div_1_r. unfold clampi.
  change (-1 <? 0) with true. cbv iota. f_equal. lia.
Qed.

Lemma fsum_3 (f : Z -> F) : fsum 3 f = fadd (fadd (f 0) (f 1)) (f 2).
Proof. unfold fsum. simpl. ring. Qed.

(** Correlation of xp with ker along axis a, at j. *)
Definition line_corr (xp : T) (ker : list F) (a : nat) (j : list Z) : F :=
  fsum (klen ker) (fun q => fmul (nth (Z.to_nat q) ker f0) (at_ xp (upd a (nth a j 0 + q) j))).

Lemma line_corr3 xp k0 k1 k2 a j : line_corr xp [k0; k1; k2] a j =
  fadd (fadd (fmul k0 (at_ xp (upd a (nth a j 0) j))) (fmul k1 (at_ xp (upd a (nth a j 0 + 1) j)))) (fmul k2 (at_ xp (upd a (nth a j 0 + 2) j))).
Proof.
  unfold line_corr. change (klen [k0; k1; k2]) with 3. rewrite fsum_3. rewrite Z.add_0_r.
  change (Z.to_nat 0) with 0%nat. change (Z.to_nat 1) with 1%nat. change (Z.to_nat 2) with 2%nat. reflexivity.
Qed.

Lemma conv_edge_ok fuel junk (e : edge_filter F) (x xp : T) a m : (a < ndim x)%nat ->
  pool_par F (ef_edge e) 1 [ef_kernel e] [1] -> ef_kernel e <> [] ->
  pool_pad fuel junk (ef_edge e) x (AxInt (Z.of_nat a)) = (m, Ok xp) -> ndim xp = ndim x -> nonneg_shape xp ->
  klen (ef_kernel e) <= nth a (shp xp) 0 ->
  pl_size m = pl_size (ef_edge e) -> pl_kernel m = pl_kernel (ef_edge e) -> pl_stride m = pl_stride (ef_edge e) ->
  exists c, conv_edge trunc fuel junk e x (Z.of_nat a) = (set_edge e m, Ok c) /\
    shp c = upd a (nth a (shp xp) 0 - klen (ef_kernel e) + 1) (shp xp) /\
    forall j, valid (shp c) j -> at_ c j = line_corr xp (used_kernel trunc (ef_kernel e)) a j.
Proof.
  intros Ha PP Hk HP Hnd Hnn Hfit M1 M2 M3. unfold conv_edge, used_kernel.
  assert (Haxp : (a < ndim xp)%nat) by lia.
  assert (Fit3 : forall l, zlist_eqb (map trunc (ef_kernel e)) l = true -> length l = 3%nat -> klen (ef_kernel e) = 3).
  { intros l H L. apply zlist_eqb_spec in H. apply (f_equal (@length Z)) in H. rewrite map_length in H. unfold klen. lia. }
  destruct (zlist_eqb _ _) eqn:E1; [|clear E1; destruct (zlist_eqb _ _) eqn:E1].
  - rewrite HP. cbn [bind]. specialize (Fit3 _ E1 eq_refl). rewrite Fit3 in *.
    destruct (slice_axis_ok xp (mkS (Some 2) None 1) a 2 (nth a (shp xp) 0 - 2)) as [hi [H1 [H2 H3]]]; auto; [apply resolve_hi; lia|].
    destruct (slice_axis_ok xp (mkS (Some 0) (Some (-2)) 1) a 0 (nth a (shp xp) 0 - 2)) as [lo [L1 [L2 L3]]]; auto; [apply resolve_lo; lia|].
    rewrite H1, L1. cbn [bind]. destruct (tmap2_same fsub hi lo) as [c [C1 [C2 C3]]]; [congruence|].
    rewrite C1. exists c. split; auto. split; [rewrite C2, H2; f_equal; lia|].
    intros j Vj. assert (Lj : length j = ndim xp) by (rewrite (valid_length _ _ Vj), C2, H2, upd_length; auto).
    rewrite C3 by congruence. rewrite H3, L3 by auto. unfold central_kernel, ints. cbn [map]. rewrite line_corr3.
    rewrite (Z.add_comm 2), (Z.add_comm 0), !Z.add_0_r. unfold fofZ; cbn [fofpos]. ring.
  - rewrite HP. cbn [bind]. specialize (Fit3 _ E1 eq_refl). rewrite Fit3 in *.
    destruct (slice_axis_ok xp (mkS (Some 2) None 1) a 2 (nth a (shp xp) 0 - 2)) as [hi [H1 [H2 H3]]]; auto; [apply resolve_hi; lia|].
    destruct (slice_axis_ok xp (mkS (Some 0) (Some (-2)) 1) a 0 (nth a (shp xp) 0 - 2)) as [lo [L1 [L2 L3]]]; auto; [apply resolve_lo; lia|].
    destruct (slice_axis_ok xp (mkS (Some 1) (Some (-1)) 1) a 1 (nth a (shp xp) 0 - 2)) as [mid [D1 [D2 D3]]]; auto; [apply resolve_mid; lia|].
    rewrite H1, L1, D1. cbn [bind]. destruct (tmap2_same fadd hi lo) as [s [C1 [C2 C3]]]; [congruence|].
    rewrite C1. cbn [bind]. destruct (tmap2_same fsub s (tmap (fmul (fofZ 2)) mid)) as [c [B1 [B2 B3]]]; [cbn; congruence|].
    rewrite B1. exists c. split; auto. split; [rewrite B2, C2, H2; f_equal; lia|].
    intros j Vj. assert (Lj : length j = ndim xp) by (rewrite (valid_length _ _ Vj), B2, C2, H2, upd_length; auto).
    rewrite B3 by congruence. rewrite C3 by congruence. cbn [tmap at_]. rewrite H3, L3, D3 by auto. unfold laplace_kernel, ints. cbn [map]. rewrite line_corr3.
    rewrite (Z.add_comm 2), (Z.add_comm 1), (Z.add_comm 0), !Z.add_0_r. unfold fofZ; cbn [fofpos]. ring.
  - clear Fit3. unfold sep_forward.
    assert (CA : check_axes (Z.of_nat (ndim x)) (AxInt (Z.of_nat a)) = Ok [Z.of_nat a]).
    { unfold check_axes. destruct (Z.leb_spec 0 (Z.of_nat a)); [auto|lia]. }
    rewrite CA. destruct PP as [P1 [P2 [P3 P4]]].
    assert (E : (pl_ndim (ef_edge e) =? 0) || (pl_ndim (ef_edge e) =? Z.of_nat (length [Z.of_nat a])) = true).
    { apply orb_true_iff. destruct P3 as [->| ->]; [left|right]; reflexivity. }
    rewrite E.
    assert (HP2 : pool_pad fuel junk (ef_edge e) x (AxSeq [Z.of_nat a]) = (m, Ok xp)).
    { rewrite <- HP. unfold pool_pad. rewrite CA. change [Z.of_nat a] with (map Z.of_nat [a]).
      rewrite check_axes_seq_nat by (intros b [<-|[]]; auto). reflexivity. }
    rewrite HP2. cbn [bind]. destruct (P4 0%nat ltac:(lia)) as [Q1 [Q2 [Q3 Q4]]]. cbn [nth] in *. change (Z.of_nat 0) with 0 in *.
    cbn [pool_loop]. rewrite M1, Q1. cbn [bind].
    destruct (Z.eqb_spec (klen (ef_kernel e)) 0) as [E0|E0].
    { exfalso. unfold klen in E0. destruct (ef_kernel e); [congruence|]. simpl in E0. lia. }
    rewrite M3, Q3. cbn [bind]. rewrite axis_nat_ok by auto. cbn [bind].
    destruct (tunfold_matvec F xp a (ef_kernel e) 1) as [u [c [U1 [U2 [U3 U4]]]]]; auto; try lia.
    rewrite U1. cbn [bind]. rewrite M2, Q2. cbn [bind]. rewrite U2. cbn [bind]. exists c.
    split; auto. split; [rewrite U3, Z.div_1_r; auto|].
    intros j Vj. rewrite U4 by (rewrite (valid_length _ _ Vj), U3, upd_length; auto). unfold line_corr. apply fsum_ext. intros q Hq.
    now rewrite Z.mul_1_r.
Qed.
End E.
