(** AvgPoolNd: window means (C39), means of the original elements only (C40). *)
From Coq Require Import Sorted Permutation.
From Verif Require Export PoolLinear OuterProofs.
Open Scope Z_scope.

(** Stride used for a kernel of size k: None means k. *)
Definition stride_or_size (k : Z) (s : option Z) : Z := match s with None => k | Some s => s end.
(** Coordinate of the original seen at offset o: the padded coordinate minus the width before. *)
Fixpoint source (al : list nat) (sts : list Z) (ws : list (Z * Z)) (j o : list Z) : list Z :=
  match al, sts, ws, o with
  | a :: al', s :: sts', w :: ws', k :: o' => upd a (nth a j 0 * s + k - fst w) (source al' sts' ws' j o')
  | _, _, _, _ => j
  end.
(** Is it inside the original image? *)
Fixpoint inside (al : list nat) (sts : list Z) (ws : list (Z * Z)) (sh j o : list Z) : bool :=
  match al, sts, ws, o with
  | a :: al', s :: sts', w :: ws', k :: o' =>
    (0 <=? nth a j 0 * s + k - fst w) && (nth a j 0 * s + k - fst w <? nth a sh 0) && inside al' sts' ws' sh j o'
  | _, _, _, _ => true
  end.

Section AV.
Variable F : ofield.
Add Field Fav : (f_field F).
Notation T := (tensor F).

Definition avg_ker (k : Z) : list F := zrepeat (fdiv f1 (fofZ k)) k.
Lemma avg_ker_klen k : 0 <= k -> klen (avg_ker k) = k.
Proof. intros H. unfold klen, avg_ker, zrepeat. rewrite repeat_length. lia. Qed.
Lemma avg_ker_nth k i : 0 <= i < k -> nth (Z.to_nat i) (avg_ker k) f0 = fdiv f1 (fofZ k).
Proof.
  intros H. unfold avg_ker, zrepeat. rewrite (nth_indep _ f0 (fdiv f1 (fofZ k))) by (rewrite repeat_length; lia). apply nth_repeat.
Qed.
Lemma avg_init_kernel n (ks : nds Z) l stride pd m : expand n ks = Some l -> avg_init ks stride pd = Ok m ->
  exists kers, expand n kers = Some (map avg_ker l) /\ sep_init kers stride pd = Ok m /\ forall k, In k l -> 0 <= k.
Proof.
  intros H Hm. unfold avg_init in Hm. destruct (nds_map avg_kernel_1d ks) as [kk|] eqn:E; [|discriminate]. cbn [bind] in Hm.
  exists kk. split; [|split; [auto|]].
  - destruct ks as [k|l']; simpl in *.
    + unfold avg_kernel_1d in E. destruct (k <? 0); [discriminate|]. cbn [bind] in E. inv E. inv H. simpl. f_equal.
      clear. induction n; simpl; auto. now rewrite IHn.
    + destruct (Nat.eqb_spec (length l') n) as [L|]; [|discriminate]. inv H.
      destruct (mapM avg_kernel_1d l) as [r|] eqn:E2; [|discriminate]. cbn [bind] in E. inv E. simpl.
      rewrite (mapM_length _ _ _ E2), Nat.eqb_refl. f_equal.
      apply list_ext with (d := []); [rewrite map_length; apply (mapM_length _ _ _ E2)|].
      rewrite (mapM_length _ _ _ E2). intros i Hi. pose proof (mapM_nth _ _ _ i 0 [] E2 Hi) as Q.
      rewrite (nth_indep (map avg_ker l) [] (avg_ker 0)) by (now rewrite map_length). rewrite map_nth.
      unfold avg_kernel_1d in Q. destruct (_ <? 0); inv Q. auto.
  - intros k Hk. destruct ks as [k'|l']; simpl in *.
    + unfold avg_kernel_1d in E. destruct (Z.ltb_spec k' 0); [discriminate|]. inv H. apply repeat_spec in Hk. lia.
    + destruct (Nat.eqb_spec (length l') n) as [L|]; [|discriminate]. inv H.
      destruct (mapM avg_kernel_1d l) as [r|] eqn:E2; [|discriminate].
      apply In_nth with (d := 0) in Hk. destruct Hk as [i [Hi <-]]. pose proof (mapM_nth _ _ _ i 0 [] E2 Hi) as Q.
      unfold avg_kernel_1d in Q. destruct (Z.ltb_spec (nth i l 0) 0); [discriminate|auto].
Qed.
Lemma map_klen_avg l : (forall k, In k l -> 0 <= k) -> map klen (map avg_ker l) = l.
Proof.
  intros H. rewrite map_map. rewrite <- (map_id l) at 2. apply map_ext_in. intros k Hk. apply avg_ker_klen, H, Hk.
Qed.
Lemma avg_strides l (sts : list (option Z)) : (forall k, In k l -> 0 <= k) ->
  map2 real_stride (map avg_ker l) sts = map2 stride_or_size l sts.
Proof.
  revert sts. induction l as [|k l IH]; intros [|s sts] H; simpl; auto. rewrite IH by (intros; apply H; now right). f_equal.
  unfold real_stride, stride_or_size. destruct s; auto. apply avg_ker_klen, H. now left.
Qed.
Lemma avg_eff l : (forall k, In k l -> 1 <= k) -> map eff_kernel (map avg_ker l) = map avg_ker l.
Proof.
  intros H. rewrite map_map. apply map_ext_in. intros k Hk. specialize (H k Hk). unfold avg_ker, zrepeat.
  destruct (Z.to_nat k) eqn:E; [lia|]. reflexivity.
Qed.
Lemma avg_eff_strides l sts : (forall k, In k l -> 1 <= k) -> length sts = length l -> map2 eff_stride (map avg_ker l) sts = sts.
Proof.
  revert sts. induction l as [|k l IH]; intros [|s sts] H L; simpl in *; try lia; auto. rewrite IH; auto.
  f_equal. specialize (H k (or_introl eq_refl)). unfold avg_ker, zrepeat. destruct (Z.to_nat k) eqn:E; [lia|]. reflexivity.
Qed.
Lemma avg_weight l : forall o, (forall k, In k l -> 1 <= k) -> valid l o -> weight (map avg_ker l) o = fdiv f1 (fofZ (zprod l)).
Proof.
  induction l as [|k l IH]; intros o H V; inv V.
  - simpl. change (fofZ (zprod [])) with (@f1 F). field. apply f1_neq_f0.
  - cbn [map weight]. rewrite avg_ker_nth by auto. rewrite IH; auto; [|intros; apply H; now right].
    change (zprod (k :: l)) with (k * zprod l). rewrite fofZ_mul.
    assert (K1 : 1 <= k) by (apply H; now left). assert (0 < zprod l) by (eapply zprod_pos; eauto).
    field. split; apply fofZ_neq0; lia.
Qed.
(** The window mean. *)
Definition window_mean (al : list nat) (ks sts : list Z) (x : T) (j : list Z) : F :=
  fdiv (bsum ks (fun o => at_ x (place al sts j o))) (fofZ (zprod ks)).
Lemma correlate_avg al l sts (x : T) j : (forall k, In k l -> 1 <= k) ->
  at_ (correlate al (map avg_ker l) sts x) j = window_mean al l sts x j.
Proof.
  intros H. cbn [correlate at_]. rewrite map_klen_avg by (intros k Hk; specialize (H k Hk); lia).
  rewrite (bsum_ext F _ _ (fun o => fmul (fdiv f1 (fofZ (zprod l))) (at_ x (place al sts j o)))).
  - rewrite bsum_mul. unfold window_mean.
    rewrite !(Fdiv_def (f_field F)). ring.
  - intros o Vo. now rewrite avg_weight.
Qed.
Lemma zprod_pos1 l : (forall k, In k l -> 1 <= k) -> 1 <= zprod l.
Proof.
  induction l as [|k l IH]; intros H; [unfold zprod; simpl; lia|]. change (zprod (k :: l)) with (k * zprod l).
  assert (1 <= k) by (apply H; now left). assert (1 <= zprod l) by (apply IH; intros; apply H; now right). nia.
Qed.
Lemma bsum_const l (c : F) : (forall k, In k l -> 1 <= k) -> bsum l (fun _ => c) = fmul (fofZ (zprod l)) c.
Proof.
  induction l as [|k l IH]; intros H; [unfold zprod; simpl; ring|]. simpl bsum.
  rewrite IH by (intros; apply H; now right). rewrite fsum_const by (specialize (H k (or_introl eq_refl)); lia).
  change (zprod (k :: l)) with (k * zprod l). rewrite fofZ_mul. ring.
Qed.
Lemma window_mean_bounds al l sts (x : T) j lo hi : (forall k, In k l -> 1 <= k) ->
  (forall o, valid l o -> fle lo (at_ x (place al sts j o)) /\ fle (at_ x (place al sts j o)) hi) ->
  fle lo (window_mean al l sts x j) /\ fle (window_mean al l sts x j) hi.
Proof.
  intros H B. pose proof (zprod_pos1 l H) as P. assert (P0 : flt f0 (fofZ (zprod l) : F)) by (apply fofZ_pos; lia).
  assert (E : forall c : F, c = fdiv (fmul (fofZ (zprod l)) c) (fofZ (zprod l))) by (intros; field; apply fofZ_neq0; lia).
  unfold window_mean. split.
  - rewrite (E lo). apply fdiv_le; auto. rewrite <- bsum_const by auto. apply bsum_le. intros o Vo. apply B, Vo.
  - rewrite (E hi). apply fdiv_le; auto. rewrite <- bsum_const by auto. apply bsum_le. intros o Vo. apply B, Vo.
Qed.

(** C39 *)
Theorem avg_valid fuel junk (ks : nds Z) stride (m : pool F) (x : T) ax al l sts : on_axes x ax al ->
  expand (length al) ks = Some l -> expand (length al) stride = Some sts -> avg_init ks stride None = Ok m ->
  (forall r, (r < length al)%nat -> 1 <= nth r l 0 <= nth (nth r al 0%nat) (shp x) 0) ->
  exists y, avg_forward fuel junk true m x ax = (m, Ok y) /\
    shp y = shp (correlate al (map avg_ker l) (map2 stride_or_size l sts) x) /\
    forall j, valid (shp y) j -> at_ y j = window_mean al l (map2 stride_or_size l sts) x j.
Proof.
  intros OA Hk Hs Hm Hr. destruct (avg_init_kernel _ _ _ _ _ _ Hk Hm) as [kers [K1 [K2 K3]]].
  pose proof (expand_length _ _ _ Hk) as Ll. pose proof (expand_length _ _ _ Hs) as Ls.
  assert (K4 : forall k, In k l -> 1 <= k).
  { intros k H. apply In_nth with (d := 0) in H. destruct H as [r [H1 <-]]. apply Hr. lia. }
  destruct (sep_init_par F _ _ _ _ _ _ _ K1 Hs K2) as [PP [Pp _]].
  rewrite avg_strides in PP by auto.
  assert (Hf : forall r, (r < length al)%nat -> klen (nth r (map avg_ker l) []) <= nth (nth r al 0%nat) (shp x) 0).
  { intros r H. rewrite (nth_indep (map avg_ker l) [] (avg_ker 0)) by (rewrite map_length; lia). rewrite map_nth.
    destruct (Hr r H). rewrite avg_ker_klen; lia. }
  destruct (sep_forward_valid F fuel junk m x ax al _ _ OA PP Pp Hf) as [y [Y1 Y2]].
  rewrite avg_eff, avg_eff_strides in Y2 by (auto; rewrite map2_length; lia).
  exists y. split; [exact Y1|]. destruct Y2 as [E1 E2]. split; auto. intros j V. rewrite E2 by auto.
  now rewrite correlate_avg.
Qed.

(** *** argsort *)
Lemma insert_pos_perm l i s : Permutation (insert_pos l i s) (i :: s).
Proof.
  induction s as [|j s IH]; simpl; auto. destruct (_ <=? _); auto.
  eapply perm_trans; [apply perm_skip, IH|]. apply perm_swap.
Qed.
Lemma argsort_perm l : Permutation (argsort l) (seq 0 (length l)).
Proof.
  unfold argsort. induction (seq 0 (length l)) as [|i s IH]; simpl; auto.
  eapply perm_trans; [apply insert_pos_perm|]. now apply perm_skip.
Qed.
Lemma insert_pos_sorted l i s : StronglySorted (fun a b => nth a l 0 <= nth b l 0) s ->
  StronglySorted (fun a b => nth a l 0 <= nth b l 0) (insert_pos l i s).
Proof.
  induction 1 as [|j s H IH Hj]; simpl; [repeat constructor|].
  destruct (Z.leb_spec (nth i l 0) (nth j l 0)).
  - constructor; [constructor; auto|]. constructor; auto. eapply Forall_impl; [|exact Hj]. simpl. intros. lia.
  - constructor; auto. assert (P := insert_pos_perm l i s). apply Forall_forall. intros b Hb.
    apply (Permutation_in b P) in Hb. destruct Hb as [<-|Hb]; [lia|]. rewrite Forall_forall in Hj. auto.
Qed.
Lemma argsort_sorted l : StronglySorted (fun a b => nth a l 0 <= nth b l 0) (argsort l).
Proof. unfold argsort. induction (seq 0 (length l)); simpl; [constructor|]. now apply insert_pos_sorted. Qed.
(** An ascending list is not reordered. *)
Lemma argsort_id l : StronglySorted Z.le l -> argsort l = seq 0 (length l).
Proof.
  intros H. unfold argsort.
  assert (G : forall n k, (n + k <= length l)%nat -> fold_right (insert_pos l) [] (seq k n) = seq k n).
  { induction n as [|n IH]; intros k Hk; simpl; auto. rewrite IH by lia. destruct n; simpl; auto.
    destruct (Z.leb_spec (nth k l 0) (nth (S k) l 0)) as [|Q]; auto. exfalso.
    assert (nth k l 0 <= nth (S k) l 0); [|lia].
    assert (Hk2 : (S k < length l)%nat) by lia. clear - H Hk2. revert k Hk2.
    induction H as [|a l H IH Ha]; intros k Hk; simpl in *; [lia|]. destruct k as [|k].
    - rewrite Forall_forall in Ha. apply Ha. apply nth_In. lia.
    - apply IH. lia. }
  apply G. lia.
Qed.
Lemma argsort_axes (al : list nat) : NoDup al ->
  let idx := argsort (map Z.of_nat al) in
  Permutation idx (seq 0 (length al)) /\ StronglySorted lt (map (fun i => nth i al 0%nat) idx).
Proof.
  intros Hn idx. pose proof (argsort_perm (map Z.of_nat al)) as P. rewrite map_length in P. fold idx in P. split; auto.
  pose proof (argsort_sorted (map Z.of_nat al)) as S. fold idx in S.
  assert (Hin : forall i, In i idx -> (i < length al)%nat).
  { intros i Hi. apply (Permutation_in i P) in Hi. apply in_seq in Hi. lia. }
  assert (Nd : NoDup idx) by (eapply Permutation_NoDup; [apply Permutation_sym, P|apply seq_NoDup]).
  clear P. induction S as [|i s S IH Hi]; simpl; constructor.
  - apply IH; [intros; apply Hin; now right|now inv Nd].
  - apply Forall_forall. intros b Hb. apply in_map_iff in Hb. destruct Hb as [k [<- Hk]].
    rewrite Forall_forall in Hi. specialize (Hi k Hk).
    assert (Li : (i < length al)%nat) by (apply Hin; now left). assert (Lk : (k < length al)%nat) by (apply Hin; now right).
    change 0 with (Z.of_nat 0) in Hi. rewrite !map_nth in Hi.
    assert (nth i al 0%nat <> nth k al 0%nat); [|lia]. intros E.
    apply NoDup_nth in E; auto. subst k. inv Nd. contradiction.
Qed.

(** Axes in ascending order: the other axes have length 1. *)
Lemma inserted_axes : forall s i (B : list nat), StronglySorted lt B -> (forall b, In b B -> (b < length s)%nat) -> valid s i ->
  (forall d, (d < length s)%nat -> ~ In d B -> nth d s 0 = 1) ->
  inserted s i (map (fun b => nth b s 0) B) (map (fun b => nth b i 0) B).
Proof.
  induction s as [|n s IH]; intros i B HB Hb V H1; inversion V as [|n0 k s0 i0 Hk V0]; subst.
  - destruct B as [|b B]; [constructor|]. specialize (Hb b (or_introl eq_refl)). simpl in Hb. lia.
  - assert (Pred : forall B', StronglySorted lt B' -> (forall b, In b B' -> (0 < b)%nat) -> 
       StronglySorted lt (map pred B') /\ forall (l : list Z) e, map (fun b => nth b (e :: l) 0) B' = map (fun b => nth b l 0) (map pred B')).
    { intros B' S0 P0. split.
      - induction S0 as [|b B' S0 IHS Hf]; simpl; constructor.
        + apply IHS. intros; apply P0; now right.
        + apply Forall_forall. intros c Hc. apply in_map_iff in Hc. destruct Hc as [d [<- Hd]].
          rewrite Forall_forall in Hf. specialize (Hf d Hd). specialize (P0 b (or_introl eq_refl)). lia.
      - intros l e. rewrite map_map. apply map_ext_in. intros b Hb'. specialize (P0 b Hb'). destruct b; [lia|reflexivity]. }
    assert (Hrec : forall B', StronglySorted lt B' -> (forall b, In b B' -> (0 < b < S (length s))%nat) ->
       (forall d, (0 < d < S (length s))%nat -> ~ In d B' -> nth d (n :: s) 0 = 1) ->
       inserted s i0 (map (fun b => nth b (n :: s) 0) B') (map (fun b => nth b (k :: i0) 0) B')).
    { intros B' S0 P0 Q0. destruct (Pred B' S0) as [P1 P2]; [intros b Hb'; specialize (P0 b Hb'); lia|]. rewrite !P2. apply IH; auto.
      - intros b Hb'. apply in_map_iff in Hb'. destruct Hb' as [c [<- Hc]]. specialize (P0 c Hc). lia.
      - intros d Hd Hn. apply (Q0 (S d)); [lia|]. intros Hi. apply Hn. apply in_map_iff. exists (S d). auto. }
    destruct (in_dec Nat.eq_dec 0%nat B) as [H0|H0].
    + destruct B as [|b B]; [contradiction|]. assert (b = 0%nat).
      { destruct H0 as [|H0]; auto. inv HB. rewrite Forall_forall in H4. specialize (H4 0%nat H0). lia. }
      subst b. cbn [map nth]. constructor. inversion HB as [|? ? S1 F1]; subst. rewrite Forall_forall in F1. apply Hrec; auto.
      * intros b Hb'. split; [apply F1, Hb'|]. apply Hb. now right.
      * intros d Hd Hnd. apply H1; simpl; [lia|]. intros [E|E]; [lia|contradiction].
    + assert (n = 1) by (apply (H1 0%nat); simpl; auto; lia). subst n. assert (k = 0) by lia. subst k. constructor.
      apply Hrec; auto.
      * intros b Hb'. split; [|now apply Hb]. destruct b; [contradiction|lia].
      * intros d Hd Hnd. apply H1; simpl; auto. lia.
Qed.

(** *** new_shape *)
Lemma z_shape_ok nd al zs idx : (forall a, In a al -> (a < nd)%nat) -> NoDup al -> NoDup idx ->
  (forall i, In i idx -> (i < length al)%nat) -> length zs = length al ->
  exists s, z_shape nd (map Z.of_nat al) zs idx = Ok s /\ length s = nd /\
    (forall i, In i idx -> nth (nth i al 0%nat) s 0 = nth i zs 0) /\
    (forall d, (d < nd)%nat -> (forall i, In i idx -> nth i al 0%nat <> d) -> nth d s 0 = 1).
Proof.
  intros Hal Hn. unfold z_shape.
  assert (G : forall idx s0, NoDup idx -> (forall i, In i idx -> (i < length al)%nat) -> length zs = length al -> length s0 = nd ->
     exists s, fold_left (fun acc i => s <- acc ;; a <- pyidx (map Z.of_nat al) (Z.of_nat i) ;; a <- axis_nat nd a ;;
        n <- pyidx zs (Z.of_nat i) ;; Ok (upd a n s)) idx (Ok s0) = Ok s /\ length s = nd /\
       (forall i, In i idx -> nth (nth i al 0%nat) s 0 = nth i zs 0) /\
       (forall d, (d < nd)%nat -> (forall i, In i idx -> nth i al 0%nat <> d) -> nth d s 0 = nth d s0 0)).
  { clear idx. induction idx as [|i idx IH]; intros s0 Nd Hi Hz L0; cbn [fold_left].
    - exists s0. repeat split; auto. intros i [].
    - assert (Li : (i < length al)%nat) by (apply Hi; now left).
      cbn [bind]. rewrite pyidx_nonneg with (d := 0) by (rewrite map_length; lia). cbn [bind].
      rewrite Nat2Z.id. change 0 with (Z.of_nat 0) at 1. rewrite map_nth.
      rewrite axis_nat_ok by (apply Hal, nth_In; auto). cbn [bind].
      rewrite pyidx_nonneg with (d := 0) by lia. cbn [bind]. rewrite Nat2Z.id.
      inv Nd. destruct (IH (upd (nth i al 0%nat) (nth i zs 0) s0)) as [s [S1 [S2 [S3 S4]]]]; auto.
      { intros k Hk. apply Hi. now right. }
      { now rewrite upd_length. }
      exists s. split; auto. split; auto. split.
      + intros k [<-|Hk]; auto. rewrite S4.
        * apply nth_upd_eq. apply Hal, nth_In; auto.
        * apply Hal, nth_In; auto.
        * intros k Hk E. apply NoDup_nth in E; auto; [subst; contradiction|apply Hi; now right].
      + intros d Hd Hd2. rewrite S4; auto; [apply nth_upd_ne, Hd2; now left|]. intros k Hk. apply Hd2. now right. }
  intros Nd Hi Hz. destruct (G idx (repeat 1 nd) Nd Hi Hz (repeat_length _ _)) as [s [S1 [S2 [S3 S4]]]].
  exists s. split; auto. split; auto. split; auto. intros d Hd Hd2. rewrite S4 by auto.
  rewrite (nth_indep _ 0 1) by (rewrite repeat_length; auto). apply nth_repeat.
Qed.

(** Broadcasting a smaller shape does not change the shape. *)
Lemma bshape_rev_absorb s t : erev t s = true -> bshape_rev s t = Some s.
Proof.
  revert t. induction s as [|a s IH]; intros [|b t] H; simpl in *; auto; try discriminate.
  apply andb_true_iff in H. destruct H as [H1 H2]. rewrite IH by auto.
  apply orb_true_iff in H1. rewrite !Z.eqb_eq in H1. unfold bdim.
  destruct (Z.eqb_spec a b); [reflexivity|]. destruct (Z.eqb_spec a 1); destruct (Z.eqb_spec b 1); try lia; auto.
Qed.
Lemma tmap2_absorb {A B C} (f : A -> B -> C) t u h : brep u (shp t) h ->
  exists w, tmap2 f t u = Ok w /\ shp w = shp t /\ forall i, valid (shp t) i -> at_ w i = f (at_ t i) (h i).
Proof.
  intros [H1 H2]. unfold tmap2, bshape. rewrite expandable_rev in H1. rewrite bshape_rev_absorb by auto. rewrite rev_involutive.
  eexists. split; [reflexivity|]. split; auto. intros i V. cbn [at_]. now rewrite bidx_same, H2.
Qed.

(** *** counting *)
Lemma filter_map_length {A B} (f : B -> bool) (g : A -> B) l : length (filter f (map g l)) = length (filter (fun a => f (g a)) l).
Proof. induction l as [|a l IH]; simpl; auto. destruct (f (g a)); simpl; auto. Qed.
Lemma seen_sum n pb k s j : 0 <= n -> 0 <= k ->
  fofZ (seen n pb k s j) = fsum k (fun o => if (0 <=? j * s + o - pb) && (j * s + o - pb <? n) then f1 else f0 : F).
Proof.
  intros Hn Hk. rewrite seen_formula by auto.
  assert (G : forall (c : nat), fsumn c (fun o => if (0 <=? j * s + o - pb) && (j * s + o - pb <? n) then f1 else f0 : F) =
     fofZ (Z.max 0 (Z.min (j * s + Z.of_nat c) (pb + n) - Z.max (j * s) pb))).
  { induction c as [|c IH].
    - simpl fsumn. replace (Z.max 0 _) with 0 by lia. reflexivity.
    - cbn [fsumn]. rewrite IH. 
      destruct (Z.leb_spec 0 (j * s + Z.of_nat c - pb)); destruct (Z.ltb_spec (j * s + Z.of_nat c - pb) n); cbn [andb].
      + rewrite <- fofZ_1, <- fofZ_add. f_equal. lia.
      + replace (Z.max 0 (Z.min (j * s + Z.of_nat (S c)) (pb + n) - Z.max (j * s) pb)) with (Z.max 0 (Z.min (j * s + Z.of_nat c) (pb + n) - Z.max (j * s) pb)) by lia. ring.
      + replace (Z.max 0 (Z.min (j * s + Z.of_nat (S c)) (pb + n) - Z.max (j * s) pb)) with (Z.max 0 (Z.min (j * s + Z.of_nat c) (pb + n) - Z.max (j * s) pb)) by lia. ring.
      + lia. }
  unfold fsum. rewrite G, Z2Nat.id by auto. reflexivity.
Qed.
(** Sum and number of the original elements in the window of j. *)
Definition inside_sum (al : list nat) (ks sts : list Z) ws (x : T) (j : list Z) : F :=
  bsum ks (fun o => if inside al sts ws (shp x) j o then at_ x (source al sts ws j o) else f0).
Definition inside_count (al : list nat) (ks sts : list Z) ws (sh : list Z) (j : list Z) : F :=
  bsum ks (fun o => if inside al sts ws sh j o then f1 else f0).
Lemma inside_count_prod : forall al ks sts ws sh j, length ks = length al -> length sts = length al -> length ws = length al ->
  (forall r, (r < length al)%nat -> 0 <= nth (nth r al 0%nat) sh 0 /\ 0 <= nth r ks 0) ->
  inside_count al ks sts ws sh j =
  fprod F (map (fun r => fofZ (seen (nth (nth r al 0%nat) sh 0) (fst (nth r ws (0, 0))) (nth r ks 0) (nth r sts 0) (nth (nth r al 0%nat) j 0))) (seq 0 (length al))).
Proof.
  induction al as [|a al IH]; intros [|k ks] [|s sts] [|w ws] sh j L1 L2 L3 H; simpl in L1, L2, L3; try lia.
  - unfold inside_count, fprod. simpl. reflexivity.
  - unfold inside_count. cbn [bsum inside length seq map].
    rewrite <- seq_shift, map_map. cbn [nth].
    change (fprod F (?h :: ?t)) with (fmul h (fprod F t)).
    destruct (H 0%nat ltac:(simpl; lia)) as [H1 H2]. simpl in H1, H2.
    rewrite <- (IH ks sts ws sh j) by (try lia; intros r Hr; apply (H (S r)); simpl; lia).
    rewrite seen_sum by auto. rewrite <- fsum_mul_r. apply fsum_ext. intros i Hi. unfold inside_count.
    destruct (_ && _) eqn:E; cbn [andb].
    + ring_simplify. reflexivity.
    + rewrite (bsum_ext F _ _ (fun _ => fmul f0 f0)) by (intros; ring). rewrite bsum_mul. ring.
Qed.
End AV.
