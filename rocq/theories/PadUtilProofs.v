(** Proofs about padding/utils.py and utils/validation.py. *)
From Verif Require Export PadModel BaseLemmas.

(** ** Specifications *)
(** m windows of size k and stride s fit into n elements. *)
Definition window_count (n k s m : Z) : Prop := forall j, 0 <= j -> (j < m <-> j * s + k <= n).
(** m = ceil(n / s) *)
Definition is_ceil_div (n s m : Z) : Prop := (m - 1) * s < n <= m * s.

Lemma zceil_div_spec n s : 0 < s -> is_ceil_div n s (zceil_div n s).
Proof.
  intros. unfold is_ceil_div, zceil_div. pose proof (Z.div_mod (- n) s). pose proof (Z.mod_pos_bound (- n) s). nia.
Qed.
Lemma is_ceil_div_unique n s m m' : 0 < s -> is_ceil_div n s m -> is_ceil_div n s m' -> m = m'.
Proof. unfold is_ceil_div. intros. nia. Qed.

Lemma same_pad_split_spec t b a : same_pad_split t = (b, a) ->
  0 <= a /\ 0 <= b /\ 0 <= b - a <= 1 /\ b + a = Z.max t 0.
Proof.
  unfold same_pad_split. intros H. inv H.
  pose proof (Z.div_mod (Z.max t 0) 2). pose proof (Z.mod_pos_bound (Z.max t 0) 2). lia.
Qed.

Lemma same_padding_eq k s n : 1 <= s -> 1 <= n -> 1 <= k ->
  same_padding_width k (Some s) (Some n) = Ok (same_pad_split ((zceil_div n s - 1) * s + k - n)).
Proof.
  intros. unfold same_padding_width. destruct (Z.eqb_spec s 0); [lia|].
  destruct s as [|[| |]|]; try lia; auto.
  f_equal. f_equal. pose proof (zceil_div_spec n 1). unfold is_ceil_div in *. lia.
Qed.

Theorem same_padding_windows k s n : 1 <= k -> 1 <= s -> 1 <= n ->
  exists b a m, same_padding_width k (Some s) (Some n) = Ok (b, a) /\
    0 <= a /\ 0 <= b /\ 0 <= b - a <= 1 /\
    is_ceil_div n s m /\ window_count (n + b + a) k s m /\ (s = 1 -> m = n).
Proof.
  intros Hk Hs Hn. rewrite same_padding_eq by auto.
  destruct (same_pad_split ((zceil_div n s - 1) * s + k - n)) as [b a] eqn:E.
  apply same_pad_split_spec in E. destruct E as [E1 [E2 [E3 E4]]].
  pose proof (zceil_div_spec n s ltac:(lia)) as C. set (m := zceil_div n s) in *.
  exists b, a, m. split; auto. split; [lia|]. split; [lia|]. split; [lia|]. split; [exact C|]. unfold is_ceil_div in C. split.
  - intros j Hj. replace (n + b + a) with (n + Z.max ((m - 1) * s + k - n) 0) by lia. split; intros.
    + assert (j * s <= (m - 1) * s) by nia. lia.
    + destruct (Z.le_gt_cases m j); [|lia]. assert (m * s <= j * s) by nia. nia.
  - intros ->. lia.
Qed.
(** stride None is stride = kernel_size; stride 1 needs no input size. *)
Theorem same_padding_none k n : same_padding_width k None n =
  match n with None => Err ValueError | Some _ => if k =? 0 then Err ZeroDivisionError
    else if k =? 1 then match n with Some n => Ok (same_pad_split ((zceil_div n 1 - 1) * 1 + 1 - n)) | None => Err ValueError end
    else same_padding_width k (Some k) n end.
Proof.
  destruct n as [n|]; auto. unfold same_padding_width.
  destruct (Z.eqb_spec k 0); auto. destruct (Z.eqb_spec k 1); [subst; auto|].
  destruct k as [|[| |]|]; try lia; auto.
Qed.
Theorem same_padding_none_windows k n : 1 <= k -> 1 <= n ->
  exists b a m, same_padding_width k None (Some n) = Ok (b, a) /\
    0 <= a /\ 0 <= b /\ 0 <= b - a <= 1 /\ is_ceil_div n k m /\ window_count (n + b + a) k k m.
Proof.
  intros. destruct (same_padding_windows k k n) as [b [a [m [H1 [H2 [H3 [H4 [H5 [H6 _]]]]]]]]]; auto.
  exists b, a, m. split; auto. rewrite same_padding_none.
  destruct (Z.eqb_spec k 0); [lia|]. destruct (Z.eqb_spec k 1); auto.
  subst k. rewrite <- H1, same_padding_eq by lia. reflexivity.
Qed.
Theorem same_padding_stride1 k n : same_padding_width k (Some 1) n = Ok (same_pad_split (k - 1)).
Proof. reflexivity. Qed.
Theorem same_padding_needs_size k s : s <> Some 1 -> same_padding_width k s None = Err ValueError.
Proof. intros. unfold same_padding_width. destruct s as [[|[| |]|]|]; auto; congruence. Qed.

(** Coverage. *)
Definition covered (k s b m e : Z) : Prop := exists j, 0 <= j < m /\ j * s <= e + b < j * s + k.
Theorem same_padding_covers_all k s n b a m : 1 <= s <= k -> 1 <= n ->
  same_padding_width k (Some s) (Some n) = Ok (b, a) -> is_ceil_div n s m ->
  forall e, 0 <= e < n -> covered k s b m e.
Proof.
  intros Hs Hn H Hm e He. rewrite same_padding_eq in H by lia.
  assert (H1 : same_pad_split ((zceil_div n s - 1) * s + k - n) = (b, a)) by congruence.
  pose proof (zceil_div_spec n s ltac:(lia)) as C. rewrite (is_ceil_div_unique n s _ m ltac:(lia) C Hm) in H1.
  apply same_pad_split_spec in H1. unfold is_ceil_div in Hm.
  pose proof (Z.div_mod (e + b) s). pose proof (Z.mod_pos_bound (e + b) s).
  destruct (Z.lt_ge_cases ((e + b) / s) m).
  - exists ((e + b) / s). split; [|lia]. split; [apply Z.div_pos; lia|auto].
  - exists (m - 1). split; [nia|]. nia.
Qed.
Theorem same_padding_covers_refuted : exists k s n b a m e,
  1 <= k /\ 1 <= s /\ 1 <= n /\ same_padding_width k (Some s) (Some n) = Ok (b, a) /\
  is_ceil_div n s m /\ 0 <= e < n /\ ~ covered k s b m e.
Proof.
  exists 1, 3, 3, 0, 0, 1, 2. split; [lia|]. split; [lia|]. split; [lia|]. split; [reflexivity|].
  split; [unfold is_ceil_div; lia|]. split; [lia|]. intros [j [H1 H2]]. lia.
Qed.
(** In fact coverage fails whenever the kernel is smaller than the stride and
    the axis is at least as long as the stride. *)
Theorem same_padding_gap k s n b a m : 1 <= k < s -> s <= n ->
  same_padding_width k (Some s) (Some n) = Ok (b, a) -> is_ceil_div n s m ->
  exists e, 0 <= e < n /\ ~ covered k s b m e.
Proof.
  intros Hs Hn H Hm. rewrite same_padding_eq in H by lia.
  assert (H1 : same_pad_split ((zceil_div n s - 1) * s + k - n) = (b, a)) by congruence.
  pose proof (zceil_div_spec n s ltac:(lia)) as C. rewrite (is_ceil_div_unique n s _ m ltac:(lia) C Hm) in H1.
  apply same_pad_split_spec in H1. unfold is_ceil_div in Hm.
  destruct (Z.le_gt_cases k b).
  - (* the first window sees padding only: element 0 can still be in the gap *)
    assert (b < k \/ k <= b) by lia.
    assert (2 * b <= Z.max ((m - 1) * s + k - n) 0 + 1) by lia.
    assert ((m - 1) * s + k - n <= k - 1) by lia. lia.
  - exists (k - b). split; [lia|]. intros [j [J1 J2]].
    assert (Hj : j = 0 \/ 1 <= j) by lia. destruct Hj; [subst j; lia|]. nia.
Qed.

(** ** pad_width_format *)
Definition flat (l : list (Z * Z)) : list (list Z) := map (fun p => [fst p; snd p]) l.
Lemma chunk2_flat l : chunk2 (concat (flat l)) = flat l.
Proof. induction l as [|[a b] l IH]; simpl; auto. now rewrite IH. Qed.
Lemma concat_flat_length l : length (concat (flat l)) = (2 * length l)%nat.
Proof. induction l as [|[a b] l IH]; simpl; auto. rewrite IH. lia. Qed.
Lemma flat_rev l : rev (flat l) = flat (rev l).
Proof. unfold flat. symmetry. apply map_rev. Qed.

Theorem numpy_torch_numpy l nd : pw_torch_to_numpy (pw_numpy_to_torch (flat l)) (Some nd) =
  Ok (flat (repeat (0, 0) (Z.to_nat (nd - Z.of_nat (length l))) ++ l)).
Proof.
  unfold pw_torch_to_numpy, pw_numpy_to_torch. rewrite flat_rev, concat_flat_length, chunk2_flat, rev_length.
  replace (Z.of_nat (2 * length l) / 2) with (Z.of_nat (length l))
    by (rewrite Nat2Z.inj_mul, Z.mul_comm, Z.div_mul; lia).
  f_equal. rewrite flat_rev, rev_involutive. unfold flat. rewrite map_app. f_equal.
  set (k := Z.to_nat (nd - Z.of_nat (length l))). clearbody k. induction k; simpl; congruence.
Qed.
Theorem numpy_torch_numpy_id l : pw_torch_to_numpy (pw_numpy_to_torch (flat l)) (Some (Z.of_nat (length l))) = Ok (flat l).
Proof. rewrite numpy_torch_numpy, Z.sub_diag. reflexivity. Qed.
(** torch's flat list: the last axis first *)
Definition torch_form (l : list (Z * Z)) : list Z := concat (flat (rev l)).
Theorem torch_numpy l nd : pw_torch_to_numpy (torch_form l) (Some nd) =
  Ok (flat (repeat (0, 0) (Z.to_nat (nd - Z.of_nat (length l))) ++ l)).
Proof. rewrite <- numpy_torch_numpy. unfold torch_form, pw_numpy_to_torch. now rewrite flat_rev. Qed.
Theorem torch_numpy_torch l nd z : pw_torch_to_numpy (torch_form l) (Some nd) = Ok z ->
  pw_numpy_to_torch z = torch_form l ++ repeat 0 (2 * Z.to_nat (nd - Z.of_nat (length l))).
Proof.
  rewrite torch_numpy. intros H. inv H. unfold pw_numpy_to_torch. rewrite flat_rev, rev_app_distr.
  unfold torch_form, flat. rewrite map_app, concat_app. f_equal.
  set (k := Z.to_nat (nd - Z.of_nat (length l))). clearbody k.
  assert (R : rev (repeat (0, 0) k) = repeat (0, 0) k).
  { clear. induction k; auto. simpl. rewrite IHk. clear IHk. induction k; simpl; auto. now rewrite IHk. }
  rewrite R. clear R. induction k; auto. simpl. rewrite IHk. replace (k + S (k + 0))%nat with (S (k + (k + 0)))%nat by lia. reflexivity.
Qed.
(** A flat list of odd length: the unpaired last width becomes a one-element entry. *)
Lemma chunk2_odd l a : chunk2 (concat (flat l) ++ [a]) = flat l ++ [[a]].
Proof. induction l as [|[u v] l IH]; simpl; auto. now rewrite IH. Qed.
Theorem torch_numpy_odd l a nd : pw_torch_to_numpy (torch_form l ++ [a]) (Some nd) =
  Ok (flat (repeat (0, 0) (Z.to_nat (nd - Z.of_nat (length l)))) ++ [a] :: flat l).
Proof.
  unfold pw_torch_to_numpy, torch_form. rewrite app_length, concat_flat_length, chunk2_odd, rev_length, rev_app_distr, flat_rev, rev_involutive.
  replace (Z.of_nat (2 * length l + length [a]) / 2) with (Z.of_nat (length l)).
  2:{ cbn [length]. rewrite Nat2Z.inj_add, Nat2Z.inj_mul. apply Z.div_unique with 1; lia. }
  f_equal. cbn [rev app]. f_equal. set (k := Z.to_nat _). clearbody k. induction k; simpl; congruence.
Qed.
Theorem torch_numpy_no_ndim l : pw_torch_to_numpy l None = Err AssertionError.
Proof. reflexivity. Qed.

(** ** Validators *)
Theorem check_stride_spec s : (exists r, check_stride s = Ok r) <-> (s = None \/ exists v, s = Some v /\ 1 <= v).
Proof.
  unfold check_stride. destruct s as [v|].
  - destruct (Z.ltb_spec v 1).
    + split; [intros [r Hr]; discriminate|]. intros [|[w [E ?]]]; [discriminate|]. inv E. lia.
    + split; eauto.
  - split; eauto.
Qed.
Theorem check_stride_same s r : check_stride s = Ok r -> r = s.
Proof. unfold check_stride. destruct s; [destruct (_ <? _); [discriminate|]|]; congruence. Qed.
Theorem check_stride_err s e : check_stride s = Err e -> e = ValueError.
Proof. unfold check_stride. destruct s; [destruct (_ <? _)|]; congruence. Qed.
Theorem check_pad_width_spec b a : (exists r, check_pad_width b a = Ok r) <-> 0 <= b /\ 0 <= a.
Proof.
  unfold check_pad_width. destruct (Z.ltb_spec b 0); destruct (Z.ltb_spec a 0); simpl;
    split; try (intros [r Hr]; discriminate); try lia; eauto.
Qed.
Theorem check_pad_width_same b a r : check_pad_width b a = Ok r -> r = (b, a).
Proof. unfold check_pad_width. destruct (_ || _); congruence. Qed.
Theorem check_pad_width_err b a e : check_pad_width b a = Err e -> e = ValueError.
Proof. unfold check_pad_width. destruct (_ || _); congruence. Qed.

(** ** check_axes *)
(** The axis number meant by a in a tensor with nd axes. *)
Definition norm_axis (nd a : Z) : Z := if a <? 0 then nd + a else a.
Lemma resolve_slice_range n s : 0 <= n -> 1 <= s_st s -> forall k, 0 <= k < r_len (resolve n s) ->
  0 <= rpos (resolve n s) k < n.
Proof.
  intros Hn Hs k. unfold resolve, rpos. cbv zeta. cbn [r_lo r_len r_st].
  set (lo := match s_lo s with Some i => clampi n i | None => 0 end).
  set (hi := match s_hi s with Some i => clampi n i | None => n end).
  assert (Hc : forall i, 0 <= clampi n i <= n) by (intros; unfold clampi; repeat zcase; lia).
  assert (L : 0 <= lo) by (unfold lo; destruct (s_lo s); [apply Hc|lia]).
  assert (Hh : hi <= n) by (unfold hi; destruct (s_hi s); [apply Hc|lia]).
  intros Hk. set (c := zceil_div (hi - lo) (s_st s)).
  fold lo hi in Hk.
  pose proof (Z.div_mod (hi - lo + s_st s - 1) (s_st s) ltac:(lia)).
  pose proof (Z.mod_pos_bound (hi - lo + s_st s - 1) (s_st s) ltac:(lia)).
  fold lo. nia.
Qed.
Theorem check_axes_none nd : 0 <= nd -> check_axes nd AxNone = Ok (zrange nd).
Proof. reflexivity. Qed.
Theorem check_axes_slice_pos nd s : 0 <= nd -> 1 <= s_st s ->
  exists l, check_axes nd (AxSlice s) = Ok l /\ forall a, In a l -> 0 <= a < nd.
Proof.
  intros. cbn [check_axes]. unfold range_slice. destruct (Z.eqb_spec (s_st s) 0); [lia|]. destruct (Z.ltb_spec 0 (s_st s)); [|lia].
  eexists; split; [reflexivity|]. intros a Ha.
  apply in_map_iff in Ha. destruct Ha as [k [<- Hk]]. apply In_zrange in Hk. now apply resolve_slice_range.
Qed.
Lemma arith_nodup (f : Z -> Z) st : st <> 0 -> (forall k, f (k + 1) = f k + st) -> forall n, NoDup (map f (zrange n)).
Proof.
  intros Hst Hf n. assert (G : forall k m : nat, f (Z.of_nat m) = f (Z.of_nat k) + (Z.of_nat m - Z.of_nat k) * st).
  { intros k m. assert (E0 : forall j : nat, f (Z.of_nat j) = f 0 + Z.of_nat j * st).
    { induction j; [cbn; lia|]. rewrite Nat2Z.inj_succ. unfold Z.succ. rewrite Hf, IHj. lia. }
    rewrite !E0. lia. }
  apply (NoDup_nth _ 0). rewrite map_length, zrange_length. intros i j Hi Hj E.
  rewrite (nth_indep _ 0 (f 0)) in E by (now rewrite map_length, zrange_length). rewrite (nth_indep (map f (zrange n)) 0 (f 0)) in E by (now rewrite map_length, zrange_length).
  rewrite !map_nth, !nth_zrange in E by auto. rewrite (G i j) in E. nia.
Qed.
(** range(nd)[s]: valid distinct axes, each the previous one plus the step; step 0 raises. *)
Theorem check_axes_slice nd s : 0 <= nd ->
  (s_st s = 0 -> check_axes nd (AxSlice s) = Err ValueError) /\
  (s_st s <> 0 -> exists l, check_axes nd (AxSlice s) = Ok l /\ (forall a, In a l -> 0 <= a < nd) /\ NoDup l /\
     forall k, (S k < length l)%nat -> nth (S k) l 0 = nth k l 0 + s_st s).
Proof.
  intros Hn. cbn [check_axes]. unfold range_slice. split; intros Hs; [now rewrite Hs|]. destruct (Z.eqb_spec (s_st s) 0); [lia|].
  assert (C : forall (f : Z -> Z) len, (forall k, f (k + 1) = f k + s_st s) -> forall k, (S k < length (map f (zrange len)))%nat ->
     nth (S k) (map f (zrange len)) 0 = nth k (map f (zrange len)) 0 + s_st s).
  { intros f len Hf k. rewrite map_length, zrange_length. intros Hk. rewrite !(nth_indep (map f (zrange len)) 0 (f 0)) by (rewrite map_length, zrange_length; lia).
    rewrite !map_nth, !nth_zrange by lia. rewrite <- Hf. f_equal. lia. }
  destruct (Z.ltb_spec 0 (s_st s)).
  - eexists. split; [reflexivity|]. split; [|split].
    + intros a Ha. apply in_map_iff in Ha. destruct Ha as [k [<- Hk]]. apply In_zrange in Hk. apply resolve_slice_range; auto. lia.
    + apply arith_nodup with (st := s_st s); auto. intros k. unfold rpos. cbn. lia.
    + apply C. intros k. unfold rpos. cbn. lia.
  - cbv zeta. set (start := match s_lo s with Some i => clamp_down nd i | None => nd - 1 end).
    set (stop := match s_hi s with Some i => clamp_down nd i | None => -1 end).
    assert (Hc : forall i, -1 <= clamp_down nd i <= nd - 1) by (intros; unfold clamp_down; destruct (Z.ltb_spec i 0); lia).
    assert (H1 : start <= nd - 1) by (unfold start; destruct (s_lo s); [apply Hc|lia]).
    assert (H2 : -1 <= stop) by (unfold stop; destruct (s_hi s); [apply Hc|lia]).
    eexists. split; [reflexivity|]. split; [|split].
    + intros a Ha. apply in_map_iff in Ha. destruct Ha as [k [<- Hk]]. apply In_zrange in Hk. destruct (Z.ltb_spec stop start); [|lia].
      pose proof (Z.mul_div_le (start - stop - 1) (- s_st s) ltac:(lia)). nia.
    + apply arith_nodup with (st := s_st s); auto. intros; lia.
    + apply C. intros; lia.
Qed.
(** The axes in reverse order. *)
Theorem check_axes_reversed nd : 0 <= nd -> check_axes nd (AxSlice (mkS None None (-1))) = Ok (rev (zrange nd)).
Proof.
  intros Hn. cbn [check_axes]. unfold range_slice. cbn [s_st s_lo s_hi]. change (-1 =? 0) with false. change (0 <? -1) with false. cbv iota zeta.
  f_equal. apply list_ext with (d := 0).
  - rewrite rev_length, map_length, !zrange_length. f_equal. destruct (Z.ltb_spec (-1) (nd - 1)); [|lia]. change (- -1) with 1. rewrite Z.div_1_r. lia.
  - rewrite map_length, zrange_length. intros k Hk.
    assert (L : Z.to_nat (if -1 <? nd - 1 then (nd - 1 - -1 - 1) / - -1 + 1 else 0) = Z.to_nat nd).
    { f_equal. destruct (Z.ltb_spec (-1) (nd - 1)); [|lia]. change (- -1) with 1. rewrite Z.div_1_r. lia. }
    rewrite L in Hk. rewrite rev_nth by (now rewrite zrange_length). rewrite zrange_length.
    rewrite (nth_indep _ 0 (nd - 1 + 0 * -1)) by (now rewrite map_length, zrange_length, L).
    rewrite (map_nth (fun k => nd - 1 + k * -1)), !nth_zrange by lia. lia.
Qed.
Lemma norm_axis_leb nd a : (if 0 <=? a then a else nd + a) = norm_axis nd a.
Proof. unfold norm_axis. destruct (Z.leb_spec 0 a); destruct (Z.ltb_spec a 0); auto; lia. Qed.
Theorem check_axes_int nd a : - nd <= a < nd ->
  check_axes nd (AxInt a) = Ok [norm_axis nd a] /\ 0 <= norm_axis nd a < nd.
Proof.
  intros. simpl. rewrite norm_axis_leb. split; auto. unfold norm_axis. destruct (Z.ltb_spec a 0); lia.
Qed.
Theorem check_axes_seq nd l : (forall a, In a l -> - nd <= a < nd) ->
  check_axes nd (AxSeq l) = Ok (map (norm_axis nd) l) /\ forall a, In a (map (norm_axis nd) l) -> 0 <= a < nd.
Proof.
  intros H. assert (E : map (fun a => if 0 <=? a then a else nd + a) l = map (norm_axis nd) l)
    by (apply map_ext; intros; apply norm_axis_leb).
  assert (R : forall a, In a (map (norm_axis nd) l) -> 0 <= a < nd).
  { intros a Ha. apply in_map_iff in Ha. destruct Ha as [b [<- Hb]]. specialize (H b Hb).
    unfold norm_axis. destruct (Z.ltb_spec b 0); lia. }
  split; auto. unfold check_axes. rewrite E. cbv zeta.
  replace (forallb _ _) with true; auto. symmetry. apply forallb_forall. intros a Ha. specialize (R a Ha).
  destruct (Z.leb_spec 0 a); [|lia]. destruct (Z.leb_spec a nd); [auto|lia].
Qed.
(** A sequence with an entry below -ndim or above ndim is rejected ... *)
Theorem check_axes_seq_rejects nd l a : In a l -> (a < - nd \/ nd < a) -> 0 <= nd ->
  check_axes nd (AxSeq l) = Err AssertionError.
Proof.
  intros Ha Hr Hn. unfold check_axes. cbv zeta. replace (forallb _ _) with false; auto. symmetry.
  apply not_true_is_false. intros H. rewrite forallb_forall in H.
  specialize (H (if 0 <=? a then a else nd + a)). assert (In (if 0 <=? a then a else nd + a)
     (map (fun a => if 0 <=? a then a else nd + a) l)) by (apply in_map_iff; eauto).
  apply H in H0. bdestr. destruct (Z.leb_spec 0 a); lia.
Qed.
(** Exactly when a sequence is accepted. *)
Theorem check_axes_seq_exact nd l : 0 <= nd ->
  ((forall a, In a l -> - nd <= a <= nd) /\ check_axes nd (AxSeq l) = Ok (map (norm_axis nd) l)) \/
  ((exists a, In a l /\ (a < - nd \/ nd < a)) /\ check_axes nd (AxSeq l) = Err AssertionError).
Proof.
  intros Hn. assert (E : map (fun a => if 0 <=? a then a else nd + a) l = map (norm_axis nd) l)
    by (apply map_ext; intros; apply norm_axis_leb).
  destruct (existsb (fun a => (a <? - nd) || (nd <? a)) l) eqn:X.
  - right. apply existsb_exists in X. destruct X as [a [Ha Hb]]. apply orb_true_iff in Hb.
    assert (a < - nd \/ nd < a) by (destruct Hb as [Hb|Hb]; apply Z.ltb_lt in Hb; auto).
    split; [eauto|]. eapply check_axes_seq_rejects; eauto.
  - left. assert (R : forall a, In a l -> - nd <= a <= nd).
    { intros a Ha. destruct (Z.ltb_spec a (- nd)), (Z.ltb_spec nd a); try lia; exfalso; apply not_true_iff_false in X; apply X, existsb_exists;
        exists a; (split; [auto|]); apply orb_true_iff; rewrite !Z.ltb_lt; lia. }
    split; auto. unfold check_axes. rewrite E. cbv zeta. replace (forallb _ _) with true; auto. symmetry. apply forallb_forall.
    intros a Ha. apply in_map_iff in Ha. destruct Ha as [b [<- Hb]]. specialize (R b Hb). unfold norm_axis.
    destruct (Z.ltb_spec b 0); apply andb_true_iff; split; apply Z.leb_le; lia.
Qed.
(** ... but the entry ndim itself is let through, and a single int is not checked at all. *)
Theorem check_axes_refuted : forall nd, 0 <= nd ->
  check_axes nd (AxSeq [nd]) = Ok [nd] /\
  (forall a, nd <= a -> check_axes nd (AxInt a) = Ok [a]) /\
  (forall a, a < - nd -> check_axes nd (AxInt a) = Ok [nd + a] /\ nd + a < 0).
Proof.
  intros nd Hn. split; [|split].
  - unfold check_axes. cbv zeta. cbn [map forallb]. destruct (Z.leb_spec 0 nd); [|lia].
    destruct (Z.leb_spec 0 nd); [|lia]. destruct (Z.leb_spec nd nd); [|lia]. reflexivity.
  - intros a Ha. simpl. destruct (Z.leb_spec 0 a); [auto|lia].
  - intros a Ha. simpl. destruct (Z.leb_spec 0 a); [lia|]. split; auto. lia.
Qed.
