(** MS_SSIM.forward as a whole. *)
From Verif Require Export MsMain.
Open Scope Z_scope.

(** A call of MS_SSIM.forward, before the size check. *)
Record ms_call {F : ofield} (fuel : nat) (s : ssim F) (x y : tensor F) (cax rax : axes_arg) (al rl : list nat) (kers : list (list F)) (pd : option (padder F)) : Prop := {
  mc_shape : shp y = shp x;
  mc_content : on_axes x cax al;
  mc_reduce : on_axes x rax rl;
  mc_blur : built (length al) kers (repeat 1 (length al)) pd (ss_blur s);
  mc_kernels : forall k, In k kers -> 1 <= klen k;
  mc_padder : match pd with None => True | Some p => exists ms, same_call F fuel p x (AxSeq (map Z.of_nat al)) al ms kers (repeat 1 (length al)) end;
  mc_pos : forall n, In n (shp x) -> 1 <= n;
  mc_scale : ss_sample s = true -> zprod (map klen kers) <> 1 }.

(** The size of content axis r after i halvings. *)
Definition level_size (sh : list Z) (al : list nat) (r : nat) (i : Z) : Z := nth (nth r al 0%nat) sh 0 / 2 ^ i.
(** The check of ssim.py:256-260. *)
Definition large_enough {F : ofield} (L : Z) (kers : list (list F)) (al : list nat) (sh : list Z) : Prop :=
  forall r, (r < length al)%nat -> klen (nth r kers []) * 2 ^ (L - 1) < nth (nth r al 0%nat) sh 0.

(** Both fail alike, or both succeed with equal results. *)
Definition same_result {F : ofield} (r1 r2 : res (tensor F)) : Prop :=
  match r1, r2 with Ok t1, Ok t2 => teq t1 t2 | Err e1, Err e2 => e1 = e2 | _, _ => False end.

Section MF.
Variable F : ofield.
Add Field Fmf : (f_field F).
Notation T := (tensor F).

Lemma check_large_ok L size n ks sh : expand n size = Some ks -> L <> 0 -> forall l i, (i + length l <= n)%nat -> (forall a, In a l -> (a < length sh)%nat) ->
  (forall r, (r < length l)%nat -> nth (i + r) ks 0 * 2 ^ (L - 1) < nth (nth r l 0%nat) sh 0) -> check_large L size sh (Z.of_nat i) (map Z.of_nat l) = Ok tt.
Proof.
  intros E HL. induction l as [|a l IH]; intros i Hi Ha H; [reflexivity|]. cbn [map check_large]. cbn [length] in *.
  rewrite (pyidx_nth _ _ 0) by (apply Ha; now left). cbn [bind]. rewrite (nds_get_expand n size ks 0 i E) by lia. cbn [bind].
  pose proof (H 0%nat ltac:(lia)) as H0. rewrite Nat.add_0_r in H0. cbn [nth] in H0.
  destruct (Z.eqb_spec L 0); [lia|]. destruct (Z.ltb_spec (nth i ks 0 * 2 ^ (L - 1)) (nth a sh 0)); [|lia]. cbn [assertb bind].
  replace (Z.of_nat i + 1) with (Z.of_nat (S i)) by lia. apply IH; [lia|intros; apply Ha; now right|]. intros r Hr. specialize (H (S r) ltac:(lia)). cbn [nth] in H. now replace (S i + r)%nat with (i + S r)%nat by lia.
Qed.
(** Without weights the bound is k * 2 ** -1 < n. *)
Lemma check_none_ok size n ks sh : expand n size = Some ks -> forall l i, (i + length l <= n)%nat -> (forall a, In a l -> (a < length sh)%nat) ->
  (forall r, (r < length l)%nat -> nth (i + r) ks 0 < 2 * nth (nth r l 0%nat) sh 0) -> check_large 0 size sh (Z.of_nat i) (map Z.of_nat l) = Ok tt.
Proof.
  intros E. induction l as [|a l IH]; intros i Hi Ha H; [reflexivity|]. cbn [map check_large]. cbn [length] in *.
  rewrite (pyidx_nth _ _ 0) by (apply Ha; now left). cbn [bind]. rewrite (nds_get_expand n size ks 0 i E) by lia. cbn [bind].
  pose proof (H 0%nat ltac:(lia)) as H0. rewrite Nat.add_0_r in H0. cbn [nth] in H0. cbn [Z.eqb].
  destruct (Z.ltb_spec (nth i ks 0) (nth a sh 0 * 2)); [|lia]. cbn [assertb bind].
  replace (Z.of_nat i + 1) with (Z.of_nat (S i)) by lia. apply IH; [lia|intros; apply Ha; now right|]. intros r Hr. specialize (H (S r) ltac:(lia)). cbn [nth] in H. now replace (S i + r)%nat with (i + S r)%nat by lia.
Qed.
Lemma check_none_err size n ks sh : expand n size = Some ks -> forall l i r, (i + length l <= n)%nat -> (forall a, In a l -> (a < length sh)%nat) ->
  (r < length l)%nat -> 2 * nth (nth r l 0%nat) sh 0 <= nth (i + r) ks 0 -> check_large 0 size sh (Z.of_nat i) (map Z.of_nat l) = Err AssertionError.
Proof.
  intros E. induction l as [|a l IH]; intros i r Hi Ha Hr H; [cbn in Hr; lia|]. cbn [map check_large]. cbn [length] in *.
  rewrite (pyidx_nth _ _ 0) by (apply Ha; now left). cbn [bind]. rewrite (nds_get_expand n size ks 0 i E) by lia. cbn [bind Z.eqb].
  destruct (Z.ltb_spec (nth i ks 0) (nth a sh 0 * 2)) as [Hlt|Hge]; [|reflexivity]. cbn [assertb bind].
  replace (Z.of_nat i + 1) with (Z.of_nat (S i)) by lia. destruct r; [rewrite Nat.add_0_r in H; cbn [nth] in H; lia|]. apply (IH (S i) r); [lia|intros; apply Ha; now right|lia|].
  cbn [nth] in H. now replace (S i + r)%nat with (i + S r)%nat by lia.
Qed.
Lemma check_large_err L size n ks sh : expand n size = Some ks -> L <> 0 -> forall l i r, (i + length l <= n)%nat -> (forall a, In a l -> (a < length sh)%nat) ->
  (r < length l)%nat -> nth (nth r l 0%nat) sh 0 <= nth (i + r) ks 0 * 2 ^ (L - 1) -> check_large L size sh (Z.of_nat i) (map Z.of_nat l) = Err AssertionError.
Proof.
  intros E HL. induction l as [|a l IH]; intros i r Hi Ha Hr H; [cbn in Hr; lia|]. cbn [map check_large]. cbn [length] in *.
  rewrite (pyidx_nth _ _ 0) by (apply Ha; now left). cbn [bind]. rewrite (nds_get_expand n size ks 0 i E) by lia. cbn [bind].
  destruct (Z.eqb_spec L 0); [lia|]. destruct (Z.ltb_spec (nth i ks 0 * 2 ^ (L - 1)) (nth a sh 0)) as [Hlt|Hge]; [|reflexivity]. cbn [assertb bind].
  replace (Z.of_nat i + 1) with (Z.of_nat (S i)) by lia. destruct r; [rewrite Nat.add_0_r in H; cbn [nth] in H; lia|]. apply (IH (S i) r); [lia|intros; apply Ha; now right|lia|].
  cbn [nth] in H. now replace (S i + r)%nat with (i + S r)%nat by lia.
Qed.

Lemma klen_nth (kers : list (list F)) r : nth r (map klen kers) 0 = klen (nth r kers []).
Proof. change 0 with (klen (@nil F)). apply map_nth. Qed.

Section Call.
Variables (fuel : nat) (junk : list Z -> F) (s : ssim F) (x y : T) (cax rax : axes_arg) (al rl : list nat) (kers : list (list F)) (pd : option (padder F)).
Hypothesis MC : ms_call fuel s x y cax rax al rl kers pd.
Variables (pow : F -> F -> F) (m : msssim F).
Notation L := (Z.of_nat (length (ms_weights m))).

Lemma mc_len : length kers = length al.
Proof. destruct (built_par F _ _ _ _ _ (mc_blur _ _ _ _ _ _ _ _ _ _ MC)) as [[P1 _] _]. exact P1. Qed.
Lemma mc_in a : In a al -> (a < length (shp x))%nat.
Proof. apply (oa_in _ _ _ (mc_content _ _ _ _ _ _ _ _ _ _ MC)). Qed.

(** The check. *)
Lemma check_passes : ms_weights m <> [] -> large_enough L kers al (shp x) -> check_large L (pl_size (ss_blur s)) (shp x) 0 (map Z.of_nat al) = Ok tt.
Proof.
  intros Hw H. destruct (built_par F _ _ _ _ _ (mc_blur _ _ _ _ _ _ _ _ _ _ MC)) as [_ [_ [E1 _]]].
  apply (check_large_ok L _ (length al) (map klen kers) (shp x)) with (i := 0%nat); auto.
  - destruct (ms_weights m); [congruence|cbn; lia].
  - apply mc_in.
  - intros r Hr. cbn [Nat.add]. rewrite klen_nth. now apply H.
Qed.
Lemma check_fails r : ms_weights m <> [] -> (r < length al)%nat -> nth (nth r al 0%nat) (shp x) 0 <= klen (nth r kers []) * 2 ^ (L - 1) -> check_large L (pl_size (ss_blur s)) (shp x) 0 (map Z.of_nat al) = Err AssertionError.
Proof.
  intros Hw Hr H. destruct (built_par F _ _ _ _ _ (mc_blur _ _ _ _ _ _ _ _ _ _ MC)) as [_ [_ [E1 _]]].
  apply (check_large_err L _ (length al) (map klen kers) (shp x)) with (i := 0%nat) (r := r); auto.
  - destruct (ms_weights m); [congruence|cbn; lia].
  - apply mc_in.
  - cbn [Nat.add]. rewrite klen_nth. exact H.
Qed.

(** Every level is at least as large as the window. *)
Lemma level_large r i : large_enough L kers al (shp x) -> (r < length al)%nat -> 0 <= i < L -> klen (nth r kers []) <= level_size (shp x) al r i.
Proof.
  intros H Hr Hi. specialize (H r Hr). unfold level_size. apply Z.div_le_lower_bound; [apply Z.pow_pos_nonneg; lia|].
  assert (2 ^ i <= 2 ^ (L - 1)) by (apply Z.pow_le_mono_r; lia). pose proof (klen_pos F (nth r kers [])). nia.
Qed.
Lemma kernel_pos r : (r < length al)%nat -> 1 <= klen (nth r kers []).
Proof. intros Hr. apply (mc_kernels _ _ _ _ _ _ _ _ _ _ MC), nth_In. now rewrite mc_len. Qed.

Lemma levels_upto k : (forall r i, (r < length al)%nat -> 0 <= i <= k -> klen (nth r kers []) <= level_size (shp x) al r i) -> levels F fuel junk (ss_blur s) al kers pd k (shp x).
Proof.
  intros H i Hi. pose proof (mc_content _ _ _ _ _ _ _ _ _ _ MC) as OA. pose proof mc_in as Ain.
  assert (Fit : forall r, (r < length al)%nat -> klen (nth r kers []) <= nth (nth r al 0%nat) (halved al i (shp x)) 0).
  { intros r Hr. rewrite halved_in by (try apply mc_in; apply nth_In; auto). apply H; auto. }
  assert (Ps : forall d, (d < length (shp x))%nat -> 1 <= nth d (halved al i (shp x)) 0).
  { intros d Hd. destruct (in_dec Nat.eq_dec d al) as [Hi'|Hi'].
    - destruct (In_pos d al 0%nat Hi') as [r [Hr <-]]. specialize (Fit r Hr). pose proof (kernel_pos r Hr). lia.
    - rewrite halved_notin by auto. apply (mc_pos _ _ _ _ _ _ _ _ _ _ MC), nth_In. auto. }
  assert (Le : forall d, (d < length (shp x))%nat -> nth d (halved al i (shp x)) 0 <= nth d (shp x) 0).
  { intros d Hd. destruct (in_dec Nat.eq_dec d al) as [Hi'|Hi'].
    - rewrite halved_in by auto. assert (1 <= nth d (shp x) 0) by (apply (mc_pos _ _ _ _ _ _ _ _ _ _ MC), nth_In; auto).
      assert (0 < 2 ^ i) by (apply Z.pow_pos_nonneg; lia). apply Z.div_le_upper_bound; nia.
    - rewrite halved_notin by auto. lia. }
  constructor; auto.
  - intros a Ha. rewrite halved_length. now apply mc_in.
  - apply (oa_distinct _ _ _ OA).
  - intros n Hn. destruct (In_nth _ _ 0 Hn) as [d [Hd <-]]. rewrite halved_length in Hd. auto.
  - set (z := mkT (halved al i (shp x)) (fun _ => f0) : T).
    assert (OZ : on_axes z (AxSeq (map Z.of_nat al)) al).
    { constructor; [|intros a Ha; unfold ndim; cbn; rewrite halved_length; now apply mc_in|apply (oa_distinct _ _ _ OA)].
      apply check_axes_seq_nat. intros a Ha. unfold ndim. cbn. rewrite halved_length. now apply mc_in. }
    change (halved al i (shp x)) with (shp z). eapply blur_ok; [exact OZ|apply (mc_blur _ _ _ _ _ _ _ _ _ _ MC)|].
    destruct pd as [p|]; cbn [blur_call]; [|exact Fit].
    destruct (mc_padder _ _ _ _ _ _ _ _ _ _ MC) as [ms [C1 C2 C3 C4 C5 C6 C7 C8]]. exists ms.
    assert (Nz : ndim z = ndim x) by (unfold ndim, z; cbn; now rewrite halved_length).
    constructor; auto.
    + now rewrite Nz.
    + intros d Hd. rewrite Nz in Hd. specialize (Ps d Hd). cbn. lia.
    + intros d q Hd Hq. rewrite Nz in Hd. specialize (C8 d q Hd Hq). specialize (Le d Hd). cbn. lia.
Qed.
Lemma levels_ok : large_enough L kers al (shp x) -> levels F fuel junk (ss_blur s) al kers pd (L - 1) (shp x).
Proof. intros H. apply levels_upto. intros r i Hr Hi. apply level_large; auto. lia. Qed.

Lemma forward_body : check_large L (pl_size (ss_blur s)) (shp x) 0 (map Z.of_nat al) = Ok tt ->
  ms_forward (sep_forward fuel junk) pow (avg_forward fuel junk true) m x y cax rax s =
  let '(s', r) := ms_body F fuel junk al pow m x y s in match r with Ok t => (s', tmean t (map Z.of_nat rl) false) | Err e => (s', Err e) end.
Proof.
  intros Hc. unfold ms_forward, ms_body. unfold sbind at 1, ret at 1. rewrite (mc_shape _ _ _ _ _ _ _ _ _ _ MC), seqb_refl. cbn [assertb].
  unfold sbind at 1, ret at 1. rewrite (oa_args _ _ _ (mc_content _ _ _ _ _ _ _ _ _ _ MC)). unfold sbind at 1, ret at 1. rewrite (oa_args _ _ _ (mc_reduce _ _ _ _ _ _ _ _ _ _ MC)).
  unfold sbind at 1, ret at 1. rewrite Hc. unfold sbind at 1. unfold sbind at 6.
  destruct (ms_loop _ _ _ _ _ _ _ _ _ _) as [s1 [[[y1 y2] f]|e]]; [|reflexivity].
  unfold sbind, ret. destruct (ssim_full _ _ _ _ _) as [s2 [full|e]]; [|reflexivity]. destruct (crop_border _ _ _) as [s3 [cr|e]]; [|reflexivity].
  destruct (tmean _ _ _) as [score|e]; [|reflexivity]. destruct (pyidx _ _) as [w|e]; [|reflexivity]. destruct f as [f|]; [|reflexivity]. destruct (add_score _ _ _); reflexivity.
Qed.
Lemma forward_fails r : ms_weights m <> [] -> (r < length al)%nat -> nth (nth r al 0%nat) (shp x) 0 <= klen (nth r kers []) * 2 ^ (L - 1) ->
  ms_forward (sep_forward fuel junk) pow (avg_forward fuel junk true) m x y cax rax s = (s, Err AssertionError).
Proof.
  intros Hw Hr H. unfold ms_forward. unfold sbind at 1, ret at 1. rewrite (mc_shape _ _ _ _ _ _ _ _ _ _ MC), seqb_refl. cbn [assertb].
  unfold sbind at 1, ret at 1. rewrite (oa_args _ _ _ (mc_content _ _ _ _ _ _ _ _ _ _ MC)). unfold sbind at 1, ret at 1. rewrite (oa_args _ _ _ (mc_reduce _ _ _ _ _ _ _ _ _ _ MC)).
  unfold sbind at 1, ret at 1. now rewrite (check_fails r Hw Hr H).
Qed.
End Call.

Lemma kept_pos al sh : (forall a, In a al -> (a < length sh)%nat) -> (forall n, In n sh -> 1 <= n) -> forall n, In n (kept_shape al sh) -> 1 <= n.
Proof.
  intros A P n Hn. unfold kept_shape in Hn. destruct (In_nth _ _ 0 Hn) as [d [Hd <-]]. rewrite ones_at_length in Hd.
  rewrite ones_at_nth by (intros a Ha; eapply reduced_in; eauto). destruct (existsb _ _); [lia|]. apply P, nth_In. auto.
Qed.

Section Results.
Variables (fuel : nat) (junk : list Z -> F) (s : ssim F) (x y : T) (cax rax : axes_arg) (al rl : list nat) (kers : list (list F)) (pd : option (padder F)).
Hypothesis MC : ms_call fuel s x y cax rax al rl kers pd.
Variables (pow : F -> F -> F) (m : msssim F).
Hypothesis Hw : ms_weights m <> [].
Notation L := (Z.of_nat (length (ms_weights m))).
Hypothesis LE : large_enough L kers al (shp x).
Notation result x y := (snd (ms_forward (sep_forward fuel junk) pow (avg_forward fuel junk true) m x y cax rax s)).

Theorem forward_run : exists c, fle f0 c /\ levels F fuel junk (ss_blur s) al kers pd (L - 1) (shp x) /\ scale_factor s (map Z.of_nat al) = Ok c /\
  ((exists w, ms_weights m = [w] /\ result x y = Err TypeError) \/
   (exists final score, (2 <= length (ms_weights m))%nat /\ ms_run F fuel junk (ss_blur s) al kers pd (ss_K1 s) (ss_K2 s) (ss_crop s) c pow m x y final /\
      (forall a, In a rl -> (a < ndim final)%nat) /\ (forall n, In n (shp final) -> 1 <= n) /\ tmean final (map Z.of_nat rl) false = Ok score /\ result x y = Ok score) \/
   (result x y = Err ZeroDivisionError /\ ms_zero F fuel junk (ss_blur s) al kers pd (ss_K1 s) (ss_K2 s) c m x y)).
Proof.
  destruct (scale_ok F s (length al) kers _ pd (mc_blur _ _ _ _ _ _ _ _ _ _ MC) (mc_scale _ _ _ _ _ _ _ _ _ _ MC)) as [c [Sc1 [Sc2 _]]]. specialize (Sc1 (map Z.of_nat al) (map_length _ _)).
  pose proof (levels_ok fuel junk s x y cax rax al rl kers pd MC m LE) as Lv. exists c. split; auto. split; auto. split; auto.
  assert (SO : st_ok F (ss_blur s) al (ss_K1 s) (ss_K2 s) (ss_sample s) (ss_crop s) c s) by (split; [apply mlike_refl|auto 8]).
  rewrite (forward_body fuel junk s x y cax rax al rl kers pd MC pow m (check_passes fuel s x y cax rax al rl kers pd MC m Hw LE)).
  destruct (body_run F fuel junk (ss_blur s) al kers pd _ _ _ _ c pow m x y s (mc_shape _ _ _ _ _ _ _ _ _ _ MC) SO Hw Lv) as [s' [_ [[w [E1 E2]]|[[final [E1 [E2 E3]]]|[E1 E2]]]]].
  - left. exists w. rewrite E2. auto.
  - right. left. rewrite E2.
    assert (Sf : shp final = kept_shape al (shp x)) by (destruct E3 as [? [? [? [? E3]]]]; apply E3).
    assert (Af : forall a, In a rl -> (a < ndim final)%nat).
    { intros a Ha. unfold ndim. rewrite Sf. unfold kept_shape. rewrite ones_at_length. apply (oa_in _ _ _ (mc_reduce _ _ _ _ _ _ _ _ _ _ MC)). auto. }
    assert (Pf : forall n, In n (shp final) -> 1 <= n).
    { rewrite Sf. apply kept_pos; [apply (mc_in _ _ _ _ _ _ _ _ _ _ MC)|apply (mc_pos _ _ _ _ _ _ _ _ _ _ MC)]. }
    destruct (tmean_some F final rl false Af (oa_distinct _ _ _ (mc_reduce _ _ _ _ _ _ _ _ _ _ MC)) Pf) as [score E].
    exists final, score. rewrite E. auto 8.
  - right. right. rewrite E1. auto.
Qed.
End Results.

(** *** C53: the size check *)
Theorem ms_size_ok fuel junk (s : ssim F) (x y : T) cax rax al rl kers pd pow m : ms_call fuel s x y cax rax al rl kers pd -> (2 <= length (ms_weights m))%nat ->
  window F kers -> proper_padder (length al) pd -> ss_K1 s <> f0 -> ss_K2 s <> f0 ->
  let result := snd (ms_forward (sep_forward fuel junk) pow (avg_forward fuel junk true) m x y cax rax s) in
  result <> Err AssertionError ->
  (forall r i, (r < length al)%nat -> 0 <= i < Z.of_nat (length (ms_weights m)) -> klen (nth r kers []) <= level_size (shp x) al r i) /\ exists score, result = Ok score.
Proof.
  intros MC H2 W PP K1 K2 result NA. assert (Hw : ms_weights m <> []) by (destruct (ms_weights m); [cbn in H2; lia|discriminate]).
  assert (LE : large_enough (Z.of_nat (length (ms_weights m))) kers al (shp x)).
  { intros r Hr. destruct (Z.lt_ge_cases (klen (nth r kers []) * 2 ^ (Z.of_nat (length (ms_weights m)) - 1)) (nth (nth r al 0%nat) (shp x) 0)) as [|Hge]; auto.
    exfalso. apply NA. unfold result. rewrite (forward_fails fuel junk s x y cax rax al rl kers pd MC pow m r Hw Hr Hge). reflexivity. }
  split; [intros r i Hr Hi; eapply level_large; eauto|].
  destruct (forward_run fuel junk s x y cax rax al rl kers pd MC pow m Hw LE) as [c [Hc [Lv [_ [[w [E _]]|[[final [score [_ [_ [_ [_ [_ E]]]]]]]|[_ E]]]]]]].
  - rewrite E in H2. cbn in H2. lia.
  - exists score. exact E.
  - exfalso. revert E. apply never_zero; [|apply (mc_shape _ _ _ _ _ _ _ _ _ _ MC)]. split; auto.
Qed.
(** Without conditions on the weights the only failure is a zero divisor (or a single level). *)
Theorem ms_size_any fuel junk (s : ssim F) (x y : T) cax rax al rl kers pd pow m : ms_call fuel s x y cax rax al rl kers pd -> ms_weights m <> [] ->
  let result := snd (ms_forward (sep_forward fuel junk) pow (avg_forward fuel junk true) m x y cax rax s) in
  (result = Err AssertionError <-> ~ large_enough (Z.of_nat (length (ms_weights m))) kers al (shp x)) /\
  (forall e, result = Err e -> e = AssertionError \/ e = ZeroDivisionError \/ (e = TypeError /\ exists w, ms_weights m = [w])).
Proof.
  intros MC Hw result.
  assert (D : large_enough (Z.of_nat (length (ms_weights m))) kers al (shp x) \/ exists r, (r < length al)%nat /\ nth (nth r al 0%nat) (shp x) 0 <= klen (nth r kers []) * 2 ^ (Z.of_nat (length (ms_weights m)) - 1)).
  { unfold large_enough. induction (length al) as [|n IH]; [left; intros; lia|]. destruct IH as [IH|[r [Hr H]]]; [|right; exists r; auto].
    destruct (Z.lt_ge_cases (klen (nth n kers []) * 2 ^ (Z.of_nat (length (ms_weights m)) - 1)) (nth (nth n al 0%nat) (shp x) 0)).
    - left. intros r Hr. destruct (Nat.eq_dec r n) as [->|]; auto. apply IH. lia.
    - right. exists n. split; auto. }
  destruct D as [LE|[r [Hr H]]].
  - destruct (forward_run fuel junk s x y cax rax al rl kers pd MC pow m Hw LE) as [c [Hc [Lv [_ [[w [E1 E]]|[[final [score [_ [_ [_ [_ [_ E]]]]]]]|[E _]]]]]]]; fold result in E; rewrite E.
    + split; [split; [discriminate|contradiction]|]. intros e [= <-]. right. right. eauto.
    + split; [split; [discriminate|contradiction]|]. discriminate.
    + split; [split; [discriminate|contradiction]|]. intros e [= <-]. auto.
  - unfold result. rewrite (forward_fails fuel junk s x y cax rax al rl kers pd MC pow m r Hw Hr H). cbn [snd]. split; [split; auto|].
    + intros _ LE. specialize (LE r Hr). lia.
    + intros e [= <-]. auto.
Qed.
(** If some level is smaller than the window, the assertion fails first. *)
Theorem ms_size_first fuel junk (s : ssim F) (x y : T) cax rax al rl kers pd pow m r i : ms_call fuel s x y cax rax al rl kers pd -> ms_weights m <> [] ->
  (r < length al)%nat -> 0 <= i < Z.of_nat (length (ms_weights m)) -> level_size (shp x) al r i < klen (nth r kers []) ->
  snd (ms_forward (sep_forward fuel junk) pow (avg_forward fuel junk true) m x y cax rax s) = Err AssertionError.
Proof.
  intros MC Hw Hr Hi H. rewrite (forward_fails fuel junk s x y cax rax al rl kers pd MC pow m r Hw Hr); auto.
  destruct (Z.lt_ge_cases (klen (nth r kers []) * 2 ^ (Z.of_nat (length (ms_weights m)) - 1)) (nth (nth r al 0%nat) (shp x) 0)) as [Hlt|]; [|lia]. exfalso.
  unfold level_size in H. assert (0 < 2 ^ i) by (apply Z.pow_pos_nonneg; lia). assert (2 ^ i <= 2 ^ (Z.of_nat (length (ms_weights m)) - 1)) by (apply Z.pow_le_mono_r; lia).
  pose proof (klen_pos F (nth r kers [])). assert (klen (nth r kers []) <= nth (nth r al 0%nat) (shp x) 0 / 2 ^ i); [apply Z.div_le_lower_bound; nia|lia].
Qed.

(** *** C54: identical images *)
Theorem ms_self fuel junk (s : ssim F) (x : T) cax rax al rl kers pd pow m score : ms_call fuel s x x cax rax al rl kers pd -> ms_weights m <> [] ->
  (forall w, In w (ms_weights m) -> pow f1 w = f1) -> (ms_prod m = true -> fle (ms_eps m) f1) ->
  snd (ms_forward (sep_forward fuel junk) pow (avg_forward fuel junk true) m x x cax rax s) = Ok score ->
  constant_image (if ms_prod m then f1 else lsum (ms_weights m)) score.
Proof.
  intros MC Hw Hp He E.
  assert (NA : forall r, (r < length al)%nat -> klen (nth r kers []) * 2 ^ (Z.of_nat (length (ms_weights m)) - 1) < nth (nth r al 0%nat) (shp x) 0).
  { intros r Hr. destruct (Z.lt_ge_cases (klen (nth r kers []) * 2 ^ (Z.of_nat (length (ms_weights m)) - 1)) (nth (nth r al 0%nat) (shp x) 0)) as [|Hge]; auto.
    exfalso. rewrite (forward_fails fuel junk s x x cax rax al rl kers pd MC pow m r Hw Hr Hge) in E. discriminate. }
  destruct (forward_run fuel junk s x x cax rax al rl kers pd MC pow m Hw NA) as [c [Hc [Lv [_ [[w [_ E1]]|[[final [sc [_ [Rn [Af [Pf [M E1]]]]]]]|[E1 _]]]]]]]; rewrite E1 in E; try discriminate.
  injection E as <-. pose proof (run_self F fuel junk (ss_blur s) al kers pd _ _ _ c pow m x final Rn Hp He Hw Lv) as C.
  eapply tmean_const; eauto. apply (oa_distinct _ _ _ (mc_reduce _ _ _ _ _ _ _ _ _ _ MC)).
Qed.
(** A single weight never gives a result. *)
Theorem ms_single fuel junk (s : ssim F) (x y : T) cax rax al rl kers pd pow m w : ms_call fuel s x y cax rax al rl kers pd -> ms_weights m = [w] ->
  large_enough 1 kers al (shp x) ->
  let result := snd (ms_forward (sep_forward fuel junk) pow (avg_forward fuel junk true) m x y cax rax s) in result = Err TypeError \/ result = Err ZeroDivisionError.
Proof.
  intros MC E LE result. assert (Hw : ms_weights m <> []) by (rewrite E; discriminate).
  assert (LE' : large_enough (Z.of_nat (length (ms_weights m))) kers al (shp x)) by (rewrite E; exact LE).
  destruct (forward_run fuel junk s x y cax rax al rl kers pd MC pow m Hw LE') as [c [Hc [Lv [_ [[w' [_ E1]]|[[final [sc [H2 _]]]|[E1 _]]]]]]]; auto. rewrite E in H2. cbn in H2. lia.
Qed.

(** Nor does a call without weights: the size check is k * 2 ** -1 < n, and weights[-1] does not exist. *)
Theorem ms_none fuel junk (s : ssim F) (x y : T) cax rax al rl kers pd pow m : ms_call fuel s x y cax rax al rl kers pd -> ms_weights m = [] ->
  let result := snd (ms_forward (sep_forward fuel junk) pow (avg_forward fuel junk true) m x y cax rax s) in
  (forall score, result <> Ok score) /\
  ((exists r, (r < length al)%nat /\ 2 * nth (nth r al 0%nat) (shp x) 0 <= klen (nth r kers [])) -> result = Err AssertionError) /\
  ((forall r, (r < length al)%nat -> klen (nth r kers []) <= nth (nth r al 0%nat) (shp x) 0) -> result = Err IndexError \/ result = Err ZeroDivisionError).
Proof.
  intros MC W result. pose proof (mc_in _ _ _ _ _ _ _ _ _ _ MC) as Ain. pose proof (mc_len fuel s x y cax rax al rl kers pd MC) as Lk.
  destruct (built_par F _ _ _ _ _ (mc_blur _ _ _ _ _ _ _ _ _ _ MC)) as [_ [_ [Ex _]]].
  assert (FE : forall c, check_large 0 (pl_size (ss_blur s)) (shp x) 0 (map Z.of_nat al) = c ->
    result = match c with Ok _ => snd (ms_body F fuel junk al pow m x y s) | Err e => Err e end /\ (forall t, snd (ms_body F fuel junk al pow m x y s) <> Ok t)).
  { intros c Hc. split.
    - unfold result. destruct c as [[]|e].
      + rewrite (forward_body fuel junk s x y cax rax al rl kers pd MC pow m) by (rewrite W; exact Hc). destruct (ms_body _ _ _ _ _ _ _ _ _) as [s' [t|e]] eqn:Eb; [|reflexivity].
        exfalso. revert Eb. unfold ms_body. rewrite W. cbn [removelast ms_loop]. unfold sbind, ret. destruct (ssim_full _ _ _ _ _) as [s2 [full|]]; [|discriminate]. destruct (crop_border _ _ _) as [s3 [cr|]]; [|discriminate]. destruct (tmean _ _ _); discriminate.
      + unfold ms_forward. unfold sbind at 1, ret at 1. rewrite (mc_shape _ _ _ _ _ _ _ _ _ _ MC), seqb_refl. cbn [assertb].
        unfold sbind at 1, ret at 1. rewrite (oa_args _ _ _ (mc_content _ _ _ _ _ _ _ _ _ _ MC)). unfold sbind at 1, ret at 1. rewrite (oa_args _ _ _ (mc_reduce _ _ _ _ _ _ _ _ _ _ MC)).
        unfold sbind at 1, ret at 1. rewrite W. cbn [length Z.of_nat]. rewrite Hc. reflexivity.
    - intros t. unfold ms_body. rewrite W. cbn [removelast ms_loop]. unfold sbind, ret. destruct (ssim_full _ _ _ _ _) as [s2 [full|]]; [|discriminate]. destruct (crop_border _ _ _) as [s3 [cr|]]; [|discriminate]. destruct (tmean _ _ _); discriminate. }
  split; [|split].
  - intros score. destruct (FE _ eq_refl) as [E N]. rewrite E. destruct (check_large _ _ _ _ _); [apply N|discriminate].
  - intros [r [Hr H]]. destruct (FE (Err AssertionError)) as [E _]; [|exact E]. change 0 with (Z.of_nat 0) at 2.
    apply (check_none_err _ (length al) (map klen kers)) with (r := r); auto. cbn [Nat.add]. now rewrite klen_nth.
  - intros H. destruct (FE (Ok tt)) as [E _].
    { change 0 with (Z.of_nat 0) at 2. apply (check_none_ok _ (length al) (map klen kers)); auto. intros r Hr. cbn [Nat.add]. rewrite klen_nth. specialize (H r Hr).
      pose proof (kernel_pos fuel s x y cax rax al rl kers pd MC r Hr). lia. }
    rewrite E. assert (Lv : levels F fuel junk (ss_blur s) al kers pd 0 (shp x)).
    { apply (levels_upto fuel junk s x y cax rax al rl kers pd MC). intros r i Hr Hi. replace i with 0 by lia. unfold level_size. rewrite Z.pow_0_r, Z.div_1_r. auto. }
    apply levels_here in Lv; [|lia].
    destruct (scale_ok F s (length al) kers _ pd (mc_blur _ _ _ _ _ _ _ _ _ _ MC) (mc_scale _ _ _ _ _ _ _ _ _ _ MC)) as [c [Sc1 [Sc2 _]]]. specialize (Sc1 (map Z.of_nat al) (map_length _ _)).
    assert (SO : st_ok F (ss_blur s) al (ss_K1 s) (ss_K2 s) (ss_sample s) (ss_crop s) c s) by (split; [apply mlike_refl|auto 8]).
    unfold ms_body. rewrite W. cbn [removelast ms_loop]. unfold sbind, ret.
    destruct (ssim_level F fuel junk (ss_blur s) al kers pd _ _ _ _ c s x y Lv SO (mc_shape _ _ _ _ _ _ _ _ _ _ MC)) as [s2 [_ [[full [cr [score [E1 [E2 [E3 _]]]]]]|[E1 _]]]].
    + left. rewrite E1, E2, E3. reflexivity.
    + right. rewrite E1. reflexivity.
Qed.

(** *** symmetry and bounds *)
Theorem ms_symmetric fuel junk (s : ssim F) (x y : T) cax rax al rl kers pd pow m : ms_call fuel s x y cax rax al rl kers pd -> (2 <= length (ms_weights m))%nat ->
  same_result (snd (ms_forward (sep_forward fuel junk) pow (avg_forward fuel junk true) m x y cax rax s)) (snd (ms_forward (sep_forward fuel junk) pow (avg_forward fuel junk true) m y x cax rax s)).
Proof.
  intros MC H2. assert (Hw : ms_weights m <> []) by (destruct (ms_weights m); [cbn in H2; lia|discriminate]). pose proof (mc_shape _ _ _ _ _ _ _ _ _ _ MC) as Hs.
  assert (MC' : ms_call fuel s y x cax rax al rl kers pd).
  { destruct MC as [A B C D E G H I]. constructor; auto.
    - exact (on_axes_shape F x y cax al Hs B).
    - exact (on_axes_shape F x y rax rl Hs C).
    - destruct pd as [p|]; auto. destruct G as [ms G]. exists ms. exact (same_call_shape F fuel p x y _ al ms kers _ Hs G).
    - now rewrite Hs. }
  assert (D : large_enough (Z.of_nat (length (ms_weights m))) kers al (shp x) \/ exists r, (r < length al)%nat /\ nth (nth r al 0%nat) (shp x) 0 <= klen (nth r kers []) * 2 ^ (Z.of_nat (length (ms_weights m)) - 1)).
  { unfold large_enough. induction (length al) as [|n IH]; [left; intros; lia|]. destruct IH as [IH|[r [Hr H]]]; [|right; exists r; auto].
    destruct (Z.lt_ge_cases (klen (nth n kers []) * 2 ^ (Z.of_nat (length (ms_weights m)) - 1)) (nth (nth n al 0%nat) (shp x) 0)).
    - left. intros r Hr. destruct (Nat.eq_dec r n) as [->|]; auto. apply IH. lia.
    - right. exists n. split; auto. }
  destruct D as [LE|[r [Hr H]]].
  2:{ rewrite (forward_fails fuel junk s x y cax rax al rl kers pd MC pow m r Hw Hr H), (forward_fails fuel junk s y x cax rax al rl kers pd MC' pow m r Hw Hr) by (now rewrite Hs). reflexivity. }
  assert (LE' : large_enough (Z.of_nat (length (ms_weights m))) kers al (shp y)) by (now rewrite Hs).
  destruct (forward_run fuel junk s x y cax rax al rl kers pd MC pow m Hw LE) as [c [Hc [Lv [S1 R]]]].
  destruct (forward_run fuel junk s y x cax rax al rl kers pd MC' pow m Hw LE') as [c' [Hc' [Lv' [S2 R']]]].
  rewrite S1 in S2. injection S2 as <-.
  destruct R as [[w [W E]]|[[final [sc [L2 [Rn [Af [Pf [M E]]]]]]]|[E Z]]]; [rewrite W in H2; cbn in H2; lia| |];
    (destruct R' as [[w' [W' E']]|[[final' [sc' [L2' [Rn' [Af' [Pf' [M' E']]]]]]]|[E' Z']]]; [rewrite W' in H2; cbn in H2; lia| |]); rewrite E, E'; cbn [same_result]; auto.
  - pose proof (run_swap F fuel junk (ss_blur s) al kers pd _ _ _ c pow m x y final final' Hs Hw Lv Rn Rn') as TT.
    destruct (tmean_teq F final final' rl false Af (oa_distinct _ _ _ (mc_reduce _ _ _ _ _ _ _ _ _ _ MC)) Pf TT) as [u [u' [U1 [U2 U3]]]]. congruence.
  - revert Z'. apply (run_nonzero F fuel junk (ss_blur s) al kers pd _ _ (ss_crop s) c pow m x y final Hs Rn).
  - revert Z. apply (run_nonzero F fuel junk (ss_blur s) al kers pd _ _ (ss_crop s) c pow m y x final' (eq_sym Hs) Rn').
Qed.

(** The score of two images lies between the bounds of its parts. *)
Theorem ms_bounded fuel junk (s : ssim F) (x y : T) cax rax al rl kers pd pow m score : ms_call fuel s x y cax rax al rl kers pd -> ms_weights m <> [] ->
  window F kers -> proper_padder (length al) pd -> ss_K1 s <> f0 -> ss_K2 s <> f0 -> weights_ok F pow m ->
  snd (ms_forward (sep_forward fuel junk) pow (avg_forward fuel junk true) m x y cax rax s) = Ok score ->
  forall i, valid (shp score) i -> fle (if ms_prod m then f0 else fopp (lsum (ms_weights m))) (at_ score i) /\ fle (at_ score i) (if ms_prod m then f1 else lsum (ms_weights m)).
Proof.
  intros MC Hw W PP K1 K2 WO E.
  assert (NA : large_enough (Z.of_nat (length (ms_weights m))) kers al (shp x)).
  { intros r Hr. destruct (Z.lt_ge_cases (klen (nth r kers []) * 2 ^ (Z.of_nat (length (ms_weights m)) - 1)) (nth (nth r al 0%nat) (shp x) 0)) as [|Hge]; auto.
    exfalso. rewrite (forward_fails fuel junk s x y cax rax al rl kers pd MC pow m r Hw Hr Hge) in E. discriminate. }
  destruct (forward_run fuel junk s x y cax rax al rl kers pd MC pow m Hw NA) as [c [Hc [Lv [_ [[w [_ E1]]|[[final [sc [_ [Rn [Af [Pf [M E1]]]]]]]|[E1 _]]]]]]]; rewrite E1 in E; try discriminate.
  injection E as <-. eapply tmean_range; eauto; [apply (oa_distinct _ _ _ (mc_reduce _ _ _ _ _ _ _ _ _ _ MC))|].
  eapply run_range; eauto; [|apply (mc_shape _ _ _ _ _ _ _ _ _ _ MC)]. split; auto.
Qed.
End MF.
