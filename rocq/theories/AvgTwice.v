(** Average pooling: twice in a row, and the sum of all elements. *)
From Verif Require Export PoolTwice.
Open Scope Z_scope.

Section AT.
Variable F : ofield.
Add Field Fat : (f_field F).
Notation T := (tensor F).

Lemma avg_built n (ks : nds Z) stride pd (m : pool F) l sts : expand n ks = Some l -> expand n stride = Some sts -> avg_init ks stride pd = Ok m ->
  built n (map (avg_ker F) l) (map2 stride_or_size l sts) pd m.
Proof.
  intros H1 H2 H3. destruct (avg_init_kernel F n ks l stride pd m H1 H3) as [kers [K1 [K2 K3]]].
  rewrite <- (avg_strides F l sts K3). now apply (built_init n _ kers stride sts).
Qed.
Lemma avg_spread a b : 1 <= a -> 1 <= b -> spread_conv (avg_ker F a) a (avg_ker F b) = avg_ker F (a * b).
Proof.
  intros Ha Hb. assert (La : klen (avg_ker F a) = a) by (apply avg_ker_klen; lia). assert (Lb : klen (avg_ker F b) = b) by (apply avg_ker_klen; lia).
  assert (L : klen (spread_conv (avg_ker F a) a (avg_ker F b)) = a * b) by (rewrite klen_spread; lia).
  assert (L2 : klen (avg_ker F (a * b)) = a * b) by (apply avg_ker_klen; lia).
  apply list_ext with (d := f0); [unfold klen in *; lia|]. intros i Hi. assert (Hi2 : 0 <= Z.of_nat i < a * b) by (unfold klen in *; lia).
  rewrite <- (Nat2Z.id i). set (t := Z.of_nat i) in *. rewrite entry_spread by (rewrite ?La, ?Lb; lia). rewrite Lb, avg_ker_nth by auto.
  assert (Q : 0 <= t / a < b) by (split; [apply Z.div_pos; lia|apply Z.div_lt_upper_bound; lia]).
  pose proof (Z.div_mod t a ltac:(lia)) as D. pose proof (Z.mod_pos_bound t a ltac:(lia)) as M.
  rewrite (fsum_single F b (t / a)); auto.
  - rewrite !entry_in by (rewrite ?La, ?Lb; lia). rewrite !avg_ker_nth by lia. rewrite fofZ_mul. field. split; apply fofZ_neq0; lia.
  - intros k Hk Hne. rewrite (entry_out F (avg_ker F a)); [ring|]. rewrite La.
    assert (k < t / a \/ t / a < k) as [G|G] by lia; [right|left]; nia.
Qed.
Lemma avg_ker_ne k : 1 <= k -> avg_ker F k <> [].
Proof. intros H E. pose proof (avg_ker_klen F k ltac:(lia)) as L. rewrite E in L. cbn in L. unfold klen in L. cbn in L. lia. Qed.
Lemma avg_nth l r : (r < length l)%nat -> nth r (map (avg_ker F) l) [] = avg_ker F (nth r l 0).
Proof. intros H. rewrite (nth_indep _ [] (avg_ker F 0)) by (now rewrite map_length). apply map_nth. Qed.

(** Averaging blocks, then averaging the averages. *)
Theorem avg_twice fuel junk fuel1 junk1 fuel2 junk2 (k k1 k2 : nds Z) st st1 st2 (m m1 m2 : pool F) (x : T) ax al l l1 l2 s s1 s2 : on_axes x ax al ->
  expand (length al) k1 = Some l1 -> expand (length al) st1 = Some s1 -> avg_init k1 st1 None = Ok m1 ->
  expand (length al) k2 = Some l2 -> expand (length al) st2 = Some s2 -> avg_init k2 st2 None = Ok m2 ->
  expand (length al) k = Some l -> expand (length al) st = Some s -> avg_init k st None = Ok m ->
  (forall r, (r < length al)%nat -> 1 <= nth r l1 0 /\ 1 <= nth r l2 0 /\ nth r l 0 = nth r l1 0 * nth r l2 0 /\ nth r l 0 <= nth (nth r al 0%nat) (shp x) 0 /\
     nth r (map2 stride_or_size l1 s1) 1 = nth r l1 0 /\
     nth r (map2 stride_or_size l s) 1 = nth r l1 0 * nth r (map2 stride_or_size l2 s2) 1) ->
  exists y z w, snd (avg_forward fuel1 junk1 true m1 x ax) = Ok y /\ snd (avg_forward fuel2 junk2 true m2 y ax) = Ok z /\
    snd (avg_forward fuel junk true m x ax) = Ok w /\ teq z w.
Proof.
  intros OA A1 A2 A3 B1 B2 B3 C1 C2 C3 H.
  assert (L1 := expand_length _ _ _ A1). assert (L2 := expand_length _ _ _ B1). assert (L := expand_length _ _ _ C1).
  apply (pool_twice F fuel junk fuel1 junk1 fuel2 junk2 m m1 m2 x ax al _ _ _ _ _ _ OA
    (avg_built _ _ _ _ _ _ _ A1 A2 A3) (avg_built _ _ _ _ _ _ _ B1 B2 B3) (avg_built _ _ _ _ _ _ _ C1 C2 C3)).
  intros r Hr. destruct (H r Hr) as [H1 [H2 [H3 [H4 [H5 H6]]]]]. rewrite !avg_nth by lia. rewrite H5, H6, H3.
  assert (N1 : avg_ker F (nth r l1 0) <> []) by (now apply avg_ker_ne). assert (N2 : avg_ker F (nth r l2 0) <> []) by (now apply avg_ker_ne).
  split; [|split; [|rewrite avg_ker_klen; lia]].
  - unfold in_turn. rewrite <- avg_spread by auto. destruct (avg_ker F (nth r l1 0)); [congruence|]. destruct (avg_ker F (nth r l2 0)); [congruence|]. reflexivity.
  - unfold in_turn_stride. destruct (avg_ker F (nth r l1 0)); [congruence|]. destruct (avg_ker F (nth r l2 0)); [congruence|]. reflexivity.
Qed.

(** Summing blocks along one axis. *)
Lemma fsum_blocks k : 0 <= k -> forall n (f : Z -> F), 0 <= n -> fsum n (fun j => fsum k (fun o => f (j * k + o))) = fsum (n * k) f.
Proof.
  intros Hk n f Hn. revert n Hn. apply (natlike_ind (fun n => fsum n (fun j => fsum k (fun o => f (j * k + o))) = fsum (n * k) f)).
  - reflexivity.
  - intros n Hn IH. change (Z.succ n) with (n + 1). rewrite fsum_S by auto. rewrite IH. replace ((n + 1) * k) with (n * k + k) by ring.
    rewrite (fsum_app F (n * k) k) by nia. reflexivity.
Qed.
Lemma bsum_blocks k sh : 0 <= k -> (forall n, In n sh -> 0 <= n) -> forall a (f : list Z -> F), (a < length sh)%nat ->
  bsum sh (fun j => fsum k (fun o => f (upd a (nth a j 0 * k + o) j))) = bsum (upd a (nth a sh 0 * k) sh) f.
Proof.
  intros Hk. induction sh as [|n sh IH]; intros Hn a f Ha; [cbn in Ha; lia|]. destruct a as [|a].
  - cbn [upd nth bsum]. rewrite <- (fsum_blocks k Hk) by (apply Hn; now left). apply fsum_ext. intros j Hj.
    rewrite <- bsum_fsum. reflexivity.
  - cbn [upd nth bsum]. apply fsum_ext. intros j Hj. rewrite <- (IH ltac:(intros; apply Hn; now right) a (fun o => f (j :: o)) ltac:(cbn in Ha; lia)).
    reflexivity.
Qed.
(** Lengths multiplied by the block sizes. *)
Fixpoint grown (al : list nat) (l sh : list Z) : list Z :=
  match al, l with a :: al', k :: l' => upd a (nth a sh 0 * k) (grown al' l' sh) | _, _ => sh end.
Lemma grown_length al : forall l sh, length (grown al l sh) = length sh.
Proof. induction al as [|a al IH]; intros [|k l] sh; cbn; auto. now rewrite upd_length. Qed.
Lemma grown_notin al : forall l sh d, ~ In d al -> nth d (grown al l sh) 0 = nth d sh 0.
Proof.
  induction al as [|a al IH]; intros [|k l] sh d H; cbn [grown]; auto. rewrite nth_upd_ne; [apply IH|]; intros E; apply H; [now right|now left].
Qed.
Lemma grown_nth al : forall l sh r, NoDup al -> (forall a, In a al -> (a < length sh)%nat) -> length l = length al -> (r < length al)%nat ->
  nth (nth r al 0%nat) (grown al l sh) 0 = nth (nth r al 0%nat) sh 0 * nth r l 0.
Proof.
  induction al as [|a al IH]; intros [|k l] sh r N H L Hr; cbn [length] in *; try lia. inv N. destruct r as [|r]; cbn [grown nth].
  - rewrite nth_upd_eq; auto. rewrite grown_length. apply H. now left.
  - rewrite nth_upd_ne. apply IH; auto; try lia. intros; apply H; now right. intros E. apply H2. rewrite E. apply nth_In. lia.
Qed.
Lemma bsum_place al : forall l sh (f : list Z -> F), NoDup al -> (forall a, In a al -> (a < length sh)%nat) -> length l = length al ->
  (forall k, In k l -> 0 <= k) -> (forall n, In n sh -> 0 <= n) ->
  bsum sh (fun j => bsum l (fun o => f (place al l j o))) = bsum (grown al l sh) f.
Proof.
  induction al as [|a al IH]; intros [|k l] sh f N H L Hk Hs; cbn [length] in L; try lia; [reflexivity|]. inv N.
  cbn [grown bsum]. rewrite (bsum_ext F sh _ (fun j => bsum l (fun o => fsum k (fun i => f (upd a (nth a (place al l j o) 0 * k + i) (place al l j o)))))).
  2:{ intros j Vj. rewrite <- bsum_fsum. apply bsum_ext. intros o Vo. apply fsum_ext. intros i Hi. rewrite place_notin by auto. reflexivity. }
  rewrite (IH l sh (fun p => fsum k (fun i => f (upd a (nth a p 0 * k + i) p)))); auto; try (intros; apply H; now right); try (intros; apply Hk; now right).
  rewrite bsum_blocks; [| | |rewrite grown_length; apply H; now left].
  - rewrite grown_notin by auto. reflexivity.
  - apply Hk. now left.
  - intros n Hn. apply In_nth with (d := 0) in Hn. destruct Hn as [d [Hd <-]]. rewrite grown_length in Hd.
    destruct (in_dec Nat.eq_dec d al) as [Hi|Hi].
    + destruct (In_pos d al 0%nat Hi) as [r [Hr <-]]. rewrite grown_nth; auto; [|intros b Hb; apply H; now right].
      apply Z.mul_nonneg_nonneg; [apply Hs, nth_In; auto|]. apply Hk. right. apply nth_In. lia.
    + rewrite grown_notin by auto. apply Hs, nth_In. auto.
Qed.
Lemma zprod_upd : forall sh a v, (a < length sh)%nat -> nth a sh 0 * zprod (upd a v sh) = v * zprod sh.
Proof.
  induction sh as [|n sh IH]; intros [|a] v H; cbn [length upd nth] in *; try lia.
  - change (zprod (v :: sh)) with (v * zprod sh). change (zprod (n :: sh)) with (n * zprod sh). ring.
  - change (zprod (n :: upd a v sh)) with (n * zprod (upd a v sh)). change (zprod (n :: sh)) with (n * zprod sh).
    specialize (IH a v ltac:(lia)). replace (nth a sh 0 * (n * zprod (upd a v sh))) with (n * (nth a sh 0 * zprod (upd a v sh))) by ring. rewrite IH. ring.
Qed.

(** Average pooling of blocks that tile the image: sum of the results times the block size is the sum of the image. *)
Theorem avg_total fuel junk (ks : nds Z) stride (m : pool F) (x : T) ax al l sts : on_axes x ax al ->
  (forall n, In n (shp x) -> 0 <= n) ->
  expand (length al) ks = Some l -> expand (length al) stride = Some sts -> avg_init ks stride None = Ok m ->
  (forall r, (r < length al)%nat -> 1 <= nth r l 0 <= nth (nth r al 0%nat) (shp x) 0 /\ nth r (map2 stride_or_size l sts) 1 = nth r l 0 /\
     (nth r l 0 | nth (nth r al 0%nat) (shp x) 0)) ->
  exists y, snd (avg_forward fuel junk true m x ax) = Ok y /\
    fmul (bsum (shp y) (at_ y)) (fofZ (zprod l)) = bsum (shp x) (at_ x) /\ zprod (shp y) * zprod l = zprod (shp x).
Proof.
  intros OA Hx A1 A2 A3 H. assert (L1 := expand_length _ _ _ A1). assert (L2 := expand_length _ _ _ A2).
  destruct (avg_mean F fuel junk ks stride m x ax al l sts OA A1 A2 A3) as [y [Y1 [Y2 [Y3 [Y4 Y5]]]]]; [intros r Hr; apply H, Hr|].
  assert (ST : map2 stride_or_size l sts = l).
  { apply list_ext with (d := 0); [rewrite map2_length; lia|]. rewrite map2_length. intros r Hr. destruct (H r ltac:(lia)) as [_ [E _]].
    rewrite (nth_indep _ 0 1) by (rewrite map2_length; lia). auto. }
  rewrite ST in *. pose proof OA as [O1 O2 O3]. unfold ndim in *.
  assert (G : shp x = grown al l (shp y)).
  { apply list_ext with (d := 0); [rewrite grown_length; lia|]. intros d _. destruct (in_dec Nat.eq_dec d al) as [Hi|Hi].
    - destruct (In_pos d al 0%nat Hi) as [r [Hr <-]]. rewrite grown_nth; auto; [|intros a Ha; rewrite Y2; auto]. rewrite Y3 by auto.
      destruct (H r Hr) as [[B1 B2] [_ [q E]]]. rewrite (nth_indep l 1 0) by lia. rewrite E.
      replace (q * nth r l 0 - nth r l 0) with ((q - 1) * nth r l 0) by ring. rewrite Z.div_mul by lia. ring.
    - now rewrite grown_notin, Y4 by auto. }
  assert (Pl : forall k, In k l -> 1 <= k).
  { intros k Hk. apply In_nth with (d := 0) in Hk. destruct Hk as [r [Hr <-]]. apply H. lia. }
  assert (Py : forall n, In n (shp y) -> 0 <= n).
  { intros n Hn. apply In_nth with (d := 0) in Hn. destruct Hn as [d [Hd <-]]. destruct (in_dec Nat.eq_dec d al) as [Hi|Hi].
    - destruct (In_pos d al 0%nat Hi) as [r [Hr <-]]. rewrite Y3 by auto. destruct (H r Hr) as [[B1 B2] _]. rewrite (nth_indep l 1 0) by lia.
      pose proof (Z.div_pos (nth (nth r al 0%nat) (shp x) 0 - nth r l 0) (nth r l 0)). lia.
    - rewrite Y4 by auto. apply Hx, nth_In. lia. }
  assert (PA : forall a, In a al -> 1 <= nth a (shp y) 0).
  { intros a Ha. destruct (In_pos a al 0%nat Ha) as [r [Hr <-]]. rewrite Y3 by auto. destruct (H r Hr) as [[B1 B2] _]. rewrite (nth_indep l 1 0) by lia.
    pose proof (Z.div_pos (nth (nth r al 0%nat) (shp x) 0 - nth r l 0) (nth r l 0)). lia. }
  exists y. split; auto. split.
  - rewrite (bsum_ext F (shp y) (at_ y) (fun j => fmul (fdiv f1 (fofZ (zprod l))) (bsum l (fun o => at_ x (place al l j o))))).
    2:{ intros j Vj. rewrite (proj1 (Y5 j Vj)). rewrite !(Fdiv_def (f_field F)). ring. }
    rewrite bsum_mul, bsum_place; auto; [|intros a Ha; rewrite Y2; auto|intros k Hk; specialize (Pl k Hk); lia].
    rewrite <- G. field. apply fofZ_neq0. pose proof (zprod_pos1 l Pl). lia.
  - rewrite G. clear - O3 O2 Y2 L1 PA. rewrite <- Y2 in O2. revert l L1. induction al as [|a al IH]; intros [|k l] L1; cbn [length] in L1; try lia.
    + change (zprod []) with 1. cbn [grown]. lia.
    + cbn [grown]. inv O3. change (zprod (k :: l)) with (k * zprod l). 
      pose proof (zprod_upd (grown al l (shp y)) a (nth a (shp y) 0 * k) ltac:(rewrite grown_length; apply O2; now left)) as Q.
      rewrite grown_notin in Q by auto. rewrite <- IH in Q; auto; [|intros b Hb; apply O2; now right|intros b Hb; apply PA; now right].
      specialize (PA a (or_introl eq_refl)). nia.
Qed.

Theorem avg_mean_kept fuel junk (ks : nds Z) stride (m : pool F) (x : T) ax al l sts : on_axes x ax al ->
  (forall n, In n (shp x) -> 1 <= n) ->
  expand (length al) ks = Some l -> expand (length al) stride = Some sts -> avg_init ks stride None = Ok m ->
  (forall r, (r < length al)%nat -> 1 <= nth r l 0 <= nth (nth r al 0%nat) (shp x) 0 /\ nth r (map2 stride_or_size l sts) 1 = nth r l 0 /\
     (nth r l 0 | nth (nth r al 0%nat) (shp x) 0)) ->
  exists y, snd (avg_forward fuel junk true m x ax) = Ok y /\
    fdiv (bsum (shp y) (at_ y)) (fofZ (zprod (shp y))) = fdiv (bsum (shp x) (at_ x)) (fofZ (zprod (shp x))).
Proof.
  intros OA Hx A1 A2 A3 H. destruct (avg_total fuel junk ks stride m x ax al l sts OA) as [y [Y1 [Y2 Y3]]]; auto.
  { intros n Hn. specialize (Hx n Hn). lia. }
  exists y. split; auto. rewrite <- Y2, <- Y3. pose proof (zprod_pos1 _ Hx) as P. rewrite fofZ_mul. field. split; apply fofZ_neq0; nia.
Qed.
End AT.
