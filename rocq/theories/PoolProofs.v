(** SeparablePoolNd.forward computes the correlation of PoolSpec.v (C36, C37). *)
From Verif Require Export PoolSpec PoolModel TensorLemmas FieldLemmas PadSeq.
Open Scope Z_scope.

Section P.
Variable F : ofield.
Add Field Fpool : (f_field F).
Notation T := (tensor F).

(** *** box sums *)
Lemma bsum_ext ns (f g : list Z -> F) : (forall o, valid ns o -> f o = g o) -> bsum ns f = bsum ns g.
Proof.
  revert f g. induction ns as [|n ns IH]; intros f g H; simpl.
  - apply H. constructor.
  - apply fsum_ext. intros k Hk. apply IH. intros o Ho. apply H. constructor; auto.
Qed.
Lemma bsum_fsum ns n (f : Z -> list Z -> F) :
  bsum ns (fun o => fsum n (fun k => f k o)) = fsum n (fun k => bsum ns (f k)).
Proof.
  revert f. induction ns as [|m ns IH]; intros f; simpl; auto.
  rewrite fsum_swap. apply fsum_ext. intros k Hk. apply (IH (fun i o => f i (k :: o))).
Qed.
Lemma bsum_mul ns c (f : list Z -> F) : bsum ns (fun o => fmul c (f o)) = fmul c (bsum ns f).
Proof.
  revert f. induction ns as [|m ns IH]; intros f; simpl; auto.
  rewrite <- fsum_mul. apply fsum_ext. intros k Hk. apply IH.
Qed.
Lemma bsum_add ns (f g : list Z -> F) : bsum ns (fun o => fadd (f o) (g o)) = fadd (bsum ns f) (bsum ns g).
Proof.
  revert f g. induction ns as [|m ns IH]; intros f g; simpl; auto.
  rewrite <- fsum_add. apply fsum_ext. intros k Hk. apply IH.
Qed.
Lemma bsum_le ns (f g : list Z -> F) : (forall o, valid ns o -> fle (f o) (g o)) -> fle (bsum ns f) (bsum ns g).
Proof.
  revert f g. induction ns as [|n ns IH]; intros f g H; simpl.
  - apply H. constructor.
  - apply fsum_le. intros k Hk. apply IH. intros o Ho. apply H. constructor; auto.
Qed.

(** *** places and shapes *)
Lemma place_length al : forall sts j o, length (place al sts j o) = length j.
Proof. induction al as [|a al IH]; intros [|s sts] j [|k o]; simpl; auto. now rewrite upd_length. Qed.
Lemma place_notin a al : forall sts j o, ~ In a al -> nth a (place al sts j o) 0 = nth a j 0.
Proof.
  induction al as [|b al IH]; intros [|s sts] j [|k o] H; simpl; auto.
  rewrite nth_upd_ne by (intros ->; apply H; now left). apply IH. intros E; apply H; now right.
Qed.
Lemma pooled_length al : forall (kers : list (list F)) sts sh, length (pooled al kers sts sh) = length sh.
Proof.
  induction al as [|a al IH]; intros [|k kers] [|s sts] sh; simpl; auto. now rewrite IH, upd_length.
Qed.
Lemma pooled_notin d al : forall (kers : list (list F)) sts sh, ~ In d al -> nth d (pooled al kers sts sh) 0 = nth d sh 0.
Proof.
  induction al as [|b al IH]; intros [|k kers] [|s sts] sh H; simpl; auto.
  rewrite IH by (intros E; apply H; now right). apply nth_upd_ne. intros ->. apply H. now left.
Qed.
Lemma pooled_nth al : forall (kers : list (list F)) sts sh r, NoDup al -> (forall a, In a al -> (a < length sh)%nat) ->
  length kers = length al -> length sts = length al -> (r < length al)%nat ->
  nth (nth r al 0%nat) (pooled al kers sts sh) 0 = (nth (nth r al 0%nat) sh 0 - klen (nth r kers [])) / nth r sts 1 + 1.
Proof.
  induction al as [|a al IH]; intros [|k kers] [|s sts] sh r Hn Hl Hk Hs Hr; simpl in *; try lia; try discriminate.
  inv Hn. destruct r as [|r].
  - rewrite pooled_notin by auto. apply nth_upd_eq. auto.
  - rewrite IH; auto; try lia.
    + rewrite nth_upd_ne; auto. intros ->. apply H1. apply nth_In. lia.
    + intros b Hb. rewrite upd_length. auto.
Qed.
Lemma place_nth al : forall sts j o r, NoDup al -> (forall a, In a al -> (a < length j)%nat) ->
  length sts = length al -> length o = length al -> (r < length al)%nat ->
  nth (nth r al 0%nat) (place al sts j o) 0 = nth (nth r al 0%nat) j 0 * nth r sts 1 + nth r o 0.
Proof.
  induction al as [|a al IH]; intros [|s sts] j [|k o] r Hn Hl Hs Ho Hr; simpl in *; try lia; try discriminate.
  inv Hn. destruct r as [|r].
  - apply nth_upd_eq. rewrite place_length. auto.
  - rewrite nth_upd_ne by (intros ->; apply H1; apply nth_In; lia). apply IH; auto; lia.
Qed.
Lemma In_pos {A} (a : A) l d : In a l -> exists r, (r < length l)%nat /\ nth r l d = a.
Proof. intros H. apply In_nth with (d := d) in H. destruct H as [r [H1 H2]]. eauto. Qed.
Lemma window_fits n k s j o : 1 <= s -> 0 <= o < k -> 0 <= j < (n - k) / s + 1 -> 0 <= j * s + o < n.
Proof.
  intros Hs Ho Hj. pose proof (Z.mul_div_le (n - k) s ltac:(lia)).
  assert (j * s <= (n - k) / s * s) by (apply Z.mul_le_mono_nonneg_r; lia).
  assert (0 <= j * s) by (apply Z.mul_nonneg_nonneg; lia). lia.
Qed.
Lemma place_valid al (kers : list (list F)) sts sh j o : NoDup al -> (forall a, In a al -> (a < length sh)%nat) ->
  length kers = length al -> length sts = length al ->
  (forall r, (r < length al)%nat -> 1 <= nth r sts 1) ->
  valid (pooled al kers sts sh) j -> valid (map klen kers) o -> valid sh (place al sts j o).
Proof.
  intros Hn Hl Hk Hs Hw Vj Vo. apply valid_iff. pose proof (valid_length _ _ Vj) as Lj. rewrite pooled_length in Lj.
  pose proof (valid_length _ _ Vo) as Lo. rewrite map_length in Lo.
  rewrite place_length. split; auto. intros d Hd.
  assert (Vd := valid_nth _ _ d Vj). rewrite pooled_length in Vd. specialize (Vd Hd).
  destruct (in_dec Nat.eq_dec d al) as [Hi|Hi].
  - destruct (In_pos d al 0%nat Hi) as [r [Hr <-]].
    rewrite place_nth by (auto; try lia; intros; rewrite Lj; auto). rewrite pooled_nth in Vd by auto.
    assert (Vr := valid_nth _ _ r Vo). rewrite map_length in Vr. specialize (Vr ltac:(lia)).
    rewrite (nth_indep (map klen kers) 0 (klen (@nil F))) in Vr by (rewrite map_length; lia). rewrite map_nth in Vr.
    eapply window_fits; eauto.
  - rewrite place_notin by auto. rewrite pooled_notin in Vd by auto. auto.
Qed.
Lemma correlate_teq al (kers : list (list F)) sts (x y : T) : NoDup al -> (forall a, In a al -> (a < ndim x)%nat) ->
  length kers = length al -> length sts = length al ->
  (forall r, (r < length al)%nat -> 1 <= nth r sts 1) ->
  teq x y -> teq (correlate al kers sts x) (correlate al kers sts y).
Proof.
  intros Hn Hl Hk Hs Hw [S E]. split; simpl; [now rewrite S|]. intros j Vj.
  apply bsum_ext. intros o Vo. f_equal. apply E. eapply place_valid; eauto.
Qed.

(** *** the loop *)
Definition step_ok (m : pool F) (i : Z) (k : list F) (s : Z) : Prop :=
  nds_get (pl_size m) i = Ok (klen k) /\
  (k <> [] -> nds_get (pl_kernel m) i = Ok k /\ nds_get (pl_stride m) i = Ok s /\ 1 <= s).

Lemma fsum_1 (f : Z -> F) : fsum 1 f = f 0.
Proof. unfold fsum. simpl. ring. Qed.

Lemma tunfold_matvec (x : T) a k s : (a < ndim x)%nat -> k <> [] -> 1 <= s -> klen k <= nth a (shp x) 0 ->
  exists u y, tunfold a (klen k) s x = Ok u /\ tmatvec u k = Ok y /\
    shp y = upd a ((nth a (shp x) 0 - klen k) / s + 1) (shp x) /\
    forall j, length j = ndim x ->
      at_ y j = fsum (klen k) (fun o => fmul (nth (Z.to_nat o) k f0) (at_ x (upd a (nth a j 0 * s + o) j))).
Proof.
  intros Ha Hk Hs Hw. unfold tunfold, dimlen.
  destruct (Z.ltb_spec 0 s); [|lia]. unfold klen in *. destruct (Z.leb_spec 0 (Z.of_nat (length k))); [|lia].
  destruct (Z.leb_spec (Z.of_nat (length k)) (nth a (shp x) 0)); [|lia]. cbn [andb].
  eexists. eexists. split; [reflexivity|]. unfold tmatvec. cbn [shp at_]. rewrite last_last, Z.eqb_refl.
  split; [reflexivity|]. cbn [shp at_]. rewrite removelast_last. split; auto.
  intros j Hj. apply fsum_ext. intros o Ho.
  rewrite app_nth1 by lia. rewrite <- Hj at 1. rewrite app_nth2, Nat.sub_diag by lia. cbn [nth].
  rewrite <- Hj, firstn_app, Nat.sub_diag, firstn_all. cbn [firstn]. rewrite app_nil_r. ring.
Qed.

Lemma pool_loop_ok (m : pool F) : forall al i (x : T) kers sts, NoDup al ->
  (forall a, In a al -> (a < ndim x)%nat) -> length kers = length al -> length sts = length al ->
  (forall r, (r < length al)%nat -> step_ok m (i + Z.of_nat r) (nth r kers []) (nth r sts 1) /\
     klen (nth r kers []) <= nth (nth r al 0%nat) (shp x) 0) ->
  exists y, pool_loop m x i (map Z.of_nat al) = Ok y /\
    teq y (correlate al (map eff_kernel kers) (map2 eff_stride kers sts) x).
Proof.
  induction al as [|a al IH]; intros i x kers sts Hn Hl Hk Hs H.
  - destruct kers; [|discriminate]. exists x. split; auto. split; simpl; auto. intros; ring.
  - destruct kers as [|k kers]; [discriminate|]. destruct sts as [|s sts]; [discriminate|].
    simpl in Hk, Hs. inv Hn. destruct (H 0%nat ltac:(simpl; lia)) as [[G1 G2] G3]. simpl nth in G1, G2, G3.
    replace (i + Z.of_nat 0) with i in * by lia.
    assert (Hrec : forall r, (r < length al)%nat -> step_ok m (i + 1 + Z.of_nat r) (nth r kers []) (nth r sts 1) /\
       klen (nth r kers []) <= nth (nth r al 0%nat) (shp x) 0).
    { intros r Hr. destruct (H (S r) ltac:(simpl; lia)) as [Q1 Q2]. simpl nth in Q1, Q2.
      replace (i + Z.of_nat (S r)) with (i + 1 + Z.of_nat r) in Q1 by lia. auto. }
    cbn [map pool_loop]. rewrite G1. cbn [bind].
    destruct k as [|c k].
    + change (klen (@nil F) =? 0) with true. cbn match.
      destruct (IH (i + 1) x kers sts) as [y [E1 [E2 E3]]]; auto; try lia.
      { intros b Hb. apply Hl. now right. }
      exists y. split; auto. cbn [map2 eff_kernel eff_stride].
      assert (Es : pooled (a :: al) ([f1] :: map eff_kernel kers) (1 :: map2 eff_stride kers sts) (shp x) =
                   pooled al (map eff_kernel kers) (map2 eff_stride kers sts) (shp x)).
      { cbn [pooled]. unfold klen at 1. cbn [length]. rewrite Z.div_1_r.
        replace (nth a (shp x) 0 - Z.of_nat 1 + 1) with (nth a (shp x) 0) by lia. now rewrite upd_nth. }
      split; [rewrite E2; cbn [correlate shp]; now rewrite Es|].
      intros j Vj. rewrite E3 by auto. unfold correlate. cbn [at_ map bsum place weight].
      change (klen [f1]) with 1. rewrite fsum_1. apply bsum_ext. intros o Vo. simpl nth at 1.
      replace (upd a _ _) with (place al (map2 eff_stride kers sts) j o); [ring|].
      rewrite Z.mul_1_r, Z.add_0_r. rewrite <- (place_notin a al (map2 eff_stride kers sts) j o) by auto. now rewrite upd_nth.
    + destruct (Z.eqb_spec (klen (c :: k)) 0) as [E|_]; [unfold klen in E; simpl in E; lia|].
      destruct G2 as [K1 [K2 K3]]; [discriminate|]. rewrite K2. cbn [bind].
      rewrite axis_nat_ok by (apply Hl; now left). cbn [bind].
      destruct (tunfold_matvec x a (c :: k) s) as [u [x' [U1 [U2 [U3 U4]]]]]; auto; [apply Hl; now left|discriminate|].
      rewrite U1. cbn [bind]. rewrite K1. cbn [bind]. rewrite U2. cbn [bind].
      assert (Nx : ndim x' = ndim x) by (unfold ndim; rewrite U3; apply upd_length).
      destruct (IH (i + 1) x' kers sts) as [y [E1 [E2 E3]]]; auto; try lia.
      { intros b Hb. rewrite Nx. apply Hl. now right. }
      { intros r Hr. destruct (Hrec r Hr) as [Q1 Q2]. split; auto. rewrite U3.
        rewrite nth_upd_ne; auto. intros ->. apply H2. apply nth_In; auto. }
      exists y. split; auto. change (eff_kernel (c :: k)) with (c :: k). cbn [map map2 eff_kernel eff_stride].
      split; [rewrite E2; cbn [correlate shp pooled]; now rewrite U3|].
      intros j Vj. rewrite E3 by auto. unfold correlate. cbn [at_ map bsum place weight].
      assert (Lj : length j = ndim x).
      { apply valid_length in Vj. rewrite E2 in Vj. unfold correlate in Vj. cbn [shp] in Vj.
        rewrite pooled_length in Vj. unfold ndim in *. congruence. }
      rewrite (bsum_ext _ _ (fun o => fsum (klen (c :: k)) (fun q =>
         fmul (fmul (nth (Z.to_nat q) (c :: k) f0) (weight (map eff_kernel kers) o))
              (at_ x (upd a (nth a j 0 * s + q) (place al (map2 eff_stride kers sts) j o)))))).
      * rewrite bsum_fsum. reflexivity.
      * intros o Vo. rewrite U4 by (rewrite place_length; auto). rewrite <- fsum_mul. apply fsum_ext. intros q Hq.
        rewrite place_notin by auto. ring.
Qed.
End P.
