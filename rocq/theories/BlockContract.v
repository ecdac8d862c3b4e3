(** Averaging the blocks that tile an image: two images come closer in the sum of squares and of absolute values. *)
From Verif Require Export AvgTwice BlurContract.
Open Scope Z_scope.
Section BK.
Variable F : ofield.
Notation T := (tensor F).
Add Field Fbk : (f_field F).

(** The blocks of size l tile the image. *)
Definition tiled (sh : list Z) (al : list nat) (l : list Z) (sts : list (option Z)) : Prop :=
  forall r, (r < length al)%nat -> 1 <= nth r l 0 <= nth (nth r al 0%nat) sh 0 /\ nth r (map2 stride_or_size l sts) 1 = nth r l 0 /\
     (nth r l 0 | nth (nth r al 0%nat) sh 0).

Lemma avg_tiles fuel junk (ks : nds Z) stride (m : pool F) (x : T) ax al l sts : on_axes x ax al ->
  (forall n, In n (shp x) -> 1 <= n) ->
  expand (length al) ks = Some l -> expand (length al) stride = Some sts -> avg_init ks stride None = Ok m -> tiled (shp x) al l sts ->
  exists y, snd (avg_forward fuel junk true m x ax) = Ok y /\
    (forall h : list Z -> F, bsum (shp y) (fun j => bsum l (fun o => h (place al l j o))) = bsum (shp x) h) /\
    length (shp y) = length (shp x) /\
    (forall r, (r < length al)%nat -> nth (nth r al 0%nat) (shp y) 0 = nth (nth r al 0%nat) (shp x) 0 / nth r l 0) /\
    (forall d, ~ In d al -> nth d (shp y) 0 = nth d (shp x) 0) /\
    (forall j, valid (shp y) j -> at_ y j = bsum l (fun o => fmul (fdiv f1 (fofZ (zprod l))) (at_ x (place al l j o)))) /\
    (forall n, In n (shp y) -> 1 <= n) /\ (forall k, In k l -> 1 <= k) /\ zprod (shp y) * zprod l = zprod (shp x).
Proof.
  intros OA Hx A1 A2 A3 H. assert (L1 := expand_length _ _ _ A1). assert (L2 := expand_length _ _ _ A2).
  destruct (avg_mean F fuel junk ks stride m x ax al l sts OA A1 A2 A3) as [y [Y1 [Y2 [Y3 [Y4 Y5]]]]]; [intros r Hr; apply H, Hr|].
  assert (ST : map2 stride_or_size l sts = l).
  { apply list_ext with (d := 0); [rewrite map2_length; lia|]. rewrite map2_length. intros r Hr. destruct (H r ltac:(lia)) as [_ [E _]].
    rewrite (nth_indep _ 0 1) by (rewrite map2_length; lia). auto. }
  rewrite ST in *. pose proof OA as [O1 O2 O3]. unfold ndim in *.
  assert (Y3' : forall r, (r < length al)%nat -> nth (nth r al 0%nat) (shp y) 0 = nth (nth r al 0%nat) (shp x) 0 / nth r l 0 /\
                 nth (nth r al 0%nat) (shp x) 0 = nth (nth r al 0%nat) (shp y) 0 * nth r l 0 /\ 1 <= nth (nth r al 0%nat) (shp y) 0).
  { intros r Hr. rewrite Y3 by auto. destruct (H r Hr) as [[B1 B2] [_ [q E]]]. rewrite (nth_indep l 1 0) by lia. rewrite E.
    replace (q * nth r l 0 - nth r l 0) with ((q - 1) * nth r l 0) by ring. rewrite !Z.div_mul by lia. rewrite E in B2. split; [lia|]. split; [ring|]. nia. }
  assert (G : shp x = AvgTwice.grown al l (shp y)).
  { apply list_ext with (d := 0); [rewrite AvgTwice.grown_length; lia|]. intros d _. destruct (in_dec Nat.eq_dec d al) as [Hi|Hi].
    - destruct (In_pos d al 0%nat Hi) as [r [Hr <-]]. rewrite AvgTwice.grown_nth; auto; [|intros a Ha; rewrite Y2; auto]. now apply Y3'.
    - now rewrite AvgTwice.grown_notin, Y4 by auto. }
  assert (Pl : forall k, In k l -> 1 <= k).
  { intros k Hk. apply In_nth with (d := 0) in Hk. destruct Hk as [r [Hr <-]]. apply H. lia. }
  assert (Py : forall n, In n (shp y) -> 1 <= n).
  { intros n Hn. apply In_nth with (d := 0) in Hn. destruct Hn as [d [Hd <-]]. destruct (in_dec Nat.eq_dec d al) as [Hi|Hi].
    - destruct (In_pos d al 0%nat Hi) as [r [Hr <-]]. now apply Y3'.
    - rewrite Y4 by auto. apply Hx, nth_In. lia. }
  exists y. split; auto. split.
  { intros h. rewrite bsum_place; auto; [now rewrite <- G|intros a Ha; rewrite Y2; auto|intros k Hk; specialize (Pl k Hk); lia|intros k Hk; specialize (Py k Hk); lia]. }
  split; [exact Y2|]. split; [intros r Hr; now apply Y3'|]. split; [exact Y4|]. split.
  { intros j Vj. rewrite (proj1 (Y5 j Vj)), bsum_mul. rewrite !(Fdiv_def (f_field F)). ring. }
  split; [exact Py|]. split; [exact Pl|].
  destruct (avg_total F fuel junk ks stride m x ax al l sts OA) as [y' [Z1 [_ Z2]]]; auto; [intros n Hn; specialize (Hx n Hn); lia|].
  rewrite Y1 in Z1. injection Z1 as <-. exact Z2.
Qed.

Lemma bsum_nonneg ns (f : list Z -> F) : (forall o, valid ns o -> fle f0 (f o)) -> fle f0 (bsum ns f).
Proof.
  intros H. replace (@f0 F) with (bsum ns (fun _ => fmul f0 f0) : F); [apply bsum_le; intros o Vo; replace (fmul f0 f0) with (@f0 F) by ring; auto|].
  rewrite bsum_mul. ring.
Qed.
(** What the averages lose is the spread inside the blocks. *)
Theorem block_pythagoras fuel junk fuel' junk' (ks : nds Z) stride (m : pool F) (x y : T) ax al l sts : on_axes x ax al -> shp y = shp x ->
  (forall n, In n (shp x) -> 1 <= n) ->
  expand (length al) ks = Some l -> expand (length al) stride = Some sts -> avg_init ks stride None = Ok m -> tiled (shp x) al l sts ->
  exists u v, snd (avg_forward fuel junk true m x ax) = Ok u /\ snd (avg_forward fuel' junk' true m y ax) = Ok v /\ shp v = shp u /\
    zprod (shp u) * zprod l = zprod (shp x) /\
    bsum (shp x) (fun i => sq F (fsub (at_ x i) (at_ y i))) =
      fadd (fmul (fofZ (zprod l)) (bsum (shp u) (fun j => sq F (fsub (at_ u j) (at_ v j)))))
           (bsum (shp u) (fun j => bsum l (fun o => sq F (fsub (fsub (at_ x (place al l j o)) (at_ y (place al l j o))) (fsub (at_ u j) (at_ v j)))))) /\
    fle (fmul (fofZ (zprod l)) (bsum (shp u) (fun j => fabs (fsub (at_ u j) (at_ v j))))) (bsum (shp x) (fun i => fabs (fsub (at_ x i) (at_ y i)))) /\
    exists s t, mse_forward RMean u v AxNone = Ok s /\ mse_forward RMean x y AxNone = Ok t /\ shp s = [] /\ shp t = [] /\ fle (at_ s []) (at_ t []).
Proof.
  intros OA Sy Hx A1 A2 A3 H. assert (OA' : on_axes y ax al) by (destruct OA as [O1 O2 O3]; unfold ndim in *; split; unfold ndim; rewrite ?Sy; auto).
  destruct (avg_tiles fuel junk ks stride m x ax al l sts OA Hx A1 A2 A3 H) as [u [U1 [U2 [U3 [U4 [U5 [U6 [U7 [Pl U8]]]]]]]]].
  destruct (avg_tiles fuel' junk' ks stride m y ax al l sts OA' ltac:(now rewrite Sy) A1 A2 A3 ltac:(now rewrite Sy)) as [v [V1 [_ [V3 [V4 [V5 [V6 _]]]]]]]. rewrite Sy in *.
  assert (Sv : shp v = shp u).
  { apply list_ext with (d := 0); [lia|]. intros d _. destruct (in_dec Nat.eq_dec d al) as [Hi|Hi]; [|now rewrite U5, V5 by auto].
    destruct (In_pos d al 0%nat Hi) as [r [Hr <-]]. now rewrite U4, V4. }
  rewrite Sv in *. pose proof (zprod_pos1 l Pl) as Pz. assert (Nz : fofZ (zprod l) <> @f0 F) by (apply fofZ_neq0; lia).
  set (c := fdiv f1 (fofZ (zprod l)) : F) in *. set (d := fun i => fsub (at_ x i) (at_ y i)).
  assert (D : forall j, valid (shp u) j -> fsub (at_ u j) (at_ v j) = bsum l (fun o => fmul c (d (place al l j o)))).
  { intros j Vj. rewrite U6, V6 by auto. rewrite <- bsum_sub. apply bsum_ext. intros o Vo. unfold d. ring. }
  assert (Cn : fle f0 c) by (unfold c; rewrite (Fdiv_def (f_field F)); replace (fmul f1 (finv (fofZ (zprod l)))) with (finv (fofZ (zprod l)) : F) by ring; apply flt_fle, finv_pos, fofZ_pos; lia).
  assert (P : bsum (shp x) (fun i => sq F (d i)) =
      fadd (fmul (fofZ (zprod l)) (bsum (shp u) (fun j => sq F (fsub (at_ u j) (at_ v j)))))
           (bsum (shp u) (fun j => bsum l (fun o => sq F (fsub (d (place al l j o)) (fsub (at_ u j) (at_ v j))))))).
  { rewrite <- (U2 (fun i => sq F (d i))). rewrite <- bsum_mul, <- bsum_add. apply bsum_ext. intros j Vj.
    set (e := fsub (at_ u j) (at_ v j)) in *.
    rewrite (bsum_ext F l (fun o => sq F (fsub (d (place al l j o)) e)) (fun o => fadd (sq F (d (place al l j o))) (fadd (fmul (fmul (fopp (fmul (fadd f1 f1) e)) (fofZ (zprod l))) (fmul c (d (place al l j o)))) (sq F e)))).
    2:{ intros o Vo. unfold sq, c. field. exact Nz. }
    rewrite !bsum_add, bsum_mul, <- (D j Vj), bsum_const by auto. fold e. unfold sq. ring. }
  exists u, v. do 4 (split; auto). split; [exact P|]. split.
  - rewrite <- (U2 (fun i => fabs (fsub (at_ x i) (at_ y i)))), <- bsum_mul. apply bsum_le. intros j Vj. rewrite D by auto.
    apply fle_trans with (fmul (fofZ (zprod l)) (bsum l (fun o => fmul c (fabs (d (place al l j o)))))).
    + apply fmul_le_l; [apply flt_fle, fofZ_pos; lia|]. apply bsum_abs. auto.
    + rewrite bsum_mul. replace (fmul (fofZ (zprod l)) (fmul c (bsum l (fun o => fabs (d (place al l j o)))))) with (bsum l (fun o => fabs (d (place al l j o)))); [apply fle_refl|]. unfold c. field. exact Nz.
  - destruct (mse_all F u v) as [s [S1 [S2 S3]]]; [congruence|exact U7|]. destruct (mse_all F x y) as [t [T1 [T2 T3]]]; auto.
    exists s, t. do 4 (split; auto). rewrite S3, T3, <- U8. change (fun i => sq F (fsub (at_ x i) (at_ y i))) with (fun i => sq F (d i)). rewrite P.
    pose proof (zprod_pos1 _ U7) as Pu. assert (Nu : fofZ (zprod (shp u)) <> @f0 F) by (apply fofZ_neq0; lia).
    set (A := bsum (shp u) (fun j => sq F (fsub (at_ u j) (at_ v j)))). set (B := bsum (shp u) (fun j => bsum l _)). rewrite fofZ_mul.
    replace (fdiv (fadd (fmul (fofZ (zprod l)) A) B) (fmul (fofZ (zprod (shp u))) (fofZ (zprod l)))) with (fadd (fdiv A (fofZ (zprod (shp u)))) (fmul (finv (fmul (fofZ (zprod (shp u))) (fofZ (zprod l)))) B)) by (field; auto).
    assert (NB : fle f0 (fmul (finv (fmul (fofZ (zprod (shp u))) (fofZ (zprod l)))) B)).
    { apply fmul_nonneg; [apply flt_fle, finv_pos; rewrite <- fofZ_mul; apply fofZ_pos; nia|]. unfold B. apply bsum_nonneg. intros j Vj. apply bsum_nonneg. intros o Vo. apply sq_nonneg. }
    set (Q := fmul _ B) in *. replace (fdiv A (fofZ (zprod (shp u)))) with (fadd (fdiv A (fofZ (zprod (shp u)))) f0) at 1 by ring. apply fle_add; [apply fle_refl|exact NB].
Qed.
End BK.
