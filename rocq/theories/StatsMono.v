(** describe of two images: order, largest difference, and the triangle inequality of the standard deviation. *)
From Coq Require Import Reals Lra Permutation Sorted.
From Verif Require Export StatsProofs PadMono MetricLaws.
Open Scope Z_scope.

(** All entries but the standard deviation, compared up to d. *)
Definition desc_below {F : ofield} (d : F) (a b : description F) : Prop :=
  fle (d_mean a) (fadd (d_mean b) d) /\ fle (d_min a) (fadd (d_min b) d) /\ fle (d_25 a) (fadd (d_25 b) d) /\ fle (d_50 a) (fadd (d_50 b) d) /\
  fle (d_75 a) (fadd (d_75 b) d) /\ fle (d_max a) (fadd (d_max b) d).

Section SM.
Variable F : ofield.
Add Field Fsm : (f_field F).
Notation T := (tensor F).
Variable root : F -> F.

Lemma Forall2_len {A B} (R : A -> B -> Prop) l l' : Forall2 R l l' -> length l = length l'.
Proof. induction 1; simpl; congruence. Qed.
Lemma quantile_mono (d : F) p q l l' : 0 < q -> 0 <= p <= q -> l <> [] -> fle f0 d -> Forall2 (fun u v => fle u (fadd v d)) l l' ->
  fle (quantile p q l) (fadd (quantile p q l') d).
Proof.
  intros Hq Hp N Hd H. pose proof (Forall2_len _ _ _ H) as Ln. assert (1 <= Z.of_nat (length l)) by (destruct l; [congruence|cbn in *; lia]).
  rewrite (quantile_interp F p q l (lsort l)), (quantile_interp F p q l' (lsort l')); auto using lsort_perm, lsort_sorted. rewrite <- Ln.
  set (r := p * _). assert (B : 0 <= r <= q * (Z.of_nat (length (lsort l)) - 1)) by (rewrite lsort_length; unfold r; nia).
  destruct (interp_hi F (lsort l) q r Hq) as [hi [_ [_ [_ E]]]]; try lia. rewrite !E by (rewrite !lsort_length; auto).
  pose proof (sort_mono F d l l' H) as S. pose proof (Forall2_nth_R F d Hd _ _ hi S) as S1. pose proof (Forall2_nth_R F d Hd _ _ (Z.to_nat (r / q)) S) as S2.
  set (t := fdiv (fofZ (r mod q)) (fofZ q)). set (a := nth hi (lsort l) f0) in *. set (a' := nth hi (lsort l') f0) in *. set (b := nth (Z.to_nat (r / q)) (lsort l) f0) in *. set (b' := nth (Z.to_nat (r / q)) (lsort l') f0) in *. cbv beta in S1, S2.
  pose proof (Z.mod_pos_bound r q Hq) as Bq. pose proof (fofZ_pos F q Hq) as Pq. assert (Nq : fofZ q <> (@f0 F)) by (apply fofZ_neq0; lia).
  assert (T0 : fle f0 t) by (apply fdiv_nonneg; auto; apply fofZ_nonneg; lia).
  assert (T1 : fle f0 (fsub f1 t)).
  { unfold t. replace (fsub f1 (fdiv (fofZ (r mod q)) (fofZ q))) with (fdiv (@fofZ F (q - r mod q)) (fofZ q)) by (rewrite fofZ_sub; field; auto). apply fdiv_nonneg; auto; apply fofZ_nonneg; lia. }
  replace (fadd b (fmul t (fsub a b))) with (fadd (fmul (fsub f1 t) b) (fmul t a)) by ring.
  replace (fadd (fadd b' (fmul t (fsub a' b'))) d) with (fadd (fmul (fsub f1 t) (fadd b' d)) (fmul t (fadd a' d))) by ring.
  apply fle_add; apply fmul_le_l; auto.
Qed.

Lemma elems_below d (x y : T) : below_by d x y -> Forall2 (fun u v => fle u (fadd v d)) (elems x) (elems y).
Proof.
  intros [S H]. unfold elems. rewrite S. apply Forall2_map_R. intros i I. apply H. now apply In_tindices.
Qed.
Theorem describe_by d (x y : T) a : fle f0 d -> below_by d x y -> describe root x = Ok a -> exists b, describe root y = Ok b /\ desc_below d a b.
Proof.
  intros Hd H E. apply describe_inv in E as [N ->]. pose proof (elems_below d x y H) as H2. pose proof (Forall2_len _ _ _ H2) as Ln.
  assert (N' : elems y <> []) by (intros C; rewrite C in Ln; destruct (elems x); [congruence|discriminate]).
  eexists. split; [now apply describe_some|]. unfold desc_below. cbn [d_mean d_min d_25 d_50 d_75 d_max].
  repeat split; try (apply quantile_mono; auto; lia).
  - exact (stat_mono F d Hd SMean _ _ N H2).
  - exact (stat_mono F d Hd SMin _ _ N H2).
  - exact (stat_mono F d Hd SMax _ _ N H2).
Qed.
Theorem describe_below (x y : T) a : below x y -> describe root x = Ok a -> exists b, describe root y = Ok b /\
  fle (d_mean a) (d_mean b) /\ fle (d_min a) (d_min b) /\ fle (d_25 a) (d_25 b) /\ fle (d_50 a) (d_50 b) /\ fle (d_75 a) (d_75 b) /\ fle (d_max a) (d_max b).
Proof.
  intros [S H] E. destruct (describe_by f0 x y a (fle_refl F f0)) as [b [E2 D]]; auto.
  - split; auto. intros i V. replace (fadd (at_ y i) f0) with (at_ y i) by ring. auto.
  - exists b. split; auto. unfold desc_below in D. assert (Z0 : forall u : F, fadd u f0 = u) by (intros; ring). rewrite !Z0 in D. exact D.
Qed.
Theorem describe_close d (x y : T) a : fle f0 d -> close d x y -> describe root x = Ok a -> exists b, describe root y = Ok b /\ desc_below d a b /\ desc_below d b a.
Proof.
  intros Hd [S H] E.
  destruct (describe_by d x y a Hd) as [b [E2 D]]; auto.
  { split; auto. intros i V. destruct (H i V) as [_ H2]. replace (at_ x i) with (fadd (fsub (at_ x i) (at_ y i)) (at_ y i)) by ring. replace (fadd (at_ y i) d) with (fadd d (at_ y i)) by ring. apply fle_add; auto. apply fle_refl. }
  exists b. split; auto. split; auto.
  destruct (describe_by d y x b Hd) as [a' [E3 D']]; auto.
  { split; auto. intros i V. rewrite S in V. destruct (H i V) as [H1 _]. replace (at_ y i) with (fadd (fopp d) (fadd (at_ y i) d)) by ring.
    replace (fadd (at_ x i) d) with (fadd (fsub (at_ x i) (at_ y i)) (fadd (at_ y i) d)) by ring. apply fle_add; auto. apply fle_refl. }
  rewrite E in E3. injection E3 as <-. exact D'.
Qed.
End SM.

(** The standard deviation over the reals. *)
Section Std.
Open Scope R_scope.
Notation TR := (tensor RF).
Lemma std_of (x : TR) a : describe (F:=RF) sqrt x = Ok a -> (2 <= length (elems x))%nat ->
  d_std a = Some (sqrt (sumR (map (fun i => (at_ x i - d_mean a) * (at_ x i - d_mean a)) (tindices (shp x))) / (INR (length (elems x)) - 1))).
Proof.
  intros E L. apply describe_inv in E as [N ->]. cbn [d_std d_mean]. unfold lvar.
  replace (Z.of_nat (length (elems x)) =? 1)%Z with false by (symmetry; apply Z.eqb_neq; lia). cbn [option_map]. f_equal. f_equal.
  rewrite RF_ofZ, minus_IZR, <- INR_IZR_INZ. change (@fdiv RF) with Rdiv. f_equal. unfold sumR. f_equal.
  set (m := lmean (elems x)). unfold elems. rewrite map_map. reflexivity.
Qed.
Lemma lsum_R_add {A} (f g : A -> R) l : sumR (map (fun i => f i + g i) l) = sumR (map f l) + sumR (map g l).
Proof. induction l as [|a l IH]; [cbn; lra|]. cbn [map]. rewrite !sumR_cons, IH. ring. Qed.
Theorem std_triangle (x y z : TR) a b : shp y = shp x -> shp z = shp x -> (forall i, valid (shp x) i -> at_ z i = at_ x i + at_ y i) ->
  (2 <= length (elems x))%nat -> describe (F:=RF) sqrt x = Ok a -> describe (F:=RF) sqrt y = Ok b ->
  exists c u v w, describe (F:=RF) sqrt z = Ok c /\ d_mean c = d_mean a + d_mean b /\ d_std a = Some u /\ d_std b = Some v /\ d_std c = Some w /\ w <= u + v.
Proof.
  intros Sy Sz H L Ea Eb. set (I := tindices (shp x)).
  assert (Lx : length (elems x) = length I) by (unfold elems, I; now rewrite map_length).
  assert (Ly : length (elems y) = length I) by (unfold elems, I; now rewrite map_length, Sy).
  assert (Lz : length (elems z) = length I) by (unfold elems, I; now rewrite map_length, Sz).
  assert (Nz : elems z <> []) by (intros C; rewrite C in Lz; cbn in Lz; lia).
  pose proof (describe_some RF sqrt z Nz) as Ec. set (c := mkDesc _ _ _ _ _ _ _) in Ec.
  assert (M : d_mean c = d_mean a + d_mean b).
  { apply describe_inv in Ea as [_ ->]. apply describe_inv in Eb as [_ ->]. unfold c. cbn [d_mean]. unfold lmean. rewrite Lx, Ly, Lz.
    assert (E : sumR (elems z) = sumR (elems x) + sumR (elems y)).
    { unfold elems. rewrite Sy, Sz, <- lsum_R_add. f_equal. apply map_ext_in. intros i Hi. apply H. now apply In_tindices. }
    unfold sumR in E. rewrite E. change (@fdiv RF) with Rdiv. unfold Rdiv. match goal with |- @eq _ ?l ?r => change (@eq R l r) end. ring. }
  exists c. do 3 eexists. split; [exact Ec|]. split; [exact M|]. split; [exact (std_of x a Ea L)|]. split; [exact (std_of y b Eb ltac:(lia))|]. split; [exact (std_of z c Ec ltac:(lia))|].
  rewrite Sy, Sz, Lx, Ly, Lz. fold I.
  assert (P : 0 < INR (length I) - 1). { pose proof (le_INR 2 (length I) ltac:(lia)) as Q. cbn in Q. lra. }
  rewrite !sqrt_div_alt by auto. rewrite <- Rdiv_plus_distr. apply Rmult_le_compat_r; [left; apply Rinv_0_lt_compat, sqrt_lt_R0; auto|].
  apply (minkowski (fun i => at_ x i - d_mean a) (fun i => at_ y i - d_mean b) (fun i => at_ z i - d_mean c)). intros i Hi. rewrite M, H by (now apply In_tindices). ring.
Qed.
End Std.
