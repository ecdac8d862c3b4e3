(** sum and mean over some axes. *)
From Coq Require Import Permutation.
From Verif Require Export ReduceModel MiscProofs.
Open Scope Z_scope.

(** The coordinates (or sizes) of i on the axes that are not in al, in order. *)
Definition outside (al : list nat) (i : list Z) : list Z :=
  map (fun d => nth d i 0) (filter (fun d => negb (existsb (Nat.eqb d) al)) (seq 0 (length i))).
(** L lists, each once, the indices of shape s whose coordinates outside al are j. *)
Definition block_of (s : list Z) (al : list nat) (j : list Z) (L : list (list Z)) : Prop :=
  NoDup L /\ forall i, In i L <-> valid s i /\ outside al i = j.

Lemma kept_from_outside al : forall i d,
  kept_from d al i = map (fun k => nth (k - d) i 0) (filter (fun k => negb (existsb (Nat.eqb k) al)) (seq d (length i))).
Proof.
  induction i as [|k i IH]; intros d; cbn [kept_from length seq filter map]; auto. rewrite IH.
  assert (E : forall P, map (fun q => nth (q - d) (k :: i) 0) (filter P (seq (S d) (length i))) = map (fun q => nth (q - S d) i 0) (filter P (seq (S d) (length i)))).
  { intros P. apply map_ext_in. intros q Hq. apply filter_In in Hq. destruct Hq as [Hq _]. apply in_seq in Hq. replace (q - d)%nat with (S (q - S d)) by lia. reflexivity. }
  destruct (existsb (Nat.eqb d) al); cbn [negb map]; rewrite E; auto. rewrite Nat.sub_diag. reflexivity.
Qed.
Lemma kept_outside al i : kept al i = outside al i.
Proof. unfold kept, outside. rewrite kept_from_outside. apply map_ext. intros k. now rewrite Nat.sub_0_r. Qed.

Lemma NoDup_flat_map {A B} (f : A -> list B) (g : B -> A) : forall l, NoDup l -> (forall a, NoDup (f a)) ->
  (forall a b, In b (f a) -> g b = a) -> NoDup (flat_map f l).
Proof.
  induction l as [|a l IH]; intros N Nf G; cbn [flat_map]; [constructor|]. inv N.
  assert (D : forall b, In b (f a) -> ~ In b (flat_map f l)).
  { intros b Hb H. apply in_flat_map in H. destruct H as [a' [H1' H2']]. apply G in Hb. apply G in H2'. congruence. }
  specialize (IH H2 Nf G). specialize (Nf a). clear -IH Nf D. induction (f a) as [|b m IHm]; cbn [app]; auto. inv Nf.
  constructor; [rewrite in_app_iff; intros [|]; auto; apply (D b); auto; now left|]. apply IHm; auto. intros b' Hb'. apply D. now right.
Qed.
Lemma zseq_seq n : forall lo, zseq lo n = map (fun k => lo + Z.of_nat k) (seq 0 n).
Proof.
  induction n as [|n IH]; intros lo; cbn [zseq seq map]; auto. rewrite IH, <- seq_shift, map_map. f_equal; [lia|]. apply map_ext. intros; lia.
Qed.
Lemma NoDup_zrange n : NoDup (zrange n).
Proof. unfold zrange. rewrite zseq_seq. apply FinFun.Injective_map_NoDup; [intros a b E; lia|apply seq_NoDup]. Qed.
Lemma NoDup_tindices s : NoDup (tindices s).
Proof.
  induction s as [|n s IH]; cbn [tindices]; [repeat constructor; intros []|].
  apply (NoDup_flat_map _ (fun i => nth 0 i 0)); [apply NoDup_zrange| |].
  - intros k. apply FinFun.Injective_map_NoDup; auto. intros a b E. now inv E.
  - intros k i H. apply in_map_iff in H. destruct H as [i' [<- _]]. reflexivity.
Qed.
Lemma block_ok s al j : block_of s al j (block s al j).
Proof.
  split; [apply NoDup_filter, NoDup_tindices|]. intros i. unfold block. rewrite filter_In, In_tindices, ieqb_true, kept_outside. reflexivity.
Qed.
Lemma block_perm s al j L : block_of s al j L -> Permutation (block s al j) L.
Proof.
  intros [N H]. destruct (block_ok s al j) as [N' H']. apply NoDup_Permutation; auto. intros i. rewrite H, H'. reflexivity.
Qed.

Lemma kept_from_cons d al k i : kept_from d al (k :: i) = if existsb (Nat.eqb d) al then kept_from (S d) al i else k :: kept_from (S d) al i.
Proof. reflexivity. Qed.
(** Product of the sizes on the axes in al, the first axis being number d. *)
Fixpoint inner_from (d : nat) (al : list nat) (s : list Z) : Z :=
  match s with [] => 1 | n :: s' => (if existsb (Nat.eqb d) al then n else 1) * inner_from (S d) al s' end.
Lemma filter_flat_map {A B} (P : B -> bool) (f : A -> list B) l : filter P (flat_map f l) = flat_map (fun a => filter P (f a)) l.
Proof. induction l; cbn; auto. now rewrite filter_app, IHl. Qed.
Lemma filter_map {A B} (P : B -> bool) (f : A -> B) l : filter P (map f l) = map f (filter (fun a => P (f a)) l).
Proof. induction l; cbn; auto. destruct (P (f a)); cbn; now rewrite IHl. Qed.
Lemma length_flat_map_const {A B} (f : A -> list B) c l : (forall a, In a l -> length (f a) = c) -> length (flat_map f l) = (length l * c)%nat.
Proof. induction l; intros H; cbn; auto. rewrite app_length, H, IHl; auto; [intros b Hb; apply H; now right|now left]. Qed.
Lemma flat_map_one {A B} (f : A -> list B) a0 l : NoDup l -> In a0 l -> (forall a, In a l -> a <> a0 -> f a = []) -> flat_map f l = f a0.
Proof.
  induction l as [|a l IH]; intros N H G; [destruct H|]. inv N. cbn. destruct H as [->|H].
  - assert (E : flat_map f l = []); [|rewrite E; apply app_nil_r]. clear -G H2. assert (G' : forall a, In a l -> f a = []).
    { intros a Ha. apply G; [now right|]. intros ->. auto. } clear G H2. induction l; cbn; auto. rewrite (G' a) by now left. apply IHl. intros; apply G'; now right.
  - rewrite (G a); [|now left|intros ->; auto]. cbn. apply IH; auto. intros b Hb; apply G; now right.
Qed.
Lemma block_length_from al : forall s d j, (forall n, In n s -> 0 <= n) -> valid (kept_from d al s) j ->
  Z.of_nat (length (filter (fun i => ieqb (kept_from d al i) j) (tindices s))) = inner_from d al s.
Proof.
  induction s as [|n s IH]; intros d j Hs V; cbn [tindices inner_from].
  - cbn [kept_from] in V. inversion V. subst. cbn. reflexivity.
  - assert (Hn : 0 <= n) by (apply Hs; now left). assert (Hs' : forall m, In m s -> 0 <= m) by (intros; apply Hs; now right).
    rewrite filter_flat_map. rewrite kept_from_cons in V. destruct (existsb (Nat.eqb d) al) eqn:E.
    + rewrite length_flat_map_const with (c := length (filter (fun i => ieqb (kept_from (S d) al i) j) (tindices s))).
      * rewrite Nat2Z.inj_mul, IH by auto. f_equal. unfold zrange. rewrite zseq_length. lia.
      * intros k _. rewrite filter_map, map_length. f_equal. apply filter_ext. intros i. rewrite kept_from_cons, E. reflexivity.
    + inversion V as [|? k0 ? j' Hk V']; subst. rewrite (flat_map_one _ k0).
      * rewrite filter_map, map_length. rewrite Z.mul_1_l, <- (IH (S d) j'); auto. f_equal. f_equal. apply filter_ext. intros i. rewrite kept_from_cons, E.
        apply eq_true_iff_eq. rewrite !ieqb_true. split; intros H; [now inv H|now f_equal].
      * apply NoDup_zrange.
      * now apply In_zrange.
      * intros k _ Hk0. rewrite filter_map. replace (filter _ _) with (@nil (list Z)); auto. symmetry. 
        assert (Q : forall l, filter (fun a => ieqb (kept_from d al (k :: a)) (k0 :: j')) l = []); auto.
        induction l as [|i l IHl]; cbn [filter]; auto. rewrite kept_from_cons, E. destruct (ieqb (k :: kept_from (S d) al i) (k0 :: j')) eqn:Q; auto.
        apply ieqb_true in Q. inv Q. contradiction.
Qed.
Lemma zprod_perm l l' : Permutation l l' -> zprod l = zprod l'.
Proof. induction 1; cbn [zprod fold_right] in *; unfold zprod in *; cbn [fold_right]; try lia. Qed.
Lemma inner_from_seq al : forall s d, inner_from d al s = zprod (map (fun k => nth (k - d) s 0) (filter (fun k => existsb (Nat.eqb k) al) (seq d (length s)))).
Proof.
  induction s as [|n s IH]; intros d; cbn [inner_from length seq filter map]; auto. rewrite IH.
  assert (E : forall P, map (fun q => nth (q - d) (n :: s) 0) (filter P (seq (S d) (length s))) = map (fun q => nth (q - S d) s 0) (filter P (seq (S d) (length s)))).
  { intros P. apply map_ext_in. intros q Hq. apply filter_In in Hq. destruct Hq as [Hq _]. apply in_seq in Hq. replace (q - d)%nat with (S (q - S d)) by lia. reflexivity. }
  destruct (existsb (Nat.eqb d) al); cbn [negb map]; rewrite E; auto.
  - rewrite Nat.sub_diag. reflexivity.
  - apply Z.mul_1_l.
Qed.
Lemma existsb_nat k al : existsb (Nat.eqb k) al = true <-> In k al.
Proof. rewrite existsb_exists. split; [intros [a [H E]]; apply Nat.eqb_eq in E; now subst|intros H; exists k; split; auto; apply Nat.eqb_refl]. Qed.
Lemma inner_zprod al s : NoDup al -> (forall a, In a al -> (a < length s)%nat) -> inner_from 0 al s = zprod (map (fun a => nth a s 0) al).
Proof.
  intros N H. rewrite inner_from_seq. rewrite (map_ext (fun k => nth (k - 0) s 0) (fun k => nth k s 0)) by (intros; now rewrite Nat.sub_0_r).
  apply zprod_perm, Permutation_map, NoDup_Permutation; auto; [apply NoDup_filter, seq_NoDup|]. intros a. rewrite filter_In, in_seq, existsb_nat.
  split; [tauto|]. intros Ha. specialize (H a Ha). split; auto. lia.
Qed.
(** The number of summands. *)
Lemma block_length s al j L : NoDup al -> (forall a, In a al -> (a < length s)%nat) -> (forall n, In n s -> 0 <= n) ->
  valid (outside al s) j -> block_of s al j L -> Z.of_nat (length L) = zprod (map (fun a => nth a s 0) al).
Proof.
  intros N H Hs V B. rewrite <- (Permutation_length (block_perm _ _ _ _ B)). rewrite <- kept_outside in V.
  unfold block, kept. rewrite block_length_from; auto. now apply inner_zprod.
Qed.

Lemma outside_valid al s i : valid s i -> valid (outside al s) (outside al i).
Proof.
  intros V. rewrite <- !kept_outside. unfold kept. generalize 0%nat. induction V as [|n k s i H V IH]; intros d; cbn [kept_from]; [constructor|].
  destruct (existsb (Nat.eqb d) al); auto. constructor; [auto|apply IH].
Qed.
Lemma mapM_axis_nat nd al : (forall a, In a al -> (a < nd)%nat) -> mapM (axis_nat nd) (map Z.of_nat al) = Ok al.
Proof.
  induction al as [|a al IH]; intros H; cbn [map mapM]; auto. rewrite axis_nat_ok by (apply H; now left). cbn [bind].
  rewrite IH by (intros; apply H; now right). reflexivity.
Qed.
Lemma zrange_seq n : zrange (Z.of_nat n) = map Z.of_nat (seq 0 n).
Proof. unfold zrange. rewrite zseq_seq, Nat2Z.id. apply map_ext. intros; lia. Qed.
(** torch: no axes means all axes. *)
Definition reduced (nd : nat) (al : list nat) : list nat := match al with [] => seq 0 nd | _ => al end.
Lemma reduced_axes nd al : (forall a, In a al -> (a < nd)%nat) ->
  mapM (axis_nat nd) (match map Z.of_nat al with [] => zrange (Z.of_nat nd) | _ => map Z.of_nat al end) = Ok (reduced nd al).
Proof.
  intros H. destruct al as [|a al]; cbn [map reduced].
  - rewrite zrange_seq. apply mapM_axis_nat. intros a Ha. apply in_seq in Ha. lia.
  - now apply (mapM_axis_nat nd (a :: al)).
Qed.
Lemma reduced_in nd al a : (forall a, In a al -> (a < nd)%nat) -> In a (reduced nd al) -> (a < nd)%nat.
Proof. intros H Ha. destruct al; cbn [reduced] in Ha; [apply in_seq in Ha; lia|auto]. Qed.
Lemma reduced_NoDup nd al : NoDup al -> NoDup (reduced nd al).
Proof. destruct al; cbn [reduced]; auto. intros _. apply seq_NoDup. Qed.
Lemma reduced_some nd al : al <> [] -> reduced nd al = al.
Proof. destruct al; [congruence|reflexivity]. Qed.

Section Red.
Variable F : ofield.
Add Field Fred : (f_field F).
Notation T := (tensor F).

Lemma lsum_perm (l l' : list F) : Permutation l l' -> lsum l = lsum l'.
Proof. induction 1; unfold lsum in *; cbn [fold_right]; try congruence; ring. Qed.
Lemma lsum_ext {A} (f g : A -> F) l : (forall a, In a l -> f a = g a) -> lsum (map f l) = lsum (map g l).
Proof. intros H. f_equal. now apply map_ext_in. Qed.
Lemma lsum_const {A} (f : A -> F) c l : (forall a, In a l -> f a = c) -> lsum (map f l) = fmul (fofZ (Z.of_nat (length l))) c.
Proof.
  induction l as [|a l IH]; intros H; [cbn; ring|]. unfold lsum in *. cbn [map fold_right]. rewrite H by now left. rewrite IH by (intros; apply H; now right).
  cbn [length]. replace (Z.of_nat (S (length l))) with (1 + Z.of_nat (length l)) by lia. rewrite fofZ_add. change (fofZ 1) with (@f1 F). ring.
Qed.
Lemma lsum_nonneg (l : list F) : (forall e, In e l -> fle f0 e) -> fle f0 (lsum l).
Proof.
  induction l as [|a l IH]; intros H; [apply fle_refl|]. change (lsum (a :: l)) with (fadd a (lsum l)).
  replace (@f0 F) with (fadd (@f0 F) f0) by ring. apply fle_add; [apply H; now left|apply IH; intros; apply H; now right].
Qed.
Lemma lsum_zero_iff (l : list F) : (forall e, In e l -> fle f0 e) -> (lsum l = f0 <-> forall e, In e l -> e = f0).
Proof.
  induction l as [|a l IH]; intros H; [split; auto; intros _ e []|]. change (lsum (a :: l)) with (fadd a (lsum l)).
  assert (Ha : fle f0 a) by (apply H; now left). assert (Hl : forall e, In e l -> fle f0 e) by (intros; apply H; now right).
  pose proof (lsum_nonneg l Hl) as Hs. split.
  - intros E. assert (a = f0). { apply fle_antisym; auto. rewrite <- E. replace a with (fadd a f0) at 1 by ring. apply fle_add; auto. apply fle_refl. }
    assert (lsum l = f0). { rewrite H0 in E. rewrite <- E. ring. } intros e [<-|He]; auto. now apply IH.
  - intros G. rewrite (G a) by now left. rewrite (proj2 (IH Hl)); [ring|]. intros; apply G; now right.
Qed.

(** sum over distinct axes in range. *)
Theorem tsum_ok (x : T) al kd : (forall a, In a al -> (a < ndim x)%nat) -> NoDup al ->
  exists y, tsum x (map Z.of_nat al) kd = Ok y /\
    shp y = (if kd then ones_at (reduced (ndim x) al) (shp x) else outside (reduced (ndim x) al) (shp x)) /\
    forall j L, block_of (shp x) (reduced (ndim x) al) (if kd then outside (reduced (ndim x) al) j else j) L -> at_ y j = lsum (map (at_ x) L).
Proof.
  intros H N. unfold tsum. rewrite reduced_axes by auto. cbn [bind]. rewrite nodup_fixed_point by (now apply reduced_NoDup). rewrite Nat.eqb_refl. cbn [negb].
  eexists. split; [reflexivity|]. cbn [shp at_]. rewrite kept_outside. split; [reflexivity|]. intros j L B. apply lsum_perm, Permutation_map, block_perm.
  destruct kd; auto. now rewrite kept_outside.
Qed.
Lemma ones_at_nth al : forall s d, (forall a, In a al -> (a < length s)%nat) -> nth d (ones_at al s) 0 = if existsb (Nat.eqb d) al then 1 else nth d s 0.
Proof.
  induction al as [|a al IH]; intros s d H; cbn [ones_at fold_right existsb]; auto. change (fold_right _ s al) with (ones_at al s).
  assert (L : length (ones_at al s) = length s). { clear. induction al; cbn; auto. now rewrite upd_length. }
  destruct (Nat.eqb_spec d a) as [->|Ha]; cbn [orb].
  - apply nth_upd_eq. rewrite L. apply H. now left.
  - rewrite nth_upd_ne by auto. apply IH. intros; apply H; now right.
Qed.
Lemma ones_at_length al s : length (ones_at al s) = length s.
Proof. induction al; cbn; auto. now rewrite upd_length. Qed.
Lemma outside_ones al s : (forall a, In a al -> (a < length s)%nat) -> outside al (ones_at al s) = outside al s.
Proof.
  intros H. unfold outside. rewrite ones_at_length. apply map_ext_in. intros d Hd. apply filter_In in Hd. destruct Hd as [_ Hd].
  rewrite ones_at_nth by auto. destruct (existsb (Nat.eqb d) al); auto. discriminate.
Qed.
Definition red_count (x : T) (al : list nat) : Z := zprod (map (fun a => nth a (shp x) 0) al).

(** mean over distinct axes of positive size. *)
Theorem tmean_ok (x : T) al kd : (forall a, In a al -> (a < ndim x)%nat) -> NoDup al ->
  (forall a, In a (reduced (ndim x) al) -> 0 < nth a (shp x) 0) ->
  exists y, tmean x (map Z.of_nat al) kd = Ok y /\
    shp y = (if kd then ones_at (reduced (ndim x) al) (shp x) else outside (reduced (ndim x) al) (shp x)) /\
    forall j L, block_of (shp x) (reduced (ndim x) al) (if kd then outside (reduced (ndim x) al) j else j) L ->
      at_ y j = fdiv (lsum (map (at_ x) L)) (fofZ (red_count x (reduced (ndim x) al))).
Proof.
  intros H N Hp. unfold tmean. rewrite reduced_axes by auto. cbn [bind]. destruct (tsum_ok x al kd H N) as [y [Y1 [Y2 Y3]]]. rewrite Y1. cbn [bind].
  set (n := zprod _). assert (Hn : 0 < n).
  { unfold n. clear -Hp. induction (reduced (ndim x) al) as [|a l IH]; cbn; [lia|]. unfold zprod in IH. specialize (IH ltac:(intros; apply Hp; now right)). specialize (Hp a (or_introl eq_refl)). nia. }
  replace (n =? 0) with false by (symmetry; apply Z.eqb_neq; lia). cbn [andb]. eexists. split; [reflexivity|]. cbn [shp at_ tmap]. split; [exact Y2|].
  intros j L B. rewrite (Y3 j L B). reflexivity.
Qed.
Lemma mean_const {A} (f : A -> F) c (L : list A) n : Z.of_nat (length L) = n -> 0 < n -> (forall a, In a L -> f a = c) -> fdiv (lsum (map f L)) (fofZ n) = c.
Proof. intros E Hn H. rewrite (lsum_const f c L H), E. field. apply fofZ_neq0. lia. Qed.
Lemma count_pos (x : T) al : (forall a, In a al -> 0 < nth a (shp x) 0) -> 0 < red_count x al.
Proof.
  unfold red_count. induction al as [|a l IH]; intros Hp; cbn; [lia|]. unfold zprod in IH. specialize (IH ltac:(intros; apply Hp; now right)). specialize (Hp a (or_introl eq_refl)). nia.
Qed.
End Red.
