(** In-place copies of the padding functions: source and destination never overlap, so neither the order of the element
    copies nor a check for overlap changes the outcome. *)
From Verif Require Export AliasModel MiscProofs PadderMore.

Definition rsim {A B} (R : A -> B -> Prop) (r : res A) (s : res B) : Prop :=
  match r, s with Ok a, Ok b => R a b | Err e, Err e' => e = e' | _, _ => False end.
Lemma rsim_bind {A B C D} (R : A -> B -> Prop) (Q : C -> D -> Prop) r s f g : rsim R r s -> (forall a b, R a b -> rsim Q (f a) (g b)) ->
  rsim Q (x <- r ;; f x) (x <- s ;; g x).
Proof. destruct r, s; cbn; intros H K; try contradiction; auto. Qed.
Lemma rsim_impl {A B} (R Q : A -> B -> Prop) r s : (forall a b, R a b -> Q a b) -> rsim R r s -> rsim Q r s.
Proof. destruct r, s; cbn; auto. Qed.
Lemma rsim_same {A} (R : A -> A -> Prop) r : (forall a, R a a) -> rsim R r r.
Proof. destruct r; cbn; auto. Qed.

Definition unit_steps (sl : list slice) : Prop := Forall (fun s => s_st s = 1) sl.
Definition nonneg (sh : list Z) : Prop := Forall (fun n => 0 <= n) sh.

Lemma resolve_range n s : 0 <= n -> s_st s = 1 -> 0 <= r_lo (resolve n s) /\ 0 <= r_len (resolve n s) /\ r_lo (resolve n s) + r_len (resolve n s) <= n /\ r_st (resolve n s) = 1 /\ r_lo (resolve n s) <= n.
Proof.
  intros Hn Hs. unfold resolve. rewrite Hs. cbn [r_lo r_len r_st]. rewrite Z.div_1_r. unfold clampi. destruct (s_lo s), (s_hi s); repeat zcase; lia.
Qed.
Lemma pos_valid : forall sh sl i, nonneg sh -> unit_steps sl -> length sl = length sh -> valid (map r_len (map2 resolve sh sl)) i ->
  valid sh (map2 rpos (map2 resolve sh sl) i).
Proof.
  induction sh as [|n sh IH]; intros [|s sl] i Hn Hs L V; try discriminate; [inversion V; constructor|]. injection L as L.
  inversion Hn as [|? ? Hn1 Hn2]; subst. inversion Hs as [|? ? Hs1 Hs2]; subst. cbn [map2 map] in V. destruct i as [|k i]; [inversion V|]. apply valid_cons in V as [V1 V2]. cbn [map2].
  apply valid_cons. split; [|now apply IH]. pose proof (resolve_range n s Hn1 Hs1) as (A & B & C & D & E). unfold rpos. rewrite D. lia.
Qed.
Lemma rel_valid : forall sh sl j, nonneg sh -> unit_steps sl -> length sl = length sh -> all2 rinb (map2 resolve sh sl) j = true ->
  valid (map r_len (map2 resolve sh sl)) (map2 rrel (map2 resolve sh sl) j) /\ map2 rpos (map2 resolve sh sl) (map2 rrel (map2 resolve sh sl) j) = j.
Proof.
  induction sh as [|n sh IH]; intros [|s sl] [|k j] Hn Hs L V; try discriminate; [split; [constructor|reflexivity]|]. injection L as L.
  inversion Hn as [|? ? Hn1 Hn2]; subst. inversion Hs as [|? ? Hs1 Hs2]; subst. cbn [map2 map all2] in *. apply andb_true_iff in V as [V1 V2].
  destruct (IH sl j Hn2 Hs2 L V2) as [I1 I2]. pose proof (resolve_range n s Hn1 Hs1) as (A & B & C & D & E).
  unfold rinb in V1. unfold rpos, rrel. rewrite D in *. rewrite Z.div_1_r. bdestr. split.
  - apply valid_cons. split; [lia|exact I1].
  - f_equal; [lia|exact I2].
Qed.
Lemma pos_in : forall sh sl i, nonneg sh -> unit_steps sl -> length sl = length sh -> valid (map r_len (map2 resolve sh sl)) i ->
  all2 rinb (map2 resolve sh sl) (map2 rpos (map2 resolve sh sl) i) = true /\ map2 rrel (map2 resolve sh sl) (map2 rpos (map2 resolve sh sl) i) = i.
Proof.
  induction sh as [|n sh IH]; intros [|s sl] i Hn Hs L V; try discriminate; [inversion V; auto|]. injection L as L.
  inversion Hn as [|? ? Hn1 Hn2]; subst. inversion Hs as [|? ? Hs1 Hs2]; subst. cbn [map2 map] in V. destruct i as [|k i']; [inversion V|]. apply valid_cons in V as [V1 V2]. cbn [map2 all2].
  destruct (IH sl i' Hn2 Hs2 L V2) as [I1 I2]. pose proof (resolve_range n s Hn1 Hs1) as (A & B & C & D & E). rewrite I1, I2. unfold rinb, rpos, rrel. rewrite D, Z.mod_1_r, Z.div_1_r.
  destruct (Z.leb_spec (r_lo (resolve n s)) (r_lo (resolve n s) + k * 1)); [|lia]. destruct (Z.ltb_spec (r_lo (resolve n s) + k * 1) (r_lo (resolve n s) + r_len (resolve n s) * 1)); [|lia].
  split; [reflexivity|]. f_equal. lia.
Qed.
Lemma expand_valid vs ts i : expandable vs ts = true -> valid ts i -> valid vs (bidx vs i).
Proof.
  intros E V. rewrite expandable_rev in E. pose proof (erev_length _ _ E) as L. rewrite !rev_length in L. pose proof (valid_length _ _ V) as L2.
  rewrite bidx_rev by lia. rewrite <- (rev_involutive vs) at 1. apply valid_rev. eapply erev_valid; eauto. now apply valid_rev.
Qed.

Lemma upd_over {A} (v : A) : forall l n, (length l <= n)%nat -> upd n v l = l.
Proof. induction l as [|a l IH]; intros [|n] H; cbn in *; auto; try lia. rewrite IH by lia. reflexivity. Qed.

(** ** The tensor operations on equal tensors *)
Section S.
Variable F : ofield.
Notation T := (tensor F).
Definition eqs (sh : list Z) (x y : T) : Prop := teq x y /\ shp x = sh.
Lemma eqs_shp sh x y : eqs sh x y -> shp x = sh /\ shp y = sh.
Proof. intros [[E _] S]. split; [auto|congruence]. Qed.
Lemma tget_sim (x x' : T) sl : teq x x' -> nonneg (shp x) -> unit_steps sl -> rsim teq (tget x sl) (tget x' sl).
Proof.
  intros [E1 E2] Hn Hs. unfold tget. rewrite <- E1. destruct (Nat.eqb_spec (length sl) (length (shp x))) as [L|L]; cbn; auto.
  split; [reflexivity|]. cbn [shp at_]. intros i V. apply E2. now apply pos_valid.
Qed.
Lemma tset_sim sh (x x' : T) sl v v' : eqs sh x x' -> nonneg sh -> unit_steps sl -> teq v v' -> rsim (eqs sh) (tset x sl v) (tset x' sl v').
Proof.
  intros [[E1 E2] S] Hn Hs [V1 V2]. unfold tset. rewrite <- E1, <- V1. destruct (Nat.eqb_spec (length sl) (length (shp x))) as [L|L]; cbn [rsim]; auto.
  destruct (expandable _ _) eqn:Ee; cbn [rsim]; auto. split; [|exact S]. split; [reflexivity|]. cbn [shp at_]. intros j Vj.
  destruct (all2 rinb _ j) eqn:Er; auto. apply V2. eapply expand_valid; [exact Ee|]. apply rel_valid; auto. now rewrite S.
Qed.
Lemma tmap_sim (f : F -> F) (x x' : T) : teq x x' -> teq (tmap f x) (tmap f x').
Proof. intros [E1 E2]. split; [exact E1|]. cbn. intros i V. now rewrite E2. Qed.
Lemma tmap2_sim (f : F -> F -> F) (x x' y y' : T) : teq x x' -> teq y y' -> rsim teq (tmap2 f x y) (tmap2 f x' y').
Proof.
  intros [E1 E2] [G1 G2]. unfold tmap2. rewrite <- E1, <- G1. destruct (bshape _ _) as [s|] eqn:Eb; cbn; auto.
  split; [reflexivity|]. cbn [shp at_]. intros i V. destruct (bidx_valid _ _ _ _ Eb V) as [A B]. now rewrite E2, G2.
Qed.
Lemma tflip_sim d (x x' : T) : teq x x' -> teq (tflip d x) (tflip d x').
Proof.
  intros [E1 E2]. split; [exact E1|]. cbn [tflip shp at_]. intros i V. rewrite <- E1. apply E2.
  destruct (Nat.lt_ge_cases d (length (shp x))) as [H|H].
  - apply valid_upd_in; auto. pose proof (valid_nth _ _ d V H). lia.
  - rewrite upd_over; auto. rewrite (valid_length _ _ V). auto.
Qed.
Lemma neg_if_sim b (x x' : T) : teq x x' -> teq (neg_if b x) (neg_if b x').
Proof. destruct b; auto. apply tmap_sim. Qed.
Lemma two_sim (a a' b b' : T) : teq a a' -> teq b b' -> rsim teq (two_a_minus_b a b) (two_a_minus_b a' b').
Proof. intros. apply tmap2_sim; auto. now apply tmap_sim. Qed.
Lemma tstat_sim m (x x' : T) d : teq x x' -> rsim teq (tstat m x d) (tstat m x' d).
Proof.
  intros [E1 E2]. unfold tstat, dimlen. rewrite <- E1. destruct (Z.leb_spec (nth d (shp x) 0) 0) as [H|H]; cbn [rsim]; auto.
  split; [reflexivity|]. cbn [shp at_]. intros i V. f_equal. apply map_ext_in. intros k Hk. apply In_zrange in Hk. apply E2.
  assert (Hd : (d < length (shp x))%nat) by (destruct (Nat.lt_ge_cases d (length (shp x))); auto; rewrite nth_overflow in H by auto; lia).
  assert (E : shp x = upd d (nth d (shp x) 0) (upd d 1 (shp x))) by (rewrite upd_upd; symmetry; apply upd_nth).
  rewrite E. apply valid_iff. apply valid_iff in V as [L V]. rewrite !upd_length in *. split; [auto|]. intros e He. destruct (Nat.eq_dec d e) as [->|Ne].
  - rewrite !nth_upd_eq by (rewrite ?upd_length; lia). lia.
  - rewrite !nth_upd_ne by auto. specialize (V e He). rewrite nth_upd_ne in V by auto. exact V.
Qed.
Lemma drop_ones_split : forall k s, exists n, s = repeat 1 n ++ drop_ones k s.
Proof.
  induction k as [|k IH]; intros s; [exists O; reflexivity|]. destruct s as [|a s]; [exists O; reflexivity|]. cbn [drop_ones].
  destruct (Z.eq_dec a 1) as [->|N]; [destruct (IH s) as [n En]; exists (S n); cbn [repeat app]; congruence|].
  exists O. cbn [repeat app]. destruct a as [|[q|q|]|]; try reflexivity. now destruct N.
Qed.
Lemma unit_prefix_sim b n (x x' : T) : teq x x' -> teq (unit_prefix b n x) (unit_prefix b n x').
Proof.
  intros [E1 E2]. destruct b; cbn [unit_prefix]; [|split; auto]. unfold ndim. rewrite <- E1. split; [reflexivity|]. cbn [shp at_]. intros i V. apply E2.
  destruct (drop_ones_split (length (shp x) - n) (shp x)) as [k Ek]. set (s := drop_ones (length (shp x) - n) (shp x)) in *.
  assert (Lk : length (shp x) = (k + length s)%nat) by (rewrite Ek, app_length, repeat_length; reflexivity). rewrite Lk. replace (k + length s - length s)%nat with k by lia. rewrite Ek.
  apply Forall2_app; auto. clear. induction k; cbn; constructor; auto. lia.
Qed.
End S.

(** ** Copies between regions without a common element *)
Definition apart (sh : list Z) (dst src : list slice) : Prop := exists d, (d < length sh)%nat /\
  let D := resolve (nth d sh 0) (nth d dst sfull) in
  let S := resolve (nth d sh 0) (nth d src sfull) in
  r_lo D + r_len D <= r_lo S \/ r_lo S + r_len S <= r_lo D \/ r_len D <= 0 \/ r_len S <= 0.
(** A way of copying that is right whenever the regions have no common element. *)
Definition faithful {F : ofield} (cp : tensor F -> list slice -> list slice -> res (tensor F)) : Prop :=
  forall x dst src, nonneg (shp x) -> unit_steps dst -> unit_steps src -> length dst = length (shp x) -> length src = length (shp x) ->
  apart (shp x) dst src -> rsim teq (cp x dst src) (plain_copy x dst src).

Section C.
Variable F : ofield.
Notation T := (tensor F).
Lemma plain_faithful : faithful (@plain_copy F).
Proof. intros x dst src _ _ _ _ _ _. apply rsim_same. apply teq_refl. Qed.

Lemma meets_apart : forall sh dst src, nonneg sh -> unit_steps dst -> unit_steps src -> length dst = length sh -> length src = length sh -> apart sh dst src ->
  all2 meets (map2 resolve sh dst) (map2 resolve sh src) = false.
Proof.
  induction sh as [|n sh IH]; intros [|s dst] [|u src] Hn Hd Hs L1 L2 (d & Ld & H); try discriminate; [cbn in Ld; lia|].
  injection L1 as L1. injection L2 as L2. inversion Hn; inversion Hd; inversion Hs; subst. cbn [map2 all2]. destruct d as [|d].
  - cbn [nth] in H. cbv zeta in H. assert (E : meets (resolve n s) (resolve n u) = false); [|now rewrite E]. unfold meets.
    destruct (Z.ltb_spec 0 (r_len (resolve n s))); [|reflexivity]. destruct (Z.ltb_spec 0 (r_len (resolve n u))); [|reflexivity].
    destruct (Z.ltb_spec (r_lo (resolve n s)) (r_lo (resolve n u) + r_len (resolve n u))); [|reflexivity].
    destruct (Z.ltb_spec (r_lo (resolve n u)) (r_lo (resolve n s) + r_len (resolve n s))); [|reflexivity]. lia.
  - rewrite (IH dst src); auto; [apply andb_false_r|]. exists d. cbn [length] in Ld. split; [lia|exact H].
Qed.
Theorem checked_faithful : faithful (@checked_copy F).
Proof. intros x dst src Hn Hd Hs L1 L2 A. unfold checked_copy. rewrite meets_apart by auto. apply rsim_same. apply teq_refl. Qed.

Lemma pos_apart : forall sh dst src i k, nonneg sh -> unit_steps dst -> unit_steps src -> length dst = length sh -> length src = length sh -> apart sh dst src ->
  valid (map r_len (map2 resolve sh dst)) i -> valid (map r_len (map2 resolve sh src)) k ->
  map2 rpos (map2 resolve sh dst) i <> map2 rpos (map2 resolve sh src) k.
Proof.
  induction sh as [|n sh IH]; intros [|s dst] [|u src] i k Hn Hd Hs L1 L2 (d & Ld & H) V W; try discriminate; [cbn in Ld; lia|].
  injection L1 as L1. injection L2 as L2. inversion Hn; inversion Hd; inversion Hs; subst. cbn [map2 map] in *.
  destruct i as [|a i]; [inversion V|]. destruct k as [|b k]; [inversion W|]. apply valid_cons in V as [V1 V2]. apply valid_cons in W as [W1 W2].
  cbn [map2]. intros E. apply (f_equal (fun l => (hd 0 l, tl l))) in E. cbn [hd tl] in E. assert (E1 : rpos (resolve n s) a = rpos (resolve n u) b) by congruence.
  assert (E2 : map2 rpos (map2 resolve sh dst) i = map2 rpos (map2 resolve sh src) k) by congruence. clear E. destruct d as [|d].
  - cbn [nth] in H. cbv zeta in H. pose proof (resolve_range n s ltac:(auto) ltac:(auto)) as (_ & _ & _ & D1 & _). pose proof (resolve_range n u ltac:(auto) ltac:(auto)) as (_ & _ & _ & D2 & _).
    unfold rpos in E1. rewrite D1, D2 in E1. lia.
  - revert E2. apply IH; auto. exists d. cbn [length] in Ld. split; [lia|exact H].
Qed.

Lemma fold_copies D S (x : T) : 
  (forall i i', valid (map r_len D) i -> valid (map r_len D) i' -> map2 rpos D i = map2 rpos D i' -> i = i') ->
  (forall i i', valid (map r_len D) i -> valid (map r_len D) i' -> map2 rpos D i <> map2 rpos S (bidx (map r_len S) i')) ->
  forall l m, (forall i, In i l -> valid (map r_len D) i) ->
  (forall i, valid (map r_len D) i -> at_ m (map2 rpos S (bidx (map r_len S) i)) = at_ x (map2 rpos S (bidx (map r_len S) i))) ->
  shp (fold_left (copy_one D S) l m) = shp m /\
  (forall i, In i l -> at_ (fold_left (copy_one D S) l m) (map2 rpos D i) = at_ x (map2 rpos S (bidx (map r_len S) i))) /\
  (forall j, (forall i, In i l -> j <> map2 rpos D i) -> at_ (fold_left (copy_one D S) l m) j = at_ m j).
Proof.
  intros Inj Ap. induction l as [|i l IH]; intros m Hl Hm; [split; [reflexivity|split; [intros i []|reflexivity]]|]. cbn [fold_left].
  assert (Vi : valid (map r_len D) i) by (apply Hl; now left).
  assert (O : forall j, j <> map2 rpos D i -> at_ (copy_one D S m i) j = at_ m j).
  { intros j Hj. unfold copy_one. cbn [at_]. destruct (list_eqb j (map2 rpos D i)) eqn:E; auto. apply list_eqb_eq in E. contradiction. }
  destruct (IH (copy_one D S m i)) as [I1 [I2 I3]].
  - intros k Hk. apply Hl. now right.
  - intros k Vk. rewrite O; [now apply Hm|]. intros E. symmetry in E. revert E. now apply Ap.
  - split; [exact I1|]. split.
    + intros k [<-|Hk]; [|now apply I2]. destruct (in_dec (list_eq_dec Z.eq_dec) i l) as [H|H]; [now apply I2|].
      rewrite I3.
      * unfold copy_one. cbn [at_]. rewrite (proj2 (list_eqb_eq _ _) eq_refl). now apply Hm.
      * intros k Hk E. apply H. replace i with k; auto. symmetry. apply Inj; auto. apply Hl. now right.
    + intros j Hj. rewrite I3 by (intros k Hk; apply Hj; now right). apply O. apply Hj. now left.
Qed.
Theorem in_order_faithful ord : (forall l i, In i (ord l) <-> In i l) -> faithful (@copy_in_order F ord).
Proof.
  intros Ho x dst src Hn Hd Hs L1 L2 A. unfold copy_in_order, plain_copy, tget, tset. rewrite L1, L2, Nat.eqb_refl. cbn [andb bind shp at_].
  set (D := map2 resolve (shp x) dst). set (S := map2 resolve (shp x) src). destruct (expandable (map r_len S) (map r_len D)) eqn:Ee; cbn [rsim]; auto.
  destruct (fold_copies D S x) with (l := ord (tindices (map r_len D))) (m := x) as [I1 [I2 I3]].
  - intros i i' V V' E. rewrite <- (proj2 (pos_in (shp x) dst i Hn Hd L1 V)), <- (proj2 (pos_in (shp x) dst i' Hn Hd L1 V')). fold D. now rewrite E.
  - intros i i' V V'. apply pos_apart; auto. fold S. eapply expand_valid; eauto.
  - intros i Hi. apply In_tindices. now apply Ho.
  - auto.
  - split; [exact I1|]. cbn [shp at_]. rewrite I1. intros j V. destruct (all2 rinb D j) eqn:Er.
    + destruct (rel_valid (shp x) dst j Hn Hd L1 Er) as [R1 R2]. fold D in R1, R2. rewrite <- R2 at 1. apply I2. apply Ho. now apply In_tindices.
    + apply I3. intros i Hi E. apply Ho, In_tindices in Hi. destruct (pos_in (shp x) dst i Hn Hd L1 Hi) as [P _]. fold D in P. congruence.
Qed.
End C.

(** ** The padding functions *)
Definition off (n : Z) (s u : slice) : Prop :=
  r_lo (resolve n s) + r_len (resolve n s) <= r_lo (resolve n u) \/ r_lo (resolve n u) + r_len (resolve n u) <= r_lo (resolve n s) \/
  r_len (resolve n s) <= 0 \/ r_len (resolve n u) <= 0.
Ltac offs := unfold off, resolve, srng, sto, sfrom, clampi; cbn [s_lo s_hi s_st r_lo r_len]; rewrite ?Z.div_1_r; repeat zcase; lia.
Lemma off_rng n a b c e : 0 <= n -> 0 <= a -> 0 <= b -> 0 <= c -> 0 <= e -> b <= c \/ e <= a -> off n (srng a b) (srng c e).
Proof. intros. offs. Qed.
Lemma off_to n h e : 0 <= n -> 0 <= h -> 0 <= e -> off n (sto h) (srng h e).
Proof. intros. offs. Qed.
Lemma off_from n t : 0 <= n -> 0 <= t -> off n (sfrom t) (srng (t - 1) t).
Proof. intros. offs. Qed.
Lemma off_none n a c e : 0 <= n -> off n (srng a a) (srng c e).
Proof. intros. offs. Qed.

Section P.
Variable F : ofield.
Notation T := (tensor F).
Variable cp : T -> list slice -> list slice -> res T.
Hypothesis Hcp : faithful cp.
Variable sh : list Z.
Hypothesis Hsh : nonneg sh.

Lemma eqs_refl (x : T) : shp x = sh -> eqs F sh x x.
Proof. intros H. split; [apply teq_refl|exact H]. Qed.
Lemma dim_nonneg d : 0 <= nth d sh 0.
Proof. destruct (Nat.lt_ge_cases d (length sh)) as [H|H]; [|rewrite nth_overflow by auto; lia]. unfold nonneg in Hsh. rewrite Forall_forall in Hsh. apply Hsh. now apply nth_In. Qed.
Lemma rsim_eqs_trans (a b c : res T) : rsim teq a b -> rsim (eqs F sh) b c -> (forall x, b = Ok x -> shp x = sh) -> rsim (eqs F sh) a c.
Proof.
  destruct a as [a|], b as [b|], c as [c|]; cbn; intros H1 H2 H3; try contradiction; try congruence. destruct H2 as [H2 E]. split; [eapply teq_trans; eauto|]. destruct H1 as [E1 _]. congruence.
Qed.
Definition wf (idx : list slice) (dim : nat) : Prop :=
  length idx = length sh /\ unit_steps idx /\ forall h t, head_tail idx dim = Ok (h, t) -> 0 <= h <= t.
Lemma unit_upd s idx dim : unit_steps idx -> s_st s = 1 -> unit_steps (modify_idx s idx dim).
Proof.
  intros H Hs. unfold modify_idx. revert dim. induction H as [|u l Hu Hl IH]; intros [|dim]; cbn [upd]; constructor; auto. apply IH.
Qed.
Lemma ht_lt idx dim h t : head_tail idx dim = Ok (h, t) -> (dim < length idx)%nat.
Proof. unfold head_tail. intros H. apply nth_error_Some. destruct (nth_error idx dim); [discriminate|intros _; discriminate]. Qed.

Lemma cp_sim x x' idx dim s u : eqs F sh x x' -> length idx = length sh -> unit_steps idx -> (dim < length sh)%nat -> s_st s = 1 -> s_st u = 1 -> off (nth dim sh 0) s u ->
  rsim (eqs F sh) (cp x (modify_idx s idx dim) (modify_idx u idx dim)) (v <- tget x' (modify_idx u idx dim) ;; tset x' (modify_idx s idx dim) v).
Proof.
  intros E L U Ld Hs Hu Ho. destruct (eqs_shp _ _ _ _ E) as [S1 S2]. apply rsim_eqs_trans with (b := plain_copy x (modify_idx s idx dim) (modify_idx u idx dim)).
  - apply Hcp; rewrite ?S1; auto using unit_upd; unfold modify_idx; rewrite ?upd_length; auto. exists dim. split; [exact Ld|].
    rewrite !nth_upd_eq by lia. exact Ho.
  - unfold plain_copy. apply rsim_bind with (R := teq).
    + apply tget_sim; auto using unit_upd; [now destruct E|now rewrite S1].
    + intros v v' Ev. apply tset_sim; auto using unit_upd.
  - unfold plain_copy. intros r. destruct (tget x (modify_idx u idx dim)) as [v|]; cbn [bind]; [|discriminate]. unfold tset.
    destruct (Nat.eqb _ _); [|discriminate]. destruct (expandable _ _); [|discriminate]. intros H. injection H as <-. exact S1.
Qed.
Lemma dimlen_sim (x x' : T) d : eqs F sh x x' -> dimlen x d = nth d sh 0 /\ dimlen x' d = nth d sh 0.
Proof. intros E. destruct (eqs_shp _ _ _ _ E) as [S1 S2]. unfold dimlen. now rewrite S1, S2. Qed.

Lemma replicate_sim x x' idx dim : eqs F sh x x' -> wf idx dim -> rsim (eqs F sh) (replicate_cp cp x idx dim) (replicate_1d x' idx dim).
Proof.
  intros E (L & U & H). unfold replicate_cp, replicate_1d. destruct (head_tail idx dim) as [[h t]|e] eqn:Eh; cbn [bind]; [|reflexivity].
  specialize (H h t eq_refl). pose proof (ht_lt _ _ _ _ Eh) as Ld. rewrite L in Ld. pose proof (dim_nonneg dim) as Hn.
  apply rsim_bind with (R := eqs F sh).
  - destruct (Z.ltb_spec 0 h); [|exact E]. apply cp_sim; auto. apply off_to; lia.
  - intros y y' Ey. destruct (dimlen_sim _ _ dim Ey) as [-> ->]. destruct (Z.ltb_spec t (nth dim sh 0)); [|exact Ey]. apply cp_sim; auto. apply off_from; lia.
Qed.
Lemma bind_twice {A B C} (r : res A) (f : A -> res B) (g : B -> res C) : (v <- r ;; w <- f v ;; g w) = (w <- (v <- r ;; f v) ;; g w).
Proof. destruct r; reflexivity. Qed.
Lemma circular_before_sim idx dim tail length : List.length idx = List.length sh -> unit_steps idx -> (dim < List.length sh)%nat -> 0 <= length -> 0 <= tail - length ->
  forall fuel x x' curr, eqs F sh x x' -> 0 <= curr <= tail - length ->
  rsim (eqs F sh) (circular_before_cp cp fuel x idx dim tail length curr) (circular_before fuel x' idx dim tail length curr).
Proof.
  intros L U Ld Hl Ht. pose proof (dim_nonneg dim) as Hn. induction fuel as [|fuel IH]; intros x x' curr E Hc; cbn [circular_before_cp circular_before]; (destruct (Z.ltb_spec 0 curr); [|exact E]); [reflexivity|].
  change (rsim (eqs F sh) (x0 <- cp x (modify_idx (srng (curr - Z.min curr length) curr) idx dim) (modify_idx (srng (tail - Z.min curr length) tail) idx dim) ;; circular_before_cp cp fuel x0 idx dim tail length (curr - Z.min curr length))
    (v <- tget x' (modify_idx (srng (tail - Z.min curr length) tail) idx dim) ;; x'0 <- tset x' (modify_idx (srng (curr - Z.min curr length) curr) idx dim) v ;; circular_before fuel x'0 idx dim tail length (curr - Z.min curr length))).
  rewrite bind_twice. apply rsim_bind with (R := eqs F sh); [apply cp_sim; auto; apply off_rng; lia|]. intros y y' Ey. apply IH; auto. lia.
Qed.
Lemma circular_after_sim idx dim head length : List.length idx = List.length sh -> unit_steps idx -> (dim < List.length sh)%nat -> 0 <= length -> 0 <= head ->
  forall fuel x x' curr, eqs F sh x x' -> head + length <= curr ->
  rsim (eqs F sh) (circular_after_cp cp fuel x idx dim head length curr) (circular_after fuel x' idx dim head length curr).
Proof.
  intros L U Ld Hl Ht. pose proof (dim_nonneg dim) as Hn. induction fuel as [|fuel IH]; intros x x' curr E Hc; cbn [circular_after_cp circular_after];
    destruct (dimlen_sim x x' dim E) as [-> ->]; (destruct (Z.ltb_spec curr (nth dim sh 0)); [|exact E]); [reflexivity|]. cbv zeta.
  rewrite bind_twice. apply rsim_bind with (R := eqs F sh); [apply cp_sim; auto; apply off_rng; lia|]. intros y y' Ey. apply IH; auto. lia.
Qed.
Lemma circular_sim fuel x x' idx dim : eqs F sh x x' -> wf idx dim -> rsim (eqs F sh) (circular_cp cp fuel x idx dim) (circular_1d fuel x' idx dim).
Proof.
  intros E W. pose proof W as (L & U & H). unfold circular_cp, circular_1d. destruct (head_tail idx dim) as [[h t]|e] eqn:Eh; cbn [bind]; [|reflexivity].
  specialize (H h t eq_refl). pose proof (ht_lt _ _ _ _ Eh) as Ld. rewrite L in Ld. destruct (t - h =? 1); [now apply replicate_sim|].
  apply rsim_bind with (R := eqs F sh); [apply circular_before_sim; auto; lia|]. intros y y' Ey. apply circular_after_sim; auto; lia.
Qed.
Lemma ht_upd idx dim h t : (dim < List.length idx)%nat -> head_tail (modify_idx (srng h t) idx dim) dim = Ok (h, t).
Proof. intros H. unfold head_tail, modify_idx. rewrite nth_error_nth' with (d := sfull) by (now rewrite upd_length). now rewrite nth_upd_eq. Qed.
Lemma wf_upd idx dim h t : List.length idx = List.length sh -> unit_steps idx -> (dim < List.length sh)%nat -> 0 <= h <= t -> wf (modify_idx (srng h t) idx dim) dim.
Proof.
  intros L U Ld H. split; [unfold modify_idx; now rewrite upd_length|]. split; [now apply unit_upd|]. intros a b. rewrite ht_upd by lia. intros E. injection E as <- <-. exact H.
Qed.
Lemma periodize_sim fuel x x' idx dim : eqs F sh x x' -> wf idx dim -> rsim (eqs F sh) (periodize_cp cp fuel x idx dim) (periodize_1d fuel x' idx dim).
Proof.
  intros E W. pose proof W as (L & U & H). unfold periodize_cp, periodize_1d. destruct (head_tail idx dim) as [[h t]|e] eqn:Eh; cbn [bind]; [|reflexivity].
  specialize (H h t eq_refl). pose proof (ht_lt _ _ _ _ Eh) as Ld. rewrite L in Ld. pose proof (dim_nonneg dim) as Hn. destruct (Z.eqb_spec ((t - h) mod 2) 0) as [Em|Em]; [now apply circular_sim|].
  assert (h < t) by (destruct (Z.eq_dec h t) as [->|]; [rewrite Z.sub_diag in Em; now destruct Em|lia]).
  cbv zeta. rewrite bind_twice. apply rsim_bind with (R := eqs F sh); [apply cp_sim; auto; apply off_rng; lia|]. intros y y' Ey. apply circular_sim; auto. apply wf_upd; auto. lia.
Qed.
Definition csim (c c' : option T) : Prop := match c, c' with Some a, Some b => teq a b /\ nonneg (shp a) | None, None => True | _, _ => False end.
Lemma make_unit s dim nd : s_st s = 1 -> unit_steps (make_idx s dim nd).
Proof.
  intros H. unfold make_idx, unit_steps. apply Forall_app. split; [|constructor; [exact H|]]; apply Forall_forall; intros u Hu; apply repeat_spec in Hu; now subst.
Qed.
Lemma ndim_sim (x x' : T) : eqs F sh x x' -> ndim x = List.length sh /\ ndim x' = List.length sh.
Proof. intros E. destruct (eqs_shp _ _ _ _ E) as [S1 S2]. unfold ndim. now rewrite S1, S2. Qed.
Lemma get_sim (x x' : T) idx dim s : eqs F sh x x' -> unit_steps idx -> s_st s = 1 -> rsim teq (tget x (modify_idx s idx dim)) (tget x' (modify_idx s idx dim)).
Proof. intros E U Hs. destruct (eqs_shp _ _ _ _ E) as [S1 S2]. apply tget_sim; [now destruct E|now rewrite S1|now apply unit_upd]. Qed.
Lemma set_sim (x x' : T) idx dim s v v' : eqs F sh x x' -> unit_steps idx -> s_st s = 1 -> teq v v' -> rsim (eqs F sh) (tset x (modify_idx s idx dim) v) (tset x' (modify_idx s idx dim) v').
Proof. intros E U Hs Hv. apply tset_sim; auto. now apply unit_upd. Qed.
Lemma symmetric_before_sim negate c c' idx dim tail length : csim c c' -> List.length idx = List.length sh -> unit_steps idx -> (dim < List.length sh)%nat -> 0 <= length -> 0 <= tail - length ->
  forall fuel x x' curr flip, eqs F sh x x' -> 0 <= curr <= tail - length ->
  rsim (eqs F sh) (symmetric_before_cp cp fuel negate c x idx dim tail length curr flip) (symmetric_before fuel negate c' x' idx dim tail length curr flip).
Proof.
  intros Hc0 L U Ld Hl Ht. pose proof (dim_nonneg dim) as Hn. induction fuel as [|fuel IH]; intros x x' curr flip E Hc; cbn [symmetric_before_cp symmetric_before];
    (destruct (Z.ltb_spec 0 curr); [|exact E]); [reflexivity|]. cbv zeta. destruct (ndim_sim x x' E) as [-> ->].
  rewrite (bind_twice _ _ (fun w => symmetric_before fuel negate c' w idx dim tail length (curr - Z.min curr length) (negb flip))). apply rsim_bind with (R := eqs F sh); [|intros y y' Ey; apply IH; auto; lia].
  destruct flip; [|apply cp_sim; auto; apply off_rng; lia]. apply rsim_bind with (R := teq); [|intros v v' Ev; now apply set_sim].
  destruct c as [c|], c' as [c'|]; try contradiction.
  - destruct Hc0 as [H1 H2]. apply tget_sim; auto. now apply make_unit.
  - apply rsim_bind with (R := teq); [now apply get_sim|]. intros v v' Ev. now apply neg_if_sim, tflip_sim.
Qed.
Lemma symmetric_after_sim negate c c' idx dim head length : csim c c' -> List.length idx = List.length sh -> unit_steps idx -> (dim < List.length sh)%nat -> 0 <= length -> 0 <= head ->
  forall fuel x x' curr flip, eqs F sh x x' -> head + length <= curr ->
  rsim (eqs F sh) (symmetric_after_cp cp fuel negate c x idx dim head length curr flip) (symmetric_after fuel negate c' x' idx dim head length curr flip).
Proof.
  intros Hc0 L U Ld Hl Ht. pose proof (dim_nonneg dim) as Hn. induction fuel as [|fuel IH]; intros x x' curr flip E Hc; cbn [symmetric_after_cp symmetric_after];
    destruct (dimlen_sim x x' dim E) as [-> ->]; (destruct (Z.ltb_spec curr (nth dim sh 0)); [|exact E]); [reflexivity|]. cbv zeta. destruct (ndim_sim x x' E) as [-> ->].
  rewrite (bind_twice _ _ (fun w => symmetric_after fuel negate c' w idx dim head length (curr + Z.min (nth dim sh 0 - curr) length) (negb flip))). apply rsim_bind with (R := eqs F sh); [|intros y y' Ey; apply IH; auto; lia].
  destruct flip; [|apply cp_sim; auto; apply off_rng; lia]. apply rsim_bind with (R := teq); [|intros v v' Ev; now apply set_sim].
  destruct c as [c|], c' as [c'|]; try contradiction.
  - destruct Hc0 as [H1 H2]. apply tget_sim; auto. now apply make_unit.
  - apply rsim_bind with (R := teq); [now apply get_sim|]. intros v v' Ev. now apply neg_if_sim, tflip_sim.
Qed.
Lemma get_nonneg (x v : T) sl : tget x sl = Ok v -> nonneg (shp x) -> unit_steps sl -> nonneg (shp v).
Proof.
  unfold tget. destruct (Nat.eqb_spec (List.length sl) (List.length (shp x))) as [L|]; [|discriminate]. intros H. injection H as <-. cbn [shp]. revert sl L. generalize (shp x). clear.
  induction l as [|n l IH]; intros [|s sl] L Hn Hs; try discriminate; [constructor|]. injection L as L. inversion Hn; inversion Hs; subst. cbn [map2 map]. constructor; [|now apply IH].
  apply resolve_range; auto.
Qed.
Lemma cache_sim (b : bool) (x x' : T) sl (f : T -> T) : eqs F sh x x' -> unit_steps sl -> (forall v v', teq v v' -> teq (f v) (f v')) -> (forall v, shp (f v) = shp v) ->
  rsim csim (if b then v <- tget x sl ;; Ok (Some (f v)) else Ok None) (if b then v <- tget x' sl ;; Ok (Some (f v)) else Ok None).
Proof.
  intros E U Hf Hs. destruct b; [|exact I]. destruct (eqs_shp _ _ _ _ E) as [S1 S2]. assert (G : rsim teq (tget x sl) (tget x' sl)) by (apply tget_sim; auto; [now destruct E|now rewrite S1]).
  destruct (tget x sl) as [v|] eqn:Ev, (tget x' sl) as [v'|] eqn:Ev'; cbn [rsim bind] in *; try contradiction; auto. split; [now apply Hf|]. rewrite Hs. eapply get_nonneg; eauto. now rewrite S1.
Qed.
Lemma neg_shp b (v : T) : shp (neg_if b v) = shp v.
Proof. destruct b; reflexivity. Qed.
Lemma symmetric_sim fuel x x' idx dim negate : eqs F sh x x' -> wf idx dim -> rsim (eqs F sh) (symmetric_cp cp fuel x idx dim negate) (symmetric_1d fuel x' idx dim negate).
Proof.
  intros E W. pose proof W as (L & U & H). unfold symmetric_cp, symmetric_1d. destruct (head_tail idx dim) as [[h t]|e] eqn:Eh; cbn [bind]; [|reflexivity].
  specialize (H h t eq_refl). pose proof (ht_lt _ _ _ _ Eh) as Ld. rewrite L in Ld. cbv zeta. destruct (_ && _); [now apply replicate_sim|]. destruct (dimlen_sim x x' dim E) as [-> ->].
  apply rsim_bind with (R := csim).
  - apply cache_sim with (f := fun v => neg_if negate (tflip dim v)); auto; [|intros v; now rewrite neg_shp]. intros v v' Ev. now apply neg_if_sim, tflip_sim.
  - intros c c' Hc. apply rsim_bind with (R := eqs F sh); [apply symmetric_before_sim; auto; lia|]. intros y y' Ey. apply symmetric_after_sim; auto; lia.
Qed.
Lemma reflect_before_sim c c' idx dim tail length : csim c c' -> List.length idx = List.length sh -> unit_steps idx -> (dim < List.length sh)%nat -> length = 0 \/ 3 <= length -> 0 <= tail - length ->
  forall fuel x x' curr flip, eqs F sh x x' -> length = 0 \/ 0 <= curr <= tail - length ->
  rsim (eqs F sh) (reflect_before_cp cp fuel c x idx dim tail length curr flip) (reflect_before fuel c' x' idx dim tail length curr flip).
Proof.
  intros Hc0 L U Ld Hl Ht. pose proof (dim_nonneg dim) as Hn. induction fuel as [|fuel IH]; intros x x' curr flip E Hc; cbn [reflect_before_cp reflect_before];
    (destruct (Z.ltb_spec 0 curr); [|exact E]); [reflexivity|]. cbv zeta. destruct (ndim_sim x x' E) as [-> ->].
  rewrite (bind_twice _ _ (fun w => reflect_before fuel c' w idx dim tail length (curr - Z.min curr (if flip then length - 2 else length)) (negb flip))).
  apply rsim_bind with (R := eqs F sh); [|intros y y' Ey; apply IH; auto; destruct flip; lia].
  destruct flip.
  - apply rsim_bind with (R := teq); [|intros v v' Ev; now apply set_sim]. destruct c as [c|], c' as [c'|]; try contradiction.
    + destruct Hc0 as [H1 H2]. apply tget_sim; auto. now apply make_unit.
    + apply rsim_bind with (R := teq); [now apply get_sim|]. intros v v' Ev. now apply tflip_sim.
  - apply cp_sim; auto. destruct (Z.eq_dec length 0) as [->|N]; [|apply off_rng; lia]. rewrite Z.min_r by lia. rewrite Z.sub_0_r. now apply off_none.
Qed.
Lemma reflect_after_sim c c' idx dim head length : csim c c' -> List.length idx = List.length sh -> unit_steps idx -> (dim < List.length sh)%nat -> length = 0 \/ 3 <= length -> 0 <= head ->
  forall fuel x x' curr flip, eqs F sh x x' -> length = 0 \/ head + length <= curr ->
  rsim (eqs F sh) (reflect_after_cp cp fuel c x idx dim head length curr flip) (reflect_after fuel c' x' idx dim head length curr flip).
Proof.
  intros Hc0 L U Ld Hl Ht. pose proof (dim_nonneg dim) as Hn. induction fuel as [|fuel IH]; intros x x' curr flip E Hc; cbn [reflect_after_cp reflect_after];
    destruct (dimlen_sim x x' dim E) as [-> ->]; (destruct (Z.ltb_spec curr (nth dim sh 0)); [|exact E]); [reflexivity|]. cbv zeta. destruct (ndim_sim x x' E) as [-> ->].
  rewrite (bind_twice _ _ (fun w => reflect_after fuel c' w idx dim head length (curr + Z.min (nth dim sh 0 - curr) (if flip then length - 2 else length)) (negb flip))).
  apply rsim_bind with (R := eqs F sh); [|intros y y' Ey; apply IH; auto; destruct flip; lia].
  destruct flip.
  - apply rsim_bind with (R := teq); [|intros v v' Ev; now apply set_sim]. destruct c as [c|], c' as [c'|]; try contradiction.
    + destruct Hc0 as [H1 H2]. apply tget_sim; auto. now apply make_unit.
    + apply rsim_bind with (R := teq); [now apply get_sim|]. intros v v' Ev. now apply tflip_sim.
  - apply cp_sim; auto. destruct (Z.eq_dec length 0) as [->|N]; [|apply off_rng; lia]. rewrite Z.min_r by lia. rewrite Z.add_0_r. now apply off_none.
Qed.
Lemma reflect_sim fuel x x' idx dim : eqs F sh x x' -> wf idx dim -> rsim (eqs F sh) (reflect_cp cp fuel x idx dim) (reflect_1d fuel x' idx dim).
Proof.
  intros E W. pose proof W as (L & U & H). unfold reflect_cp, reflect_1d. destruct (head_tail idx dim) as [[h t]|e] eqn:Eh; cbn [bind]; [|reflexivity].
  specialize (H h t eq_refl). pose proof (ht_lt _ _ _ _ Eh) as Ld. rewrite L in Ld. cbv zeta. destruct (Z.eqb_spec (t - h) 1); [now apply replicate_sim|]. destruct (Z.eqb_spec (t - h) 2); [now apply circular_sim|].
  destruct (dimlen_sim x x' dim E) as [-> ->]. apply rsim_bind with (R := csim).
  - apply cache_sim; auto; [now apply unit_upd|]. intros v v' Ev. now apply tflip_sim.
  - intros c c' Hc. apply rsim_bind with (R := eqs F sh); [apply reflect_before_sim; auto; lia|]. intros y y' Ey. apply reflect_after_sim; auto; lia.
Qed.
End P.

(** ** The functions that write computed values *)
Section V.
Variable F : ofield.
Notation T := (tensor F).
Variable sh : list Z.
Hypothesis Hsh : nonneg sh.
Lemma odd_symmetric_before_sim idx dim length : unit_steps idx -> forall fuel (x x' : T) curr, eqs F sh x x' ->
  rsim (eqs F sh) (odd_symmetric_before fuel x idx dim length curr) (odd_symmetric_before fuel x' idx dim length curr).
Proof.
  intros U. induction fuel as [|fuel IH]; intros x x' curr E; cbn [odd_symmetric_before]; (destruct (0 <? curr); [|exact E]); [reflexivity|]. cbv zeta.
  apply rsim_bind with (R := teq); [eapply get_sim; eauto|]. intros a a' Ea. apply rsim_bind with (R := teq); [eapply get_sim; eauto|]. intros b b' Eb.
  apply rsim_bind with (R := teq); [apply two_sim; auto; now apply tflip_sim|]. intros v v' Ev. apply rsim_bind with (R := eqs F sh); [eapply set_sim; eauto|]. auto.
Qed.
Lemma odd_symmetric_after_sim idx dim length : unit_steps idx -> forall fuel (x x' : T) curr, eqs F sh x x' ->
  rsim (eqs F sh) (odd_symmetric_after fuel x idx dim length curr) (odd_symmetric_after fuel x' idx dim length curr).
Proof.
  intros U. induction fuel as [|fuel IH]; intros x x' curr E; cbn [odd_symmetric_after]; destruct (dimlen_sim F sh x x' dim E) as [-> ->]; (destruct (curr <? nth dim sh 0); [|exact E]); [reflexivity|]. cbv zeta.
  apply rsim_bind with (R := teq); [eapply get_sim; eauto|]. intros a a' Ea. apply rsim_bind with (R := teq); [eapply get_sim; eauto|]. intros b b' Eb.
  apply rsim_bind with (R := teq); [apply two_sim; auto; now apply tflip_sim|]. intros v v' Ev. apply rsim_bind with (R := eqs F sh); [eapply set_sim; eauto|]. auto.
Qed.
Lemma odd_symmetric_sim fuel (x x' : T) idx dim : eqs F sh x x' -> unit_steps idx -> rsim (eqs F sh) (odd_symmetric_1d fuel x idx dim) (odd_symmetric_1d fuel x' idx dim).
Proof.
  intros E U. unfold odd_symmetric_1d. destruct (head_tail idx dim) as [[h t]|]; cbn [bind]; [|reflexivity].
  apply rsim_bind with (R := eqs F sh); [now apply odd_symmetric_before_sim|]. intros. now apply odd_symmetric_after_sim.
Qed.
Lemma odd_reflect_before_sim idx dim length : unit_steps idx -> forall fuel (x x' : T) curr, eqs F sh x x' ->
  rsim (eqs F sh) (odd_reflect_before fuel x idx dim length curr) (odd_reflect_before fuel x' idx dim length curr).
Proof.
  intros U. induction fuel as [|fuel IH]; intros x x' curr E; cbn [odd_reflect_before]; (destruct (0 <? curr); [|exact E]); [reflexivity|]. cbv zeta.
  apply rsim_bind with (R := teq); [eapply get_sim; eauto|]. intros a a' Ea. apply rsim_bind with (R := teq); [eapply get_sim; eauto|]. intros b b' Eb.
  apply rsim_bind with (R := teq); [apply two_sim; auto; now apply tflip_sim|]. intros v v' Ev. apply rsim_bind with (R := eqs F sh); [eapply set_sim; eauto|]. auto.
Qed.
Lemma odd_reflect_after_sim idx dim length : unit_steps idx -> forall fuel (x x' : T) curr, eqs F sh x x' ->
  rsim (eqs F sh) (odd_reflect_after fuel x idx dim length curr) (odd_reflect_after fuel x' idx dim length curr).
Proof.
  intros U. induction fuel as [|fuel IH]; intros x x' curr E; cbn [odd_reflect_after]; destruct (dimlen_sim F sh x x' dim E) as [-> ->]; (destruct (curr <? nth dim sh 0); [|exact E]); [reflexivity|]. cbv zeta.
  apply rsim_bind with (R := teq); [eapply get_sim; eauto|]. intros a a' Ea. apply rsim_bind with (R := teq); [eapply get_sim; eauto|]. intros b b' Eb.
  apply rsim_bind with (R := teq); [apply two_sim; auto; now apply tflip_sim|]. intros v v' Ev. apply rsim_bind with (R := eqs F sh); [eapply set_sim; eauto|]. auto.
Qed.
Lemma replicate_same (x x' : T) idx dim : eqs F sh x x' -> unit_steps idx -> rsim (eqs F sh) (replicate_1d x idx dim) (replicate_1d x' idx dim).
Proof.
  intros E U. unfold replicate_1d. destruct (head_tail idx dim) as [[h t]|]; cbn [bind]; [|reflexivity]. apply rsim_bind with (R := eqs F sh).
  - destruct (0 <? h); [|exact E]. apply rsim_bind with (R := teq); [eapply get_sim; eauto|]. intros. eapply set_sim; eauto.
  - intros y y' Ey. destruct (dimlen_sim F sh y y' dim Ey) as [-> ->]. destruct (t <? nth dim sh 0); [|exact Ey]. apply rsim_bind with (R := teq); [eapply get_sim; eauto|]. intros. eapply set_sim; eauto.
Qed.
Lemma odd_reflect_sim fuel (x x' : T) idx dim : eqs F sh x x' -> unit_steps idx -> rsim (eqs F sh) (odd_reflect_1d fuel x idx dim) (odd_reflect_1d fuel x' idx dim).
Proof.
  intros E U. unfold odd_reflect_1d. destruct (head_tail idx dim) as [[h t]|] eqn:Eh; cbn [bind]; [|reflexivity]. destruct (_ =? 1); [now apply replicate_same|].
  apply rsim_bind with (R := eqs F sh); [now apply odd_reflect_before_sim|]. intros. now apply odd_reflect_after_sim.
Qed.
Lemma unit_axes_sim neg (x x' : T) dim : eqs F sh x x' -> unit_axes neg x dim = unit_axes neg x' dim.
Proof. intros E. unfold unit_axes. destruct (ndim_sim F sh x x' E) as [-> ->]. reflexivity. Qed.
Lemma smooth_sim neg (x x' : T) idx dim : eqs F sh x x' -> unit_steps idx -> rsim (eqs F sh) (smooth_1d neg x idx dim) (smooth_1d neg x' idx dim).
Proof.
  intros E U. unfold smooth_1d. destruct (head_tail idx dim) as [[h t]|] eqn:Eh; cbn [bind]; [|reflexivity]. destruct (_ =? 1); [now apply replicate_same|]. cbv zeta.
  rewrite <- (unit_axes_sim neg x x' dim E). apply rsim_bind with (R := eqs F sh).
  - destruct (0 <? h); [|exact E]. apply rsim_bind with (R := teq); [eapply get_sim; eauto|]. intros a a' Ea. apply rsim_bind with (R := teq); [eapply get_sim; eauto|]. intros b b' Eb.
    apply rsim_bind with (R := teq); [now apply tmap2_sim|]. intros d d' Ed. apply rsim_bind with (R := teq); [apply tmap2_sim; auto; apply teq_refl|]. intros m m' Em.
    apply rsim_bind with (R := teq); [now apply tmap2_sim|]. intros v v' Ev. destruct (ndim_sim F sh x x' E) as [-> ->]. eapply set_sim; eauto. now apply unit_prefix_sim.
  - intros y y' Ey. destruct (dimlen_sim F sh y y' dim Ey) as [-> ->]. destruct (t <? nth dim sh 0); [|exact Ey].
    apply rsim_bind with (R := teq); [eapply get_sim; eauto|]. intros a a' Ea. apply rsim_bind with (R := teq); [eapply get_sim; eauto|]. intros b b' Eb.
    apply rsim_bind with (R := teq); [now apply tmap2_sim|]. intros d d' Ed. apply rsim_bind with (R := teq); [apply tmap2_sim; auto; apply teq_refl|]. intros m m' Em.
    apply rsim_bind with (R := teq); [now apply tmap2_sim|]. intros v v' Ev. destruct (ndim_sim F sh y y' Ey) as [-> ->]. eapply set_sim; eauto. now apply unit_prefix_sim.
Qed.
Lemma ramp_sim neg (x x' : T) idx dim b a : eqs F sh x x' -> unit_steps idx -> rsim (eqs F sh) (linear_ramp_1d neg x idx dim b a) (linear_ramp_1d neg x' idx dim b a).
Proof.
  intros E U. unfold linear_ramp_1d. destruct (head_tail idx dim) as [[h t]|] eqn:Eh; cbn [bind]; [|reflexivity]. cbv zeta.
  rewrite <- (unit_axes_sim neg x x' dim E). apply rsim_bind with (R := eqs F sh).
  - destruct (0 <? h); [|exact E]. apply rsim_bind with (R := teq); [apply rsim_same; apply teq_refl|]. intros d d' Ed. apply rsim_bind with (R := teq); [eapply get_sim; eauto|]. intros c c' Ec.
    apply rsim_bind with (R := teq); [apply tmap2_sim; auto; now apply tmap_sim|]. intros v v' Ev. destruct (ndim_sim F sh x x' E) as [-> ->]. eapply set_sim; eauto. now apply unit_prefix_sim, tmap_sim.
  - intros y y' Ey. destruct (dimlen_sim F sh y y' dim Ey) as [-> ->]. destruct (t <? nth dim sh 0); [|exact Ey].
    apply rsim_bind with (R := teq); [apply rsim_same; apply teq_refl|]. intros d d' Ed. apply rsim_bind with (R := teq); [eapply get_sim; eauto|]. intros c c' Ec.
    apply rsim_bind with (R := teq); [apply tmap2_sim; auto; now apply tmap_sim|]. intros v v' Ev. destruct (ndim_sim F sh y y' Ey) as [-> ->]. eapply set_sim; eauto. now apply unit_prefix_sim, tmap_sim.
Qed.
Lemma constant_sim (x x' : T) idx dim b a : eqs F sh x x' -> unit_steps idx -> rsim (eqs F sh) (constant_1d x idx dim b a) (constant_1d x' idx dim b a).
Proof.
  intros E U. unfold constant_1d. destruct (head_tail idx dim) as [[h t]|] eqn:Eh; cbn [bind]; [|reflexivity]. apply rsim_bind with (R := eqs F sh).
  - destruct (0 <? h); [|exact E]. eapply set_sim; eauto. apply teq_refl.
  - intros y y' Ey. destruct (dimlen_sim F sh y y' dim Ey) as [-> ->]. destruct (t <? nth dim sh 0); [|exact Ey]. eapply set_sim; eauto. apply teq_refl.
Qed.
Lemma stat_sim (x x' : T) idx dim b a m : eqs F sh x x' -> unit_steps idx -> rsim (eqs F sh) (stat_1d x idx dim b a m) (stat_1d x' idx dim b a m).
Proof.
  intros E U. unfold stat_1d. destruct (head_tail idx dim) as [[h t]|] eqn:Eh; cbn [bind]; [|reflexivity]. cbv zeta. apply rsim_bind with (R := eqs F sh); [|intros y y' Ey; apply rsim_bind with (R := eqs F sh); [|intros z z' Ez]].
  - destruct b, a; try exact E. destruct (dimlen_sim F sh x x' dim E) as [-> ->]. destruct (_ && _); [|exact E].
    apply rsim_bind with (R := teq); [eapply get_sim; eauto|]. intros v v' Ev. apply rsim_bind with (R := teq); [now apply tstat_sim|]. intros r r' Er.
    apply rsim_bind with (R := eqs F sh); [eapply set_sim; eauto|]. intros. eapply set_sim; eauto.
  - destruct (0 <? h); [|exact Ey]. apply rsim_bind with (R := teq); [|intros; eapply set_sim; eauto].
    destruct b; (apply rsim_bind with (R := teq); [eapply get_sim; eauto|intros; now apply tstat_sim]).
  - destruct (dimlen_sim F sh z z' dim Ez) as [-> ->]. destruct (t <? nth dim sh 0); [|exact Ez]. apply rsim_bind with (R := teq); [|intros; eapply set_sim; eauto].
    destruct a; (apply rsim_bind with (R := teq); [eapply get_sim; eauto|intros; now apply tstat_sim]).
Qed.
End V.

(** ** The loop over the axes *)
(** A user function that treats equal tensors equally and keeps the shape. *)
Definition well_behaved {F : ofield} (f : tensor F -> list slice -> nat -> res (tensor F)) : Prop :=
  forall x x' idx dim, teq x x' -> rsim (fun y y' => teq y y' /\ shp y = shp x) (f x idx dim) (f x' idx dim).
Definition calm {F : ofield} (p : padder F) : Prop :=
  (forall i w, nds_get (p_width p) i = Ok w -> 0 <= fst w /\ 0 <= snd w) /\ forall i f, nds_get (p_mode p) i = Ok (MFun f) -> well_behaved f.

Section L.
Variable F : ofield.
Notation T := (tensor F).
Variable cp : T -> list slice -> list slice -> res T.
Hypothesis Hcp : faithful cp.
Variable sh : list Z.
Hypothesis Hsh : nonneg sh.

Lemma pad_func_sim fuel neg (m : mode F) cv ev sl : (forall f, m = MFun f -> well_behaved f) ->
  rsim (fun pf pf' => forall x x' idx dim, eqs F sh x x' -> wf sh idx dim -> rsim (eqs F sh) (pf x idx dim) (pf' x' idx dim)) (pad_func_cp cp fuel neg m cv ev sl) (pad_func_of fuel neg m cv ev sl).
Proof.
  intros Hm. destruct m; cbn [pad_func_cp pad_func_of rsim]; auto; intros x x' idx dim E W.
  - now apply replicate_sim.
  - unfold smooth_cp. destruct (head_tail idx dim) as [[h t]|] eqn:Eh; cbn [bind]; [|unfold smooth_1d; rewrite Eh; reflexivity].
    destruct (t - h =? 1) eqn:E1; [|apply smooth_sim; auto; now destruct W as (_ & U & _)].
    replace (smooth_1d neg x' idx dim) with (replicate_1d x' idx dim); [now apply replicate_sim|]. unfold smooth_1d. rewrite Eh. cbn [bind]. now rewrite E1.
  - now apply circular_sim.
  - now apply periodize_sim.
  - now apply symmetric_sim.
  - now apply reflect_sim.
  - now apply symmetric_sim.
  - unfold odd_reflect_cp. destruct (head_tail idx dim) as [[h t]|] eqn:Eh; cbn [bind]; [|unfold odd_reflect_1d; rewrite Eh; reflexivity].
    destruct (t - h =? 1) eqn:E1; [|apply odd_reflect_sim; auto; now destruct W as (_ & U & _)].
    replace (odd_reflect_1d fuel x' idx dim) with (replicate_1d x' idx dim); [now apply replicate_sim|]. unfold odd_reflect_1d. rewrite Eh. cbn [bind]. now rewrite E1.
  - apply odd_symmetric_sim; auto. now destruct W as (_ & U & _).
  - apply stat_sim; auto. now destruct W as (_ & U & _).
  - apply constant_sim; auto. now destruct W as (_ & U & _).
  - apply ramp_sim; auto. now destruct W as (_ & U & _).
  - destruct E as [E S]. apply rsim_impl with (R := fun y y' => teq y y' /\ shp y = shp x); [|now apply Hm]. intros a b [A B]. split; [exact A|congruence].
Qed.
Definition psim (r r' : T * idxval) : Prop := eqs F sh (fst r) (fst r') /\ snd r = snd r'.
Lemma fill_value_sim fuel neg p y y' i axis idx : calm p -> eqs F sh y y' -> (forall l, idx = Idx l -> wf sh l axis) ->
  rsim psim (fill_value_cp cp fuel neg p y i axis idx) (fill_value_1d fuel neg p y' i axis idx).
Proof.
  intros [_ Hm] E W. unfold fill_value_cp, fill_value_1d. destruct (nds_get (p_width p) i) as [pw|]; cbn [bind]; [|reflexivity]. destruct (_ && _); [split; auto|].
  destruct (nds_get (p_mode p) i) as [m|] eqn:Em; cbn [bind]; [|reflexivity].
  assert (G : rsim psim
      (ps <- mode_params p m i ;; let '(cv, ev, sl) := ps in pf <- pad_func_cp cp fuel neg m cv ev sl ;;
        match idx with FunctionObject => Err TypeError | Idx l => y'0 <- pf y l axis ;; ht <- head_tail l axis ;; let '(head, tail) := ht in
          Ok (y'0, Idx (modify_idx (srng (head - fst pw) (tail + snd pw + (if is_periodize m then (tail - head) mod 2 else 0))) l axis)) end)
      (ps <- mode_params p m i ;; let '(cv, ev, sl) := ps in pf <- pad_func_of fuel neg m cv ev sl ;;
        match idx with FunctionObject => Err TypeError | Idx l => y'0 <- pf y' l axis ;; ht <- head_tail l axis ;; let '(head, tail) := ht in
          Ok (y'0, Idx (modify_idx (srng (head - fst pw) (tail + snd pw + (if is_periodize m then (tail - head) mod 2 else 0))) l axis)) end)).
  { destruct (mode_params p m i) as [[[cv ev] sl]|]; cbn [bind]; [|reflexivity]. eapply rsim_bind; [apply (pad_func_sim fuel neg m cv ev sl); intros f ->; eauto|].
    intros pf pf' Hpf. destruct idx as [l|]; [|reflexivity]. eapply rsim_bind; [apply Hpf; auto|]. intros z z' Ez. destruct (head_tail l axis) as [[h t]|]; cbn [bind]; [|reflexivity]. split; auto. }
  destruct m; try exact G; split; auto.
Qed.

Definition owed1 (p : padder F) (nd : nat) (axes : list Z) (i : Z) (d : nat) : Z :=
  match nds_get (p_width p) i with
  | Ok pw => if (fst pw =? 0) && (snd pw =? 0) then 0 else
    match pyidx axes i with
    | Ok a => match axis_nat nd a with Ok k => if Nat.eqb k d then fst pw else 0 | _ => 0 end
    | _ => 0
    end
  | _ => 0
  end.
Fixpoint owed (p : padder F) (nd : nat) (axes is : list Z) (d : nat) : Z :=
  match is with [] => 0 | i :: is' => owed1 p nd axes i d + owed p nd axes is' d end.
Lemma owed_nonneg p nd axes is d : calm p -> 0 <= owed p nd axes is d.
Proof.
  intros [Hw _]. induction is as [|i is IH]; cbn [owed]; [lia|]. assert (0 <= owed1 p nd axes i d); [|lia]. unfold owed1. destruct (nds_get (p_width p) i) as [pw|] eqn:Ew; [|lia].
  specialize (Hw i pw Ew). destruct (_ && _); [lia|]. destruct (pyidx axes i); [|lia]. destruct (axis_nat nd a); [|lia]. destruct (Nat.eqb _ _); lia.
Qed.
Definition room (l : list slice) (g : nat -> Z) : Prop := length l = length sh /\ forall d, (d < length sh)%nat -> exists h t, nth d l sfull = srng h t /\ 0 <= g d <= h /\ h <= t.
Lemma room_wf l g dim : room l g -> wf sh l dim.
Proof.
  intros [L H]. split; [exact L|]. split.
  - apply Forall_forall. intros s Hs. apply (In_nth _ _ sfull) in Hs as [d [Hd <-]]. destruct (H d ltac:(lia)) as [h [t [-> _]]]. reflexivity.
  - intros h t E. pose proof (ht_lt _ _ _ _ E) as Hd. destruct (H dim ltac:(lia)) as [a [b [E2 [R1 R2]]]]. unfold head_tail in E. rewrite (nth_error_nth' l sfull) in E by auto.
    rewrite E2 in E. cbn in E. injection E as <- <-. lia.
Qed.
Lemma fill_loop_sim fuel p axes : calm p -> forall is y y' idx, eqs F sh y y' -> (forall l, idx = Idx l -> room l (owed p (length sh) axes is)) ->
  rsim (eqs F sh) (fill_loop_cp cp fuel p y axes is idx) (fill_loop fuel p y' axes is idx).
Proof.
  intros C. induction is as [|i is IH]; intros y y' idx E R; cbn [fill_loop_cp fill_loop]; [exact E|].
  destruct (pyidx axes i) as [a|] eqn:Ea; cbn [bind]; [|reflexivity]. destruct (nds_get (p_width p) i) as [pw|] eqn:Ew; cbn [bind]; [|reflexivity].
  destruct (_ && _) eqn:Ez.
  { apply IH; auto. intros l Hl. destruct (R l Hl) as [L H]. split; [exact L|]. intros d Hd. destruct (H d Hd) as [h [t [E1 E2]]]. exists h, t. cbn [owed] in E2. unfold owed1 in E2. rewrite Ew, Ez in E2. split; auto. }
  destruct (ndim_sim F sh y y' E) as [-> ->]. destruct (axis_nat (length sh) a) as [k|] eqn:Ek; cbn [bind]; [|reflexivity].
  pose proof (fill_value_sim fuel (a <? 0) p y y' i k idx C E (fun l Hl => room_wf l _ k (R l Hl))) as S.
  assert (Next : forall z idx', fill_value_1d fuel (a <? 0) p y' i k idx = Ok (z, idx') -> forall l, idx' = Idx l -> room l (owed p (length sh) axes is)).
  { intros z idx' H l ->. unfold fill_value_1d in H. rewrite Ew in H. cbn [bind] in H. rewrite Ez in H. destruct (nds_get (p_mode p) i) as [m|] eqn:Em; cbn [bind] in H; [|discriminate].
    assert (O : forall d, owed p (length sh) axes (i :: is) d = (if Nat.eqb k d then fst pw else 0) + owed p (length sh) axes is d) by (intros d; cbn [owed]; unfold owed1; now rewrite Ew, Ez, Ea, Ek).
    destruct (proj1 C i pw Ew) as [P1 P2].
    assert (Keep : forall l0, idx = Idx l0 -> room l0 (owed p (length sh) axes is)).
    { intros l0 Hl0. destruct (R l0 Hl0) as [L H0]. split; [exact L|]. intros d Hd. destruct (H0 d Hd) as [h [t [E1 E2]]]. exists h, t. rewrite O in E2. pose proof (owed_nonneg p (length sh) axes is d C). destruct (Nat.eqb k d); split; auto; lia. }
    assert (G : forall r : res (T * idxval), r = Ok (z, Idx l) -> r = (ps <- mode_params p m i ;; let '(cv, ev, sl) := ps in pf <- pad_func_of fuel (a <? 0) m cv ev sl ;;
        match idx with FunctionObject => Err TypeError | Idx l => y'0 <- pf y' l k ;; ht <- head_tail l k ;; let '(head, tail) := ht in
          Ok (y'0, Idx (modify_idx (srng (head - fst pw) (tail + snd pw + (if is_periodize m then (tail - head) mod 2 else 0))) l k)) end) ->
        room l (owed p (length sh) axes is)).
    { intros r -> Hr. destruct (mode_params p m i) as [[[cv ev] sl]|]; cbn [bind] in Hr; [|discriminate]. destruct (pad_func_of fuel (a <? 0) m cv ev sl) as [pf|]; cbn [bind] in Hr; [|discriminate].
      destruct idx as [l0|]; [|discriminate]. destruct (pf y' l0 k) as [w|]; cbn [bind] in Hr; [|discriminate]. destruct (head_tail l0 k) as [[h t]|] eqn:Eh; cbn [bind] in Hr; [|discriminate].
      assert (El : l = modify_idx (srng (h - fst pw) (t + snd pw + (if is_periodize m then (t - h) mod 2 else 0))) l0 k) by congruence. subst l.
      destruct (R l0 eq_refl) as [L H0]. pose proof (ht_lt _ _ _ _ Eh) as Hk. split; [unfold modify_idx; now rewrite upd_length|]. intros d Hd.
      pose proof (owed_nonneg p (length sh) axes is d C) as On. unfold modify_idx. destruct (Nat.eq_dec k d) as [->|Nk].
      - rewrite nth_upd_eq by auto. do 2 eexists. split; [reflexivity|]. destruct (H0 d Hd) as [h' [t' [E1 [E2 E3]]]]. rewrite O, Nat.eqb_refl in E2. unfold head_tail in Eh. rewrite (nth_error_nth' l0 sfull) in Eh by auto.
        rewrite E1 in Eh. cbn in Eh. injection Eh as <- <-. assert (0 <= (if is_periodize m then (t' - h') mod 2 else 0)) by (destruct (is_periodize m); [apply Z.mod_pos_bound; lia|lia]). lia.
      - rewrite nth_upd_ne by auto. destruct (H0 d Hd) as [h' [t' [E1 E2]]]. exists h', t'. rewrite O in E2. destruct (Nat.eqb_spec k d); [contradiction|]. split; auto. }
    destruct m; try (now apply (G _ H eq_refl)).
    - discriminate.
    - injection H as _ ->. now apply Keep. }
  destruct (fill_value_cp cp fuel (a <? 0) p y i k idx) as [r|e] eqn:E1, (fill_value_1d fuel (a <? 0) p y' i k idx) as [[z idx']|e'] eqn:E2; cbn [rsim bind] in *; try contradiction; [|exact S].
  destruct S as [S1 S2]. cbn [fst snd] in *. rewrite S2. apply IH; auto. now apply (Next z idx').
Qed.
End L.

(** ** Padder.forward and Padder.pad_axis *)
Section W.
Variable F : ofield.
Notation T := (tensor F).
Variable cp : T -> list slice -> list slice -> res T.
Hypothesis Hcp : faithful cp.

Lemma width_loop_owed (p : padder F) shape axes : calm p -> nonneg shape -> forall is hv pv hv' pv', length hv = length shape -> length pv = length shape ->
  width_loop p shape axes is hv pv = Ok (hv', pv') ->
  length hv' = length shape /\ length pv' = length shape /\ (forall d, (d < length shape)%nat -> nth d hv' 0 = nth d hv 0 + owed F p (length shape) axes is d) /\
  (forall d, (d < length shape)%nat -> nth d pv 0 <= nth d pv' 0).
Proof.
  intros C Hs. induction is as [|i is IH]; intros hv pv hv' pv' L1 L2 H; cbn [width_loop] in H.
  - injection H as <- <-. split; [auto|]. split; [auto|]. split; intros d Hd; cbn [owed]; lia.
  - destruct (nds_get (p_width p) i) as [pw|] eqn:Ew; cbn [bind] in H; [|discriminate]. destruct (proj1 C i pw Ew) as [P1 P2]. destruct ((fst pw =? 0) && (snd pw =? 0)) eqn:Ez.
    + destruct (IH hv pv hv' pv' L1 L2 H) as (I1 & I2 & I3 & I4). split; [auto|]. split; [auto|]. split; [|auto]. intros d Hd. cbn [owed]. unfold owed1. rewrite Ew, Ez, I3 by auto. lia.
    + destruct (pyidx axes i) as [a|] eqn:Ea; cbn [bind] in H; [|discriminate]. destruct (axis_nat (length shape) a) as [k|] eqn:Ek; cbn [bind] in H; [|discriminate].
      destruct (nds_get (p_mode p) i) as [m|]; cbn [bind] in H; [|discriminate].
      apply IH in H; [|unfold vadd; now rewrite upd_length|destruct (is_periodize m); unfold vadd; rewrite ?upd_length; auto]. destruct H as (I1 & I2 & I3 & I4). split; [auto|]. split; [auto|]. split.
      * intros d Hd. rewrite I3 by auto. cbn [owed]. unfold owed1. rewrite Ew, Ez, Ea, Ek. unfold vadd. destruct (Nat.eqb_spec k d) as [->|N]; [rewrite nth_upd_eq by lia|rewrite nth_upd_ne by auto]; lia.
      * intros d Hd. specialize (I4 d Hd). etransitivity; [|exact I4]. assert (0 <= nth k shape 0 mod 2) by (apply Z.mod_pos_bound; lia).
        destruct (is_periodize m); unfold vadd; destruct (Nat.eq_dec k d) as [->|N]; rewrite ?nth_upd_eq, ?nth_upd_ne by (rewrite ?upd_length; auto; lia); lia.
Qed.
Lemma tset_shp (x y v : T) sl : tset x sl v = Ok y -> shp y = shp x.
Proof. unfold tset. destruct (Nat.eqb _ _); [|discriminate]. destruct (expandable _ _); [|discriminate]. intros H. injection H as <-. reflexivity. Qed.
Lemma map2_add_length (l m : list Z) : length l = length m -> length (map2 Z.add l m) = length l.
Proof. intros H. apply map2_length_eq. auto. Qed.
Theorem forward_any_copy fuel junk (p : padder F) (x : T) ax : calm p -> nonneg (shp x) ->
  rsim teq (padder_forward_cp cp fuel junk p x ax) (padder_forward fuel junk p x ax).
Proof.
  intros C Hs. unfold padder_forward_cp, padder_forward. destruct (assertb _); cbn [bind]; [|reflexivity]. destruct (check_axes _ ax) as [axes|]; cbn [bind]; [|reflexivity].
  destruct axes as [|a0 axes0]; [apply teq_refl|]. set (axes := a0 :: axes0). cbv zeta. set (np := if 0 <? p_ndim p then _ else _).
  destruct (width_loop p (shp x) axes (neg_range np) (repeat 0 (ndim x)) (repeat 0 (ndim x))) as [[hv pv]|] eqn:Ew; cbn [bind]; [|reflexivity].
  apply width_loop_owed in Ew as (L1 & L2 & O & P); auto; try (now rewrite repeat_length).
  destruct (list_eqb _ _); [apply teq_refl|]. set (sh := map2 Z.add (map2 Z.add hv (shp x)) pv).
  assert (Lt : length (map2 Z.add hv (shp x)) = length (shp x)) by (rewrite map2_length_eq; lia).
  assert (Ls : length sh = length (shp x)) by (unfold sh; rewrite map2_length_eq; lia).
  assert (N0 : forall d, nth d (repeat 0 (ndim x)) 0 = 0) by (intros d; destruct (Nat.lt_ge_cases d (ndim x)); [apply nth_repeat|apply nth_overflow; now rewrite repeat_length]).
  assert (Hx : forall d, (d < length (shp x))%nat -> 0 <= nth d (shp x) 0) by (intros d Hd; unfold nonneg in Hs; rewrite Forall_forall in Hs; apply Hs; now apply nth_In).
  assert (Hsh : nonneg sh).
  { apply Forall_forall. intros n Hn. apply (In_nth _ _ 0) in Hn as [d [Hd <-]]. rewrite Ls in Hd. unfold sh. rewrite !nth_map2 with (da := 0) (db := 0) by lia.
    specialize (O d Hd). specialize (P d Hd). rewrite N0 in *. specialize (Hx d Hd). pose proof (owed_nonneg F p (length (shp x)) axes (neg_range np) d C). lia. }
  destruct (tset (tempty sh junk) (map2 srng hv (map2 Z.add hv (shp x))) x) as [y|] eqn:Ey; cbn [bind]; [|reflexivity].
  apply tset_shp in Ey. cbn [shp tempty] in Ey. apply rsim_impl with (R := eqs F sh); [intros u v [H _]; exact H|]. apply fill_loop_sim; auto; [now apply eqs_refl|].
  intros l Hl. injection Hl as <-. split; [rewrite map2_length_eq; lia|]. intros d Hd. rewrite Ls in Hd. rewrite nth_map2 with (da := 0) (db := 0) by lia. do 2 eexists. split; [reflexivity|].
  rewrite nth_map2 with (da := 0) (db := 0) by lia. rewrite Ls, O, N0 by auto. specialize (Hx d Hd). pose proof (owed_nonneg F p (length (shp x)) axes (neg_range np) d C). lia.
Qed.
Theorem axis_any_copy fuel junk (p : padder F) (x : T) i ax : calm p -> nonneg (shp x) ->
  rsim teq (pad_axis_cp cp fuel junk p x i ax) (pad_axis fuel junk p x i ax).
Proof.
  intros C Hs. unfold pad_axis_cp, pad_axis. destruct (check_axes _ ax) as [[|a [|b l]]|]; cbn [bind]; try reflexivity. destruct (nds_get (p_width p) i) as [pw|] eqn:Ew; cbn [bind]; [|reflexivity].
  destruct (_ && _); [apply teq_refl|]. destruct (axis_nat (ndim x) a) as [k|] eqn:Ek; cbn [bind]; [|reflexivity]. destruct (proj1 C i pw Ew) as [P1 P2].
  assert (Hk : (k < ndim x)%nat) by (unfold axis_nat in Ek; destruct (a <? 0); destruct (_ && _) eqn:Ec in Ek; try discriminate; injection Ek as <-; apply andb_true_iff in Ec as [A B]; apply Z.leb_le in A; apply Z.ltb_lt in B; lia).
  set (n := fst pw + dimlen x k + snd pw). set (idx := make_idx _ _ _).
  assert (Hn : 0 <= dimlen x k) by (unfold dimlen; unfold nonneg in Hs; rewrite Forall_forall in Hs; apply Hs; now apply nth_In).
  assert (Hsh : nonneg (upd k n (shp x))).
  { apply Forall_forall. intros m Hm. apply (In_nth _ _ 0) in Hm as [d [Hd <-]]. rewrite upd_length in Hd. destruct (Nat.eq_dec k d) as [->|N]; [rewrite nth_upd_eq by auto; unfold n; lia|].
    rewrite nth_upd_ne by auto. unfold nonneg in Hs. rewrite Forall_forall in Hs. apply Hs. now apply nth_In. }
  destruct (tset (tempty (upd k n (shp x)) junk) idx x) as [y|] eqn:Ey; cbn [bind]; [|reflexivity]. apply tset_shp in Ey. cbn [shp tempty] in Ey.
  apply rsim_bind with (R := psim F (upd k n (shp x))); [|intros r r' [[H _] _]; exact H]. apply fill_value_sim; auto; [now apply eqs_refl|].
  intros l0 Hl. injection Hl as <-. split; [unfold idx, make_idx; rewrite !app_length, !repeat_length, upd_length; unfold ndim in *; cbn [length]; lia|].
  split; [apply make_unit; reflexivity|]. intros h t. unfold idx, make_idx, head_tail. rewrite nth_error_app2 by (rewrite repeat_length; lia). rewrite repeat_length, Nat.sub_diag. cbn. intros E. injection E as <- <-. lia.
Qed.
End W.

(** Copies in any order, copies that refuse overlapping regions. *)
Theorem pad_any_order (F : ofield) ord fuel junk (p : padder F) (x : tensor F) : (forall l i, In i (ord l) <-> In i l) -> calm p -> nonneg (shp x) ->
  (forall ax, rsim teq (padder_forward_cp (copy_in_order ord) fuel junk p x ax) (padder_forward fuel junk p x ax)) /\
  (forall i ax, rsim teq (pad_axis_cp (copy_in_order ord) fuel junk p x i ax) (pad_axis fuel junk p x i ax)).
Proof. intros Ho C Hs. split; intros; [apply forward_any_copy|apply axis_any_copy]; auto; now apply in_order_faithful. Qed.
Theorem pad_no_overlap (F : ofield) fuel junk (p : padder F) (x : tensor F) : calm p -> nonneg (shp x) ->
  (forall ax, rsim teq (padder_forward_cp checked_copy fuel junk p x ax) (padder_forward fuel junk p x ax)) /\
  (forall i ax, rsim teq (pad_axis_cp checked_copy fuel junk p x i ax) (pad_axis fuel junk p x i ax)).
Proof. intros C Hs. split; intros; [apply forward_any_copy|apply axis_any_copy]; auto; apply checked_faithful. Qed.

(** Padders built by the constructor have widths that are not negative. *)
Theorem init_calm (F : ofield) w m c e s (p : padder F) : padder_init w m c e s = Ok p -> (forall i f, nds_get m i = Ok (MFun f) -> well_behaved f) -> calm p.
Proof.
  unfold padder_init. destruct (nds_map _ w) as [w'|] eqn:Ew; cbn [bind]; [|discriminate]. destruct (align_ndim w' m c e s) as [nd|]; cbn [bind]; [|discriminate]. intros H Hm. injection H as <-. split; [|exact Hm]. cbn [p_width].
  assert (K : forall a b, check_pad_width (fst a) (snd a) = Ok b -> 0 <= fst b /\ 0 <= snd b).
  { intros q b. destruct q as [a1 a2]. unfold check_pad_width. cbn [fst snd]. destruct (Z.ltb_spec a1 0); [discriminate|]. destruct (Z.ltb_spec a2 0); [discriminate|]. intros E. injection E as <-. cbn. lia. }
  destruct w as [a|l]; cbn [nds_map] in Ew.
  - destruct (check_pad_width (fst a) (snd a)) as [b|] eqn:Eb; cbn [bind] in Ew; [|discriminate]. injection Ew as <-. intros i v E. cbn in E. injection E as <-. eauto.
  - destruct (mapM _ l) as [bs|] eqn:Eb; cbn [bind] in Ew; [|discriminate]. injection Ew as <-. intros i v E. cbn [nds_get] in E.
    assert (G : Forall (fun b => 0 <= fst b /\ 0 <= snd b) bs).
    { clear E. revert bs Eb. induction l as [|a l IH]; intros bs Eb; cbn [mapM] in Eb; [injection Eb as <-; constructor|].
      destruct (check_pad_width (fst a) (snd a)) as [b|] eqn:Ec; cbn [bind] in Eb; [|discriminate]. destruct (mapM _ l) as [bs'|]; cbn [bind] in Eb; [|discriminate]. injection Eb as <-. constructor; eauto. }
    rewrite Forall_forall in G. apply G. unfold pyidx in E. destruct (_ && _); [|discriminate]. destruct (nth_error bs _) eqn:En; [|discriminate]. injection E as <-. eapply nth_error_In; eauto.
Qed.
