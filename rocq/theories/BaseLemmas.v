(** Elementary facts about the list and index operations of Base.v and Tensor.v. *)
From Verif Require Export Tensor.

Ltac inv H := inversion H; subst; clear H.
Ltac bdestr :=
  repeat match goal with
  | H : _ && _ = true |- _ => apply andb_true_iff in H; destruct H
  | H : (_ <=? _) = true |- _ => apply Z.leb_le in H
  | H : (_ <? _) = true |- _ => apply Z.ltb_lt in H
  | H : (_ =? _) = true |- _ => apply Z.eqb_eq in H
  | H : (_ <=? _) = false |- _ => apply Z.leb_gt in H
  | H : (_ <? _) = false |- _ => apply Z.ltb_ge in H
  | H : (_ =? _) = false |- _ => apply Z.eqb_neq in H
  | H : negb _ = true |- _ => apply negb_true_iff in H
  | H : negb _ = false |- _ => apply negb_false_iff in H
  end.
Ltac zcase := match goal with
  | |- context [?a <=? ?b] => destruct (Z.leb_spec a b)
  | |- context [?a <? ?b] => destruct (Z.ltb_spec a b)
  | |- context [?a =? ?b] => destruct (Z.eqb_spec a b)
  end.

(** ** upd *)
Lemma upd_length {A} n (v : A) l : length (upd n v l) = length l.
Proof. revert n; induction l; destruct n; simpl; auto. Qed.

Lemma nth_upd_eq {A} n (v : A) l d : (n < length l)%nat -> nth n (upd n v l) d = v.
Proof. revert n; induction l; destruct n; simpl; intros; try lia; auto. apply IHl. lia. Qed.

Lemma nth_upd_ne {A} n m (v : A) l d : n <> m -> nth m (upd n v l) d = nth m l d.
Proof. revert n m; induction l; destruct n, m; simpl; intros; try congruence; auto. Qed.

Lemma nth_upd {A} n m (v : A) l d :
  nth m (upd n v l) d = if Nat.eqb n m && Nat.ltb n (length l) then v else nth m l d.
Proof.
  destruct (Nat.eqb_spec n m); simpl.
  - subst. destruct (Nat.ltb_spec m (length l)).
    + now apply nth_upd_eq.
    + rewrite !nth_overflow; auto. rewrite upd_length; auto.
  - now apply nth_upd_ne.
Qed.

Lemma upd_upd {A} n (v w : A) l : upd n v (upd n w l) = upd n v l.
Proof. revert n; induction l; destruct n; simpl; intros; auto. now rewrite IHl. Qed.

Lemma upd_comm {A} n m (v w : A) l : n <> m -> upd n v (upd m w l) = upd m w (upd n v l).
Proof. revert n m; induction l; destruct n, m; simpl; intros; auto; try congruence. now rewrite IHl by congruence. Qed.

Lemma upd_nth {A} n (l : list A) d : upd n (nth n l d) l = l.
Proof. revert n; induction l; destruct n; simpl; intros; auto. now rewrite IHl. Qed.

Lemma upd_map {A B} (f : A -> B) n v l : map f (upd n v l) = upd n (f v) (map f l).
Proof. revert n; induction l; destruct n; simpl; intros; auto. now rewrite IHl. Qed.

(** ** map2 / all2 *)
Lemma map2_length {A B C} (f : A -> B -> C) l m :
  length (map2 f l m) = Nat.min (length l) (length m).
Proof. revert m; induction l; destruct m; simpl; auto. Qed.

Lemma map2_length_eq {A B C} (f : A -> B -> C) l m :
  length l = length m -> length (map2 f l m) = length l.
Proof. intros H. rewrite map2_length, H. lia. Qed.

Lemma nth_map2 {A B C} (f : A -> B -> C) l m n da db dc :
  (n < length l)%nat -> (n < length m)%nat ->
  nth n (map2 f l m) dc = f (nth n l da) (nth n m db).
Proof.
  revert m n; induction l; destruct m, n; simpl; intros; try lia; auto.
  apply IHl; lia.
Qed.

Lemma map2_upd {A B C} (f : A -> B -> C) l m n a b :
  map2 f (upd n a l) (upd n b m) = upd n (f a b) (map2 f l m).
Proof. revert m n; induction l; destruct m, n; simpl; intros; auto. now rewrite IHl. Qed.

Lemma map2_upd_r {A B C} (f : A -> B -> C) l m n b da :
  map2 f l (upd n b m) = upd n (f (nth n l da) b) (map2 f l m).
Proof. rewrite <- (upd_nth n l da) at 1. apply map2_upd. Qed.

Lemma map2_upd_l {A B C} (f : A -> B -> C) l m n a db :
  map2 f (upd n a l) m = upd n (f a (nth n m db)) (map2 f l m).
Proof. rewrite <- (upd_nth n m db) at 1. apply map2_upd. Qed.

Lemma map2_ext {A B C} (f g : A -> B -> C) l m :
  (forall a b, f a b = g a b) -> map2 f l m = map2 g l m.
Proof. intros H; revert m; induction l; destruct m; simpl; auto. now rewrite H, IHl. Qed.

Lemma all2_iff {A B} (p : A -> B -> bool) l m da db :
  all2 p l m = true <->
  length l = length m /\ forall n, (n < length l)%nat -> p (nth n l da) (nth n m db) = true.
Proof.
  revert m; induction l; destruct m; simpl.
  - split; auto. intros _; split; auto. intros; lia.
  - split; [discriminate|]. intros [H _]; discriminate.
  - split; [discriminate|]. intros [H _]; discriminate.
  - rewrite andb_true_iff, IHl. split.
    + intros [H [H1 H2]]. split; [lia|]. intros [|n] Hn; auto. apply H2; lia.
    + intros [H1 H2]. split; [apply (H2 0%nat); lia|]. split; [lia|].
      intros n Hn. apply (H2 (S n)); lia.
Qed.

Lemma all2_length {A B} (p : A -> B -> bool) l m : all2 p l m = true -> length l = length m.
Proof. revert m; induction l; destruct m; simpl; intros; try discriminate; auto. bdestr. f_equal; auto. Qed.

Lemma list_ext {A} (l m : list A) d :
  length l = length m -> (forall n, (n < length l)%nat -> nth n l d = nth n m d) -> l = m.
Proof. intros; eapply nth_ext; eauto. Qed.

(** ** zseq / zrange *)
Lemma zseq_length lo n : length (zseq lo n) = n.
Proof. revert lo; induction n; simpl; auto. Qed.
Lemma nth_zseq lo n k d : (k < n)%nat -> nth k (zseq lo n) d = lo + Z.of_nat k.
Proof. revert lo k; induction n; destruct k; simpl; intros; try lia. rewrite IHn; lia. Qed.
Lemma In_zseq lo n z : In z (zseq lo n) <-> lo <= z < lo + Z.of_nat n.
Proof.
  revert lo; induction n; intros; simpl; [lia|]. rewrite IHn. lia.
Qed.
Lemma zrange_length n : length (zrange n) = Z.to_nat n.
Proof. apply zseq_length. Qed.
Lemma nth_zrange n k d : (k < Z.to_nat n)%nat -> nth k (zrange n) d = Z.of_nat k.
Proof. intros. unfold zrange. rewrite nth_zseq; auto. Qed.
Lemma In_zrange n z : In z (zrange n) <-> 0 <= z < n.
Proof. unfold zrange. rewrite In_zseq. lia. Qed.
Lemma zseq_app lo a b : zseq lo (a + b) = zseq lo a ++ zseq (lo + Z.of_nat a) b.
Proof.
  revert lo; induction a; intros; simpl.
  - f_equal; lia.
  - f_equal. rewrite IHa. f_equal. f_equal. lia.
Qed.
Lemma zrange_S n : 0 <= n -> zrange (n + 1) = zrange n ++ [n].
Proof.
  intros. unfold zrange. replace (Z.to_nat (n + 1)) with (Z.to_nat n + 1)%nat by lia.
  rewrite zseq_app. simpl. f_equal. f_equal. lia.
Qed.

(** ** pyidx *)
Lemma pyidx_nonneg {A} (l : list A) i d :
  0 <= i < Z.of_nat (length l) -> pyidx l i = Ok (nth (Z.to_nat i) l d).
Proof.
  intros. unfold pyidx. destruct (Z.ltb_spec i 0); [lia|].
  destruct (Z.leb_spec 0 i); [|lia]. destruct (Z.ltb_spec i (Z.of_nat (length l))); [|lia].
  simpl. rewrite (nth_error_nth' l d); auto. lia.
Qed.
Lemma pyidx_neg {A} (l : list A) i d :
  - Z.of_nat (length l) <= i < 0 ->
  pyidx l i = Ok (nth (Z.to_nat (i + Z.of_nat (length l))) l d).
Proof.
  intros. unfold pyidx. destruct (Z.ltb_spec i 0); [|lia].
  destruct (Z.leb_spec 0 (i + Z.of_nat (length l))); [|lia].
  destruct (Z.ltb_spec (i + Z.of_nat (length l)) (Z.of_nat (length l))); [|lia].
  simpl. rewrite (nth_error_nth' l d); auto. lia.
Qed.
Lemma pyidx_err {A} (l : list A) i :
  i < - Z.of_nat (length l) \/ Z.of_nat (length l) <= i -> pyidx l i = Err IndexError.
Proof.
  intros. unfold pyidx. destruct (Z.ltb_spec i 0).
  - destruct (Z.leb_spec 0 (i + Z.of_nat (length l))); [lia|]. reflexivity.
  - destruct (Z.ltb_spec i (Z.of_nat (length l))); [lia|]. now rewrite andb_false_r.
Qed.

(** ** mapM *)
Lemma mapM_ok {A B} (f : A -> res B) (g : A -> B) l :
  (forall a, In a l -> f a = Ok (g a)) -> mapM f l = Ok (map g l).
Proof.
  induction l; simpl; auto. intros H. rewrite H by auto. simpl.
  rewrite IHl by auto. reflexivity.
Qed.
Lemma mapM_length {A B} (f : A -> res B) l r : mapM f l = Ok r -> length r = length l.
Proof.
  revert r; induction l; simpl; intros r H; [inv H; auto|].
  destruct (f a); simpl in H; [|discriminate]. destruct (mapM f l); simpl in H; [|discriminate].
  inv H. simpl. auto.
Qed.
Lemma mapM_nth {A B} (f : A -> res B) l r k da db :
  mapM f l = Ok r -> (k < length l)%nat -> f (nth k l da) = Ok (nth k r db).
Proof.
  revert r k; induction l; simpl; intros r k H Hk; [lia|].
  destruct (f a) eqn:E; simpl in H; [|discriminate].
  destruct (mapM f l) eqn:E2; simpl in H; [|discriminate].
  inv H. destruct k; simpl; auto. apply IHl; auto. lia.
Qed.

(** ** valid *)
Lemma valid_iff s i :
  valid s i <-> length i = length s /\ forall n, (n < length s)%nat -> 0 <= nth n i 0 < nth n s 0.
Proof.
  unfold valid. split.
  - induction 1; simpl.
    + split; auto. intros; lia.
    + destruct IHForall2 as [H1 H2]. split; [lia|]. intros [|n] Hn; auto. apply H2; lia.
  - revert i; induction s; destruct i; simpl; intros [H1 H2]; try discriminate; constructor.
    + apply (H2 0%nat); lia.
    + apply IHs. split; [lia|]. intros n Hn. apply (H2 (S n)); lia.
Qed.
Lemma valid_length s i : valid s i -> length i = length s.
Proof. intros H; apply valid_iff in H; tauto. Qed.
Lemma valid_nth s i n : valid s i -> (n < length s)%nat -> 0 <= nth n i 0 < nth n s 0.
Proof. intros H; apply valid_iff in H; destruct H; auto. Qed.
Lemma valid_upd s i n v m :
  valid s i -> 0 <= v < m -> valid (upd n m s) (upd n v i).
Proof.
  rewrite !valid_iff, !upd_length. intros [H1 H2] H. split; auto.
  intros k Hk. rewrite !nth_upd, H1. destruct (Nat.eqb_spec n k); simpl.
  - subst. destruct (Nat.ltb_spec k (length s)); auto; lia.
  - auto.
Qed.
Lemma valid_upd_in s i n v :
  valid s i -> 0 <= v < nth n s 0 -> valid s (upd n v i).
Proof. intros. rewrite <- (upd_nth n s 0). apply valid_upd; auto. Qed.
Lemma valid_cons n s k i : valid (n :: s) (k :: i) <-> 0 <= k < n /\ valid s i.
Proof. unfold valid. split; intros H; [inv H; auto|destruct H; constructor; auto]. Qed.

Lemma teq_refl {A} (t : tensor A) : teq t t.
Proof. split; auto. Qed.
Lemma teq_sym {A} (t u : tensor A) : teq t u -> teq u t.
Proof. intros [H1 H2]. split; auto. intros. rewrite H2; auto. now rewrite H1. Qed.
Lemma teq_trans {A} (t u v : tensor A) : teq t u -> teq u v -> teq t v.
Proof. intros [H1 H2] [H3 H4]. split; [congruence|]. intros. rewrite H2, H4; auto. now rewrite <- H1. Qed.
