(** Facts about broadcasting, slicing and slice assignment. *)
From Verif Require Export BaseLemmas.

(** ** Broadcasting, seen on reversed shapes *)
Definition dim1 (n k : Z) : Z := if n =? 1 then 0 else k.
Fixpoint erev (s u : list Z) : bool :=
  match s, u with
  | [], _ => true
  | a :: s', b :: u' => ((a =? b) || (a =? 1)) && erev s' u'
  | _ :: _, [] => false
  end.

Lemma map2_app {A B C} (f : A -> B -> C) l1 l2 m1 m2 :
  length l1 = length m1 -> map2 f (l1 ++ l2) (m1 ++ m2) = map2 f l1 m1 ++ map2 f l2 m2.
Proof. revert m1; induction l1; destruct m1; simpl; intros; try discriminate; auto. f_equal; auto. Qed.

Lemma map2_rev {A B C} (f : A -> B -> C) l m :
  length l = length m -> map2 f (rev l) (rev m) = rev (map2 f l m).
Proof.
  revert m; induction l; destruct m; simpl; intros; try discriminate; auto.
  rewrite map2_app by (rewrite !rev_length; lia). rewrite IHl by lia. reflexivity.
Qed.

Lemma all2_app {A B} (f : A -> B -> bool) l1 l2 m1 m2 :
  length l1 = length m1 -> all2 f (l1 ++ l2) (m1 ++ m2) = all2 f l1 m1 && all2 f l2 m2.
Proof. revert m1; induction l1; destruct m1; simpl; intros; try discriminate; auto. rewrite IHl1 by lia. now rewrite andb_assoc. Qed.

Lemma all2_rev {A B} (f : A -> B -> bool) l m :
  length l = length m -> all2 f (rev l) (rev m) = all2 f l m.
Proof.
  revert m; induction l; destruct m; simpl; intros; try discriminate; auto.
  rewrite all2_app by (rewrite !rev_length; lia). rewrite IHl by lia. simpl.
  rewrite andb_true_r. apply andb_comm.
Qed.

Lemma map2_firstn_r {A B C} (f : A -> B -> C) l m n :
  (length l <= n)%nat -> map2 f l (firstn n m) = map2 f l m.
Proof.
  revert m n; induction l; destruct m, n; simpl; intros; try lia; auto.
  rewrite IHl by lia. reflexivity.
Qed.

Lemma bidx_rev vs i :
  (length vs <= length i)%nat -> bidx vs i = rev (map2 dim1 (rev vs) (rev i)).
Proof.
  intros H. unfold bidx, dim1.
  rewrite <- (map2_firstn_r _ (rev vs) (rev i) (length vs)) by (rewrite rev_length; lia).
  rewrite firstn_rev. rewrite map2_rev. 2: rewrite skipn_length; lia.
  now rewrite rev_involutive.
Qed.

Lemma erev_all2_firstn s u :
  (length s <= length u)%nat ->
  all2 (fun a b => (a =? b) || (a =? 1)) s (firstn (length s) u) = erev s u.
Proof. revert u; induction s; destruct u; simpl; intros; try lia; auto. now rewrite IHs by lia. Qed.

Lemma erev_length s u : erev s u = true -> (length s <= length u)%nat.
Proof. revert u; induction s; destruct u; simpl; intros; try discriminate; try lia. bdestr. apply IHs in H0. lia. Qed.

Lemma expandable_rev vs ts : expandable vs ts = erev (rev vs) (rev ts).
Proof.
  unfold expandable. destruct (Nat.leb_spec (length vs) (length ts)); simpl.
  - rewrite <- erev_all2_firstn by (rewrite !rev_length; lia).
    rewrite rev_length, firstn_rev. rewrite all2_rev; auto. rewrite skipn_length; lia.
  - destruct (erev (rev vs) (rev ts)) eqn:E; auto.
    apply erev_length in E. rewrite !rev_length in E. lia.
Qed.

Lemma bshape_rev_ok s t u :
  erev s u = true -> erev t u = true ->
  exists w, bshape_rev s t = Some w /\ erev w u = true /\
    (forall i, map2 dim1 s (map2 dim1 w i) = map2 dim1 s i) /\
    (forall i, map2 dim1 t (map2 dim1 w i) = map2 dim1 t i).
Proof.
  revert t u; induction s as [|a s IH]; intros t u Hs Ht.
  - exists t. split; [reflexivity|]. split; [exact Ht|]. split; [reflexivity|]. intros i. clear. revert i.
    induction t; destruct i; simpl; auto. f_equal; auto. unfold dim1. zcase; auto.
  - destruct t as [|b t].
    + exists (a :: s). split; [reflexivity|]. split; [exact Hs|]. split; [|reflexivity]. intros i.
      clear. generalize (a :: s) as l. clear. intros l. revert i.
      induction l; destruct i; simpl; auto. f_equal; auto. unfold dim1. zcase; auto.
    + destruct u as [|c u]; [discriminate|]. simpl in *. bdestr.
      destruct (IH t u) as [w [Hw [He [H3 H4]]]]; auto. rewrite Hw.
      assert (Hb : exists x, bdim a b = Some x /\ (x = c \/ x = 1) /\ (x = 1 -> a = 1 /\ b = 1)).
      { apply orb_true_iff in H, H1. rewrite !Z.eqb_eq in *. unfold bdim.
        destruct (Z.eqb_spec a b); [exists a; split; [reflexivity|lia]|].
        destruct (Z.eqb_spec a 1); [exists b; split; [reflexivity|lia]|].
        destruct (Z.eqb_spec b 1); [exists a; split; [reflexivity|lia]|]. lia. }
      destruct Hb as [x [Hx [Hx1 Hx2]]]. rewrite Hx. exists (x :: w). split; auto. split.
      { apply andb_true_iff; split; auto. apply orb_true_iff. rewrite !Z.eqb_eq. auto. }
      split; intros [|k i]; simpl; auto; f_equal; auto; unfold dim1;
        destruct (Z.eqb_spec x 1); auto; destruct Hx2; auto; subst;
        repeat zcase; congruence.
Qed.

Lemma bshape_rev_length s r w :
  bshape_rev s r = Some w -> (length s <= length w /\ length r <= length w)%nat.
Proof.
  revert r w; induction s as [|a s IHs]; destruct r as [|z r]; simpl; intros w Hw;
    try (inv Hw; simpl; lia).
  destruct (bdim a z); [|discriminate]. destruct (bshape_rev s r) eqn:E; [|discriminate].
  apply IHs in E. inv Hw. simpl. lia.
Qed.

(** [brep v S g]: broadcast to shape S, tensor v reads as g. *)
Definition brep {A} (v : tensor A) (S : list Z) (g : list Z -> A) : Prop :=
  expandable (shp v) S = true /\ forall i, valid S i -> at_ v (bidx (shp v) i) = g i.

Lemma expandable_length s t : expandable s t = true -> (length s <= length t)%nat.
Proof. unfold expandable. intros H. bdestr. now apply Nat.leb_le. Qed.

Lemma bidx_length vs i : (length vs <= length i)%nat -> length (bidx vs i) = length vs.
Proof. intros. unfold bidx. rewrite map2_length, skipn_length. lia. Qed.

Lemma tmap2_brep {A B C} (f : A -> B -> C) t u S g h :
  brep t S g -> brep u S h ->
  exists w, tmap2 f t u = Ok w /\ brep w S (fun i => f (g i) (h i)).
Proof.
  intros [Ht1 Ht2] [Hu1 Hu2]. unfold tmap2, bshape.
  pose proof (expandable_length _ _ Ht1) as Lt. pose proof (expandable_length _ _ Hu1) as Lu.
  rewrite expandable_rev in Ht1, Hu1.
  destruct (bshape_rev_ok _ _ _ Ht1 Hu1) as [w [Hw [He [H3 H4]]]].
  rewrite Hw. eexists; split; [reflexivity|]. split; simpl.
  - rewrite expandable_rev, rev_involutive. auto.
  - intros i Hi. pose proof (valid_length _ _ Hi) as Li.
    assert (Lw : (length (rev w) <= length i)%nat).
    { apply erev_length in He. rewrite rev_length in *. lia. }
    assert (Lw1 : (length (shp t) <= length (rev w))%nat /\ (length (shp u) <= length (rev w))%nat).
    { apply bshape_rev_length in Hw. rewrite !rev_length in *. lia. }
    rewrite (bidx_rev (shp t)), (bidx_rev (shp u)) by (rewrite bidx_length; lia).
    rewrite (bidx_rev (rev w)) by lia. rewrite !rev_involutive, H3, H4.
    rewrite <- !bidx_rev by lia. now rewrite Ht2, Hu2.
Qed.

Lemma bidx_same S i : valid S i -> bidx S i = i.
Proof.
  intros H. pose proof (valid_length _ _ H). unfold bidx. rewrite H0, Nat.sub_diag. simpl.
  induction H; simpl; auto. f_equal; auto.
  destruct (Z.eqb_spec x 1); lia.
Qed.

Lemma expandable_refl S : expandable S S = true.
Proof.
  unfold expandable. rewrite Nat.leb_refl, Nat.sub_diag. simpl.
  induction S; simpl; auto. rewrite Z.eqb_refl. simpl. auto.
Qed.

(** A tensor represents itself at its own shape. *)
Lemma brep_self {A} (t : tensor A) : brep t (shp t) (at_ t).
Proof. split; [apply expandable_refl|]. intros i Hi. now rewrite bidx_same. Qed.

Lemma brep_ext {A} (v : tensor A) S g h :
  brep v S g -> (forall i, valid S i -> g i = h i) -> brep v S h.
Proof. intros [H1 H2] H. split; auto. intros. rewrite H2; auto. Qed.

Lemma brep_full {A} (t : tensor A) S g :
  shp t = S -> (forall i, valid S i -> at_ t i = g i) -> brep t S g.
Proof. intros <- H. eapply brep_ext; [apply brep_self|auto]. Qed.

Lemma tmap_brep {A B} (f : A -> B) t S g : brep t S g -> brep (tmap f t) S (fun i => f (g i)).
Proof. intros [H1 H2]. split; auto. intros. simpl. now rewrite H2. Qed.

Lemma tscalar_brep {A} (c : A) S : brep (tscalar c) S (fun _ => c).
Proof. split; auto. unfold expandable; simpl. now rewrite Nat.sub_0_r, skipn_all. Qed.

(** Elementwise operation on two tensors of the same shape. *)
Lemma bdim_same a : bdim a a = Some a.
Proof. unfold bdim. now rewrite Z.eqb_refl. Qed.
Lemma bshape_rev_same s : bshape_rev s s = Some s.
Proof. induction s; simpl; auto. now rewrite bdim_same, IHs. Qed.
Lemma bshape_same s : bshape s s = Some s.
Proof. unfold bshape. rewrite bshape_rev_same. now rewrite rev_involutive. Qed.
Lemma tmap2_same {A B C} (f : A -> B -> C) t u :
  shp t = shp u ->
  exists w, tmap2 f t u = Ok w /\ shp w = shp t /\
    forall i, valid (shp t) i -> at_ w i = f (at_ t i) (at_ u i).
Proof.
  intros H. unfold tmap2. rewrite <- H, bshape_same. eexists; split; [reflexivity|]. split; auto.
  intros i Hi. simpl. rewrite !bidx_same; auto.
Qed.

(** ** Resolving slices *)
Lemma clampi_in n i : 0 <= i <= n -> clampi n i = i.
Proof. intros. unfold clampi. destruct (Z.ltb_spec i 0); lia. Qed.

Lemma resolve_srng n a b : 0 <= a <= b -> b <= n -> resolve n (srng a b) = mkR a (b - a) 1.
Proof.
  intros. unfold resolve, srng; simpl. rewrite !clampi_in by lia. f_equal.
  rewrite Z.div_1_r. lia.
Qed.
Lemma resolve_sto n b : 0 <= b <= n -> resolve n (sto b) = mkR 0 b 1.
Proof.
  intros. unfold resolve, sto; simpl. rewrite !clampi_in by lia. f_equal.
  rewrite Z.div_1_r. lia.
Qed.
Lemma resolve_sfrom n a : 0 <= a <= n -> resolve n (sfrom a) = mkR a (n - a) 1.
Proof.
  intros. unfold resolve, sfrom; simpl. rewrite !clampi_in by lia. f_equal.
  rewrite Z.div_1_r. lia.
Qed.
Lemma resolve_sfull n : 0 <= n -> resolve n sfull = mkR 0 n 1.
Proof. intros. unfold resolve, sfull; simpl. f_equal. rewrite Z.div_1_r. lia. Qed.

Lemma resolve_st n s : r_st (resolve n s) = s_st s.
Proof. reflexivity. Qed.
Lemma clampi_range n i : 0 <= n -> 0 <= clampi n i <= n.
Proof. unfold clampi. destruct (i <? 0); lia. Qed.
Lemma resolve_range n s : 0 <= n -> s_st s = 1 ->
  0 <= r_lo (resolve n s) <= n /\ 0 <= r_len (resolve n s) /\
  (0 < r_len (resolve n s) -> r_lo (resolve n s) + r_len (resolve n s) <= n).
Proof.
  intros Hn H1. unfold resolve; simpl. rewrite H1, !Z.div_1_r.
  destruct (s_lo s) as [a|]; destruct (s_hi s) as [b|];
    try pose proof (clampi_range n a Hn); try pose proof (clampi_range n b Hn); lia.
Qed.
