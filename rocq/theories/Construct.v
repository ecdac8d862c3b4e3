(** How the constructors of the library end, for all arguments (padding/generic_pad.py:37-94, pooling/base.py:99-189,
    pooling/uniform.py:12-22, pooling/gaussian.py:9-128, filtering/edges.py:33-55, 166-233, filtering/sharpen.py,
    metrics/ssim.py:61-73).  Used by PropsConstruct.v. *)
From Coq Require Import Reals Lra.
From Verif Require Export ToSame GaussPool EdgeLossModel MetricsModel.
Open Scope Z_scope.

(** The items of a specification. *)
Definition items {A} (s : nds A) : list A := match s with NItem a => [a] | NList l => l end.
(** Specifications that can be used together, on n positions: all are items and n = 1, or the lists among them have n items. *)
Definition jointly (n : nat) (l : list (option Z)) : Prop :=
  one_length l /\ (In (Some (Z.of_nat n)) l \/ n = 1%nat /\ forall k, ~ In (Some k) l).

Lemma agg_len_cases l : (one_length l -> exists n, agg_index_len l = Ok n /\ (forall k, In (Some k) l -> n = k) /\ ((forall k, ~ In (Some k) l) -> n = 0)) /\
  (~ one_length l -> agg_index_len l = Err ValueError).
Proof.
  split.
  - intros H. destruct (proj2 (agg_len_iff l) H) as [n E]. exists n. split; auto. unfold agg_index_len in E.
    destruct (agg_index_shape l) as [o|] eqn:EO; [|discriminate]. cbn in E. inv E. apply agg_one_length in EO as [OL HO]. split.
    + intros k Hk. destruct o as [n|]; [now apply H|destruct (HO k Hk)].
    + intros N. destruct o as [n|]; [destruct (N n HO)|reflexivity].
  - intros H. destruct (agg_index_len l) as [n|e] eqn:E; [destruct H; apply agg_len_iff; eauto|]. f_equal. now apply agg_len_err in E.
Qed.
Lemma agg_shape_cases l : (one_length l -> exists o, agg_index_shape l = Ok o /\ match o with None => forall n, ~ In (Some n) l | Some n => In (Some n) l end) /\
  (~ one_length l -> agg_index_shape l = Err ValueError).
Proof.
  destruct (agg_len_cases l) as [P Q]. split.
  - intros H. destruct (P H) as [n [E _]]. unfold agg_index_len in E. destruct (agg_index_shape l) as [o|] eqn:EO; [|discriminate].
    exists o. split; auto. now apply agg_one_length in EO as [_ HO].
  - intros H. specialize (Q H). unfold agg_index_len in Q. destruct (agg_index_shape l); cbn in Q; [discriminate|congruence].
Qed.

Lemma mapM_err {A B} (f : A -> res B) l1 a l2 e : (forall v, In v l1 -> exists b, f v = Ok b) -> f a = Err e -> mapM f (l1 ++ a :: l2) = Err e.
Proof.
  intros H E. induction l1 as [|v l1 IH]; cbn [app mapM]; [now rewrite E|]. destruct (H v (or_introl eq_refl)) as [b ->]. cbn [bind].
  rewrite IH by (intros; apply H; now right). reflexivity.
Qed.
Lemma zrange_at n r : 0 <= r < n -> exists l2, zrange n = zrange r ++ r :: l2.
Proof.
  intros H. exists (zseq (r + 1) (Z.to_nat (n - r - 1))). unfold zrange. replace (Z.to_nat n) with (Z.to_nat r + S (Z.to_nat (n - r - 1)))%nat by lia.
  assert (G : forall a k m, zseq a (k + S m) = zseq a k ++ (a + Z.of_nat k) :: zseq (a + Z.of_nat k + 1) m).
  { intros a k. revert a. induction k as [|k IH]; intros a m; cbn [zseq app Nat.add]; [rewrite Z.add_0_r; reflexivity|].
    rewrite IH. replace (a + 1 + Z.of_nat k) with (a + Z.of_nat (S k)) by lia. reflexivity. }
  rewrite G. repeat f_equal; lia.
Qed.

(** NdSpec.apply on three specifications: evaluated left to right, up to the first error. *)
Lemma apply3_ends {A B C D} (f : A -> B -> C -> res D) a b c (da : A) (db : B) (dc : C) :
  (~ one_length (lengths3 a b c) -> nds_apply3 f a b c = Err ValueError) /\
  forall n la lb lc, jointly n (lengths3 a b c) -> expand n a = Some la -> expand n b = Some lb -> expand n c = Some lc ->
    let h r := f (nth r la da) (nth r lb db) (nth r lc dc) in
    ((forall r, (r < n)%nat -> exists d, h r = Ok d) ->
     exists w, nds_apply3 f a b c = Ok w /\ agg_index_shape (lengths3 a b c) = Ok (nds_ishape w) /\
       exists l, expand n w = Some l /\ items w = l /\ length l = n /\ forall r dd, (r < n)%nat -> h r = Ok (nth r l dd)) /\
    (forall r e, (r < n)%nat -> (forall r', (r' < r)%nat -> exists d, h r' = Ok d) -> h r = Err e -> nds_apply3 f a b c = Err e).
Proof.
  split; [intros H; unfold nds_apply3; fold (lengths3 a b c); now rewrite (proj2 (agg_shape_cases (lengths3 a b c)) H)|].
  intros n la lb lc [OL J] Ha Hb Hc h. unfold nds_apply3. destruct (proj1 (agg_shape_cases (lengths3 a b c)) OL) as [o [E HO]].
  fold (lengths3 a b c). rewrite E. cbn [bind]. destruct o as [n'|].
  - destruct J as [J|[_ J]]; [|destruct (J n' HO)]. assert (n' = Z.of_nat n) by (now apply OL). subst n'.
    assert (G : forall r, (r < n)%nat -> (x <- nds_get a (Z.of_nat r) ;; y <- nds_get b (Z.of_nat r) ;; z <- nds_get c (Z.of_nat r) ;; f x y z) = h r).
    { intros r Hr. rewrite (expand_get n a la _ da Ha), (expand_get n b lb _ db Hb), (expand_get n c lc _ dc Hc) by auto. reflexivity. }
    split.
    + intros H. destruct (mapM _ (zrange (Z.of_nat n))) as [ds|e] eqn:EM.
      * cbn [bind]. exists (NList ds). split; auto. pose proof (mapM_length _ _ _ EM) as L. rewrite zrange_length, Nat2Z.id in L.
        split; [cbn [nds_ishape]; now rewrite L|]. exists ds. cbn [expand items]. rewrite L, Nat.eqb_refl. do 3 (split; auto).
        intros r dd Hr. rewrite <- (G r Hr). pose proof (mapM_nth _ _ _ r 0 dd EM) as X. rewrite zrange_length, Nat2Z.id, nth_zrange in X by lia. apply X. auto.
      * exfalso. assert (exists i, 0 <= i < Z.of_nat n /\ forall d, (x <- nds_get a i ;; y <- nds_get b i ;; z <- nds_get c i ;; f x y z) <> Ok d).
        { revert EM. assert (X : forall i, In i (zrange (Z.of_nat n)) -> 0 <= i < Z.of_nat n) by (intros i Hi; now apply In_zrange in Hi).
          revert X. generalize (zrange (Z.of_nat n)). induction l as [|i l IH]; cbn [mapM]; [discriminate|]. intros X EM.
          destruct (x <- nds_get a i ;; y <- nds_get b i ;; z <- nds_get c i ;; f x y z) as [d|e'] eqn:EI.
          - cbn [bind] in EM. destruct (mapM _ l) as [ds|e'']; [discriminate|]. cbn in EM. inv EM. apply IH; auto. intros; apply X; now right.
          - exists i. split; [apply X; now left|]. intros d. rewrite EI. discriminate. }
        destruct H0 as [i [Hi N]]. destruct (H (Z.to_nat i)) as [d Hd]; [lia|]. apply (N d). rewrite <- (Z2Nat.id i) by lia. rewrite G by lia. exact Hd.
    + intros r e Hr Hb' He. destruct (zrange_at (Z.of_nat n) (Z.of_nat r)) as [l2 ->]; [lia|]. rewrite (mapM_err _ _ _ _ e); [reflexivity| |].
      * intros i Hi. apply In_zrange in Hi. destruct (Hb' (Z.to_nat i)) as [d Hd]; [lia|]. exists d. rewrite <- (Z2Nat.id i) by lia. rewrite G by lia. exact Hd.
      * rewrite G by auto. exact He.
  - destruct J as [J|[-> _]]; [destruct (HO _ J)|].
    assert (XA : exists va, a = NItem va) by (destruct a as [va|k]; [eauto|exfalso; apply (HO (Z.of_nat (length k))); now left]). destruct XA as [va ->].
    assert (XB : exists va, b = NItem va) by (destruct b as [vb|k]; [eauto|exfalso; apply (HO (Z.of_nat (length k))); right; now left]). destruct XB as [vb ->].
    assert (XC : exists va, c = NItem va) by (destruct c as [vc|k]; [eauto|exfalso; apply (HO (Z.of_nat (length k))); right; right; now left]). destruct XC as [vc ->].
    cbn in Ha, Hb, Hc. inv Ha. inv Hb. inv Hc. cbn [nds_get bind]. split.
    + intros H. destruct (H 0%nat) as [d Hd]; [lia|]. unfold h in Hd. cbn [nth] in Hd. rewrite Hd. cbn [bind]. exists (NItem d). split; auto. split; auto.
      exists [d]. do 3 (split; [reflexivity|]). intros [|r] dd Hr; [exact Hd|lia].
    + intros r e Hr _ He. assert (r = 0%nat) by lia. subst r. unfold h in He. cbn [nth] in He. now rewrite He.
Qed.
Lemma apply2_3 {A B D} (f : A -> B -> res D) a b : nds_apply2 f a b = nds_apply3 (fun x y (_ : unit) => f x y) a b (NItem tt).
Proof. reflexivity. Qed.
Definition lengths2 {A B} (a : nds A) (b : nds B) := [nds_ishape a; nds_ishape b].
Lemma one_length_2 {A B} (a : nds A) (b : nds B) : one_length (lengths3 a b (NItem tt)) <-> one_length (lengths2 a b).
Proof. split; intros H p q Hp Hq; apply H; cbn in *; intuition congruence. Qed.
Lemma jointly_2 {A B} (a : nds A) (b : nds B) n : jointly n (lengths3 a b (NItem tt)) <-> jointly n (lengths2 a b).
Proof.
  unfold jointly. rewrite one_length_2.
  assert (X : forall k, In (Some k) (lengths3 a b (NItem tt)) <-> In (Some k) (lengths2 a b)) by (intros k; cbn; intuition congruence).
  rewrite X. split; (intros [P [Q|[Q R]]]; split; auto); right; split; auto; intros k; specialize (R k); now rewrite X in *.
Qed.
Lemma apply2_ends {A B D} (f : A -> B -> res D) a b (da : A) (db : B) :
  (~ one_length (lengths2 a b) -> nds_apply2 f a b = Err ValueError) /\
  forall n la lb, jointly n (lengths2 a b) -> expand n a = Some la -> expand n b = Some lb ->
    let h r := f (nth r la da) (nth r lb db) in
    ((forall r, (r < n)%nat -> exists d, h r = Ok d) ->
     exists w, nds_apply2 f a b = Ok w /\ agg_index_shape (lengths2 a b) = Ok (nds_ishape w) /\
       exists l, expand n w = Some l /\ items w = l /\ length l = n /\ forall r dd, (r < n)%nat -> h r = Ok (nth r l dd)) /\
    (forall r e, (r < n)%nat -> (forall r', (r' < r)%nat -> exists d, h r' = Ok d) -> h r = Err e -> nds_apply2 f a b = Err e).
Proof.
  destruct (apply3_ends (fun x y (_ : unit) => f x y) a b (NItem tt) da db tt) as [P Q]. split.
  - intros H. rewrite apply2_3. apply P. now rewrite one_length_2.
  - intros n la lb J Ha Hb. apply jointly_2 in J. destruct (Q n la lb (repeat tt n) J Ha Hb eq_refl) as [R S].
    rewrite apply2_3. split; auto.
Qed.
(** Specifications that can be used together expand to a common number of positions. *)
Lemma jointly_ex {A B C} (a : nds A) (b : nds B) (c : nds C) : one_length (lengths3 a b c) ->
  exists n la lb lc, jointly n (lengths3 a b c) /\ expand n a = Some la /\ expand n b = Some lb /\ expand n c = Some lc.
Proof.
  intros OL. assert (E : exists n, jointly n (lengths3 a b c)).
  { destruct a as [va|la]; [|exists (length la); split; auto; left; now left]. destruct b as [vb|lb]; [|exists (length lb); split; auto; left; right; now left].
    destruct c as [vc|lc]; [|exists (length lc); split; auto; left; right; right; now left]. exists 1%nat. split; auto. right. split; auto. cbn. intros k [H|[H|[H|[]]]]; discriminate. }
  destruct E as [n J]. assert (X : forall T (s : nds T), In (nds_ishape s) (lengths3 a b c) -> exists l, expand n s = Some l).
  { intros T [v|l] Hs; [eexists; reflexivity|]. cbn [expand]. destruct (Nat.eqb_spec (length l) n) as [|N]; [eauto|]. exfalso. destruct J as [_ [J|[_ J]]]; [|apply (J _ Hs)].
    apply N. apply Nat2Z.inj. now apply OL. }
  destruct (X _ a) as [la Ha]; [now left|]. destruct (X _ b) as [lb Hb]; [right; now left|]. destruct (X _ c) as [lc Hc]; [right; right; now left|].
  exists n, la, lb, lc. auto.
Qed.

(** ** Padder *)
Lemma map_check_ok {A} (f : A -> res A) (good : A -> Prop) s : (forall a, good a -> f a = Ok a) -> (forall a, ~ good a -> f a = Err ValueError) ->
  (forall a, good a \/ ~ good a) ->
  ((forall a, In a (items s) -> good a) -> nds_map f s = Ok s) /\ ((exists a, In a (items s) /\ ~ good a) -> nds_map f s = Err ValueError).
Proof.
  intros G B D. destruct s as [a|l]; cbn [items nds_map].
  - split; [intros H; rewrite G by (apply H; now left); reflexivity|]. intros [v [[<-|[]] H]]. now rewrite B.
  - assert (X : ((forall a, In a l -> good a) -> mapM f l = Ok l) /\ ((exists a, In a l /\ ~ good a) -> mapM f l = Err ValueError)).
    { induction l as [|v l [IH1 IH2]]; [split; [reflexivity|intros [? [[] _]]]|]. cbn [mapM]. split.
      - intros H. rewrite G by (apply H; now left). cbn [bind]. rewrite IH1 by (intros; apply H; now right). reflexivity.
      - intros [w [[<-|Hw] N]]; [now rewrite B|]. destruct (D v) as [Y|Y]; [|now rewrite B]. rewrite G by auto. cbn [bind]. rewrite IH2 by eauto. reflexivity. }
    destruct X as [X1 X2]. split; intros H; [now rewrite X1|now rewrite X2].
Qed.
Section P.
Variable F : ofield.
Theorem padder_ends w m c e s :
  let good := (forall b a, In (b, a) (items w) -> 0 <= b /\ 0 <= a) /\
    one_length [nds_ishape w; nds_ishape m; nds_ishape c; nds_ishape e; nds_ishape s] in
  (good -> exists n, @padder_init F w m c e s = Ok (mkPadder w m c e s n) /\
     (forall k, In (Some k) [nds_ishape w; nds_ishape m; nds_ishape c; nds_ishape e; nds_ishape s] -> n = k) /\
     ((forall k, ~ In (Some k) [nds_ishape w; nds_ishape m; nds_ishape c; nds_ishape e; nds_ishape s]) -> n = 0)) /\
  (~ good -> @padder_init F w m c e s = Err ValueError).
Proof.
  intros good. unfold padder_init.
  destruct (map_check_ok (fun p => check_pad_width (fst p) (snd p)) (fun p => 0 <= fst p /\ 0 <= snd p) w) as [M1 M2].
  { intros [b a] [P Q]. unfold check_pad_width. cbn [fst snd] in *. destruct (Z.ltb_spec b 0); [lia|]. destruct (Z.ltb_spec a 0); [lia|reflexivity]. }
  { intros [b a] N. unfold check_pad_width. cbn [fst snd] in *. destruct (Z.ltb_spec b 0); [reflexivity|]. destruct (Z.ltb_spec a 0); [reflexivity|]. destruct N. auto. }
  { intros [b a]. cbn [fst snd]. lia. }
  set (sh := [nds_ishape w; nds_ishape m; nds_ishape c; nds_ishape e; nds_ishape s]) in *. destruct (agg_len_cases sh) as [A1 A2].
  split.
  - intros [W O]. rewrite M1 by (intros [b a] H; now apply W). cbn [bind]. unfold align_ndim. destruct (A1 O) as [n [E R]]. fold sh. rewrite E. exists n. auto.
  - intros N. assert (D : (exists p, In p (items w) /\ ~ (0 <= fst p /\ 0 <= snd p)) \/ (forall p, In p (items w) -> 0 <= fst p /\ 0 <= snd p)).
    { clear. induction (items w) as [|p l IH]; [right; intros ? []|]. destruct IH as [[q [Hq H]]|H]; [left; exists q; split; [now right|auto]|].
      assert (X : (0 <= fst p /\ 0 <= snd p) \/ ~ (0 <= fst p /\ 0 <= snd p)) by lia. destruct X; [right; intros q [<-|Hq]; auto|left; exists p; split; [now left|auto]]. }
    destruct D as [D|D]; [now rewrite M2|]. rewrite M1 by auto. cbn [bind]. unfold align_ndim. fold sh. rewrite A2; [reflexivity|].
    intros O. apply N. split; auto. intros b a H. now apply (D (b, a)).
Qed.

(** ** SeparablePoolNd and AvgPoolNd *)
Lemma len_spec_ishape (k : nds (list F)) : nds_ishape (len_spec k) = nds_ishape k.
Proof. destruct k; cbn; [reflexivity|now rewrite map_length]. Qed.
Theorem sep_ends (k : nds (list F)) st pd :
  let good := (forall s, In (Some s) (items st) -> 1 <= s) /\ one_length [nds_ishape k; nds_ishape st] in
  (good -> exists m, sep_init k st pd = Ok m /\ pl_kernel m = k /\ pl_padder m = pd /\
     (forall n, In (Some n) [nds_ishape k; nds_ishape st] -> pl_ndim m = n) /\ ((forall n, ~ In (Some n) [nds_ishape k; nds_ishape st]) -> pl_ndim m = 0)) /\
  (~ good -> sep_init k st pd = Err ValueError).
Proof.
  intros good. unfold sep_init, read_stride.
  destruct (map_check_ok check_stride (fun s => match s with Some s => 1 <= s | None => True end) st) as [M1 M2].
  { intros [s|] H; [|reflexivity]. cbn. destruct (Z.ltb_spec s 1); [lia|reflexivity]. }
  { intros [s|] H; [|destruct H; exact I]. cbn. destruct (Z.ltb_spec s 1); [reflexivity|destruct H; lia]. }
  { intros [s|]; [lia|now left]. }
  pose (g := fun (s : option Z) (ks : Z) => match s with None => ks | Some s => s end).
  destruct (apply2_ends (fun s ks => Ok (g s ks)) st (len_spec k) None 0) as [A1 A2]. fold g.
  assert (OE : one_length (lengths2 st (len_spec k)) <-> one_length [nds_ishape k; nds_ishape st]).
  { unfold lengths2. rewrite len_spec_ishape. split; intros H a b Ha Hb; apply H; cbn in *; intuition congruence. }
  split.
  - intros [S O]. rewrite M1 by (intros [s|] H; auto). cbn [bind].
    assert (O' : one_length (lengths3 st (len_spec k) (NItem tt))) by (apply one_length_2, OE, O).
    destruct (jointly_ex st (len_spec k) (NItem tt) O') as [n [la [lb [lc [J [Ha [Hb _]]]]]]]. apply jointly_2 in J.
    destruct (A2 n la lb J Ha Hb) as [B _]. destruct B as [w [E [I _]]]; [eauto|]. unfold g in E. rewrite E. cbn [bind].
    assert (ISO : forall n, In (Some n) [nds_ishape k; nds_ishape w] <-> In (Some n) [nds_ishape k; nds_ishape st]).
    { intros z. apply agg_one_length in I as [_ I]. unfold lengths2 in I. rewrite len_spec_ishape in I. destruct (nds_ishape w) as [q|].
      - cbn in I |- *. split; [|intros [H|[H|[]]]; [auto|]].
        + intros [H|[H|[]]]; [auto|]. inv H. destruct I as [H|[H|[]]]; auto.
        + right. left. f_equal. assert (OL := O). destruct I as [I|[I|[]]]; [congruence|]. apply OL; cbn; rewrite ?H, ?I; auto.
      - cbn in I |- *. split; [intros [H|[H|[]]]; [auto|discriminate]|]. intros [H|[H|[]]]; [auto|]. exfalso. apply (I z). rewrite H. auto. }
    assert (O2 : one_length [nds_ishape k; nds_ishape w]) by (intros a b Hp Hq; apply O; now apply ISO).
    unfold pool_align. destruct (proj1 (agg_len_cases _) O2) as [nd [EN [N1 N2]]]. rewrite EN. cbn [bind]. eexists. split; [reflexivity|]. cbn [pl_kernel pl_padder pl_ndim].
    split; [auto|]. split; [auto|]. split; [intros z Hz; apply N1; now apply ISO|]. intros H. apply N2. intros z Hz. apply (H z). now apply ISO.
  - intros N. assert (D : (exists s, In s (items st) /\ ~ match s with Some s => 1 <= s | None => True end) \/ (forall s, In s (items st) -> match s with Some s => 1 <= s | None => True end)).
    { clear. induction (items st) as [|p l IH]; [right; intros ? []|]. destruct IH as [[q [Hq H]]|H]; [left; exists q; split; [now right|auto]|].
      assert (X : match p with Some s => 1 <= s | None => True end \/ ~ match p with Some s => 1 <= s | None => True end) by (destruct p; [lia|now left]).
      destruct X as [X|X]; [right; intros q [<-|Hq]; [exact X|exact (H q Hq)]|left; exists p; split; [now left|auto]]. }
    destruct D as [D|D]; [now rewrite M2|]. rewrite M1 by auto. cbn [bind]. unfold g in A1. rewrite A1; [reflexivity|]. rewrite OE. intros O. apply N. split; auto.
    intros s Hs. exact (D (Some s) Hs).
Qed.
Theorem avg_ends ks st pd :
  let good := (forall k, In k (items ks) -> 0 <= k) /\ (forall s, In (Some s) (items st) -> 1 <= s) /\ one_length [nds_ishape ks; nds_ishape st] in
  (good -> exists m : pool F, avg_init ks st pd = Ok m) /\ (~ good -> @avg_init F ks st pd = Err ValueError).
Proof.
  intros good. unfold avg_init.
  assert (M : ((forall k, In k (items ks) -> 0 <= k) -> exists kers, nds_map (@avg_kernel_1d F) ks = Ok kers /\ nds_ishape kers = nds_ishape ks) /\
    ((exists k, In k (items ks) /\ k < 0) -> nds_map (@avg_kernel_1d F) ks = Err ValueError)).
  { assert (OKK : forall k, 0 <= k -> exists v, @avg_kernel_1d F k = Ok v) by (intros k Hk; unfold avg_kernel_1d; destruct (Z.ltb_spec k 0); [lia|eauto]).
    assert (BAD : forall k, k < 0 -> @avg_kernel_1d F k = Err ValueError) by (intros k Hk; unfold avg_kernel_1d; destruct (Z.ltb_spec k 0); [auto|lia]).
    destruct ks as [k|l]; cbn [items nds_map].
    - split; [intros H; destruct (OKK k) as [v ->]; [apply H; now left|]; cbn; eauto|]. intros [z [[<-|[]] H]]. now rewrite BAD.
    - assert (X : ((forall a, In a l -> 0 <= a) -> exists r, mapM (@avg_kernel_1d F) l = Ok r) /\ ((exists a, In a l /\ a < 0) -> mapM (@avg_kernel_1d F) l = Err ValueError)).
      { induction l as [|v l [IH1 IH2]]; [split; [cbn; eauto|intros [? [[] _]]]|]. cbn [mapM]. split.
        - intros H. destruct (OKK v) as [u ->]; [apply H; now left|]. cbn [bind]. destruct IH1 as [r ->]; [intros; apply H; now right|]. cbn. eauto.
        - intros [z [[<-|Hw] N]]; [now rewrite BAD|]. destruct (Z_lt_dec v 0); [now rewrite BAD|]. destruct (OKK v) as [u ->]; [lia|]. cbn [bind]. rewrite IH2 by eauto. reflexivity. }
      destruct X as [X1 X2]. split; [|intros H; now rewrite X2]. intros H. destruct (X1 H) as [r E]. rewrite E. cbn. eexists. split; [reflexivity|]. cbn. now rewrite (mapM_length _ _ _ E). }
  destruct M as [M1 M2]. split.
  - intros [K [S O]]. destruct (M1 K) as [kers [E I]]. rewrite E. cbn [bind]. destruct (sep_ends kers st pd) as [P _]. rewrite I in P. destruct P as [m [Em _]]; [split; auto|eauto].
  - intros N. assert (D : (exists k, In k (items ks) /\ k < 0) \/ (forall k, In k (items ks) -> 0 <= k)).
    { clear. induction (items ks) as [|p l IH]; [right; intros ? []|]. destruct IH as [[q [Hq H]]|H]; [left; exists q; split; [now right|auto]|].
      destruct (Z_lt_dec p 0); [left; exists p; split; [now left|auto]|right; intros q [<-|Hq]; [lia|auto]]. }
    destruct D as [D|D]; [now rewrite M2|]. destruct (M1 D) as [kers [E I]]. rewrite E. cbn [bind]. destruct (sep_ends kers st pd) as [_ P]. rewrite I in P. apply P.
    intros [S O]. apply N. split; auto.
Qed.
(** ** EdgeFilter, and the modules that turn a pooling layer into a filter *)
Lemma filter_ends (m : pool F) pd : exists f, to_filter m pd = Ok f.
Proof. unfold to_filter, pool_align, agg_index_len, agg_index_shape. destruct (nds_ishape (pl_kernel m)); cbn; eauto. Qed.
Theorem edge_ends ek (sk : nds (list F)) nrm pd sh :
  (forall l, ek = NList l -> edge_init ek sk nrm pd sh = Err ValueError) /\
  (forall k, ek = NItem k -> (nrm = true -> forall u, In u (items sk) -> u <> [] -> lsum u <> f0) ->
     exists e, edge_init ek sk nrm pd sh = Ok e /\ ef_kernel e = k /\ nds_ishape (pl_kernel (ef_smooth e)) = nds_ishape sk).
Proof.
  split; [intros l ->; reflexivity|]. intros k -> H. unfold edge_init.
  assert (S : exists sk', (if nrm then nds_map reweight sk else Ok sk) = Ok sk' /\ nds_ishape sk' = nds_ishape sk).
  { destruct nrm; [|eauto]. specialize (H eq_refl). assert (R : forall u, In u (items sk) -> exists v, reweight u = Ok v).
    { intros [|v u] Hu; [cbn; eauto|]. unfold reweight. rewrite (nonzero_test F) by (apply H; [auto|discriminate]). eauto. }
    destruct sk as [u|l]; cbn [items nds_map] in *; [destruct (R u) as [v ->]; [now left|]; cbn; eauto|].
    assert (X : exists r, mapM (@reweight F) l = Ok r).
    { clear H. induction l as [|v l IH]; [cbn; eauto|]. cbn [mapM]. destruct (R v) as [w ->]; [now left|]. cbn [bind]. destruct IH as [r ->]; [intros; apply R; now right|]. cbn. eauto. }
    destruct X as [r E]. rewrite E. cbn. eexists. split; [reflexivity|]. cbn. now rewrite (mapM_length _ _ _ E). }
  destruct S as [sk' [-> I]]. cbn [bind].
  assert (G : forall q : nds (list F), exists m, sep_init q (NItem None) None = Ok m /\ pl_kernel m = q).
  { intros q. destruct (sep_ends q (NItem None) None) as [P _]. destruct P as [m [E [K _]]]; [|eauto]. split; [intros s [E|[]]; discriminate|].
    intros a b [Ha|[Ha|[]]] [Hb|[Hb|[]]]; cbn in *; congruence. }
  destruct (G (NItem k)) as [m [-> _]]. cbn [bind]. destruct (filter_ends m pd) as [f ->]. cbn [bind].
  destruct (G sk') as [m' [-> K]]. cbn [bind]. destruct (filter_ends m' pd) as [f' E]. rewrite E. cbn [bind]. eexists. split; [reflexivity|]. split; [reflexivity|].
  cbn [ef_smooth]. unfold to_filter in E. destruct (pool_align _ _); [|discriminate]. cbn in E. inv E. cbn [pl_kernel]. exact I.
Qed.
Theorem ssim_ends (b : pool F) pd k1 k2 us cr : exists s, ssim_init b pd k1 k2 us cr = Ok s.
Proof. unfold ssim_init. destruct (filter_ends b pd) as [f ->]. cbn. eauto. Qed.
Theorem unsharp_ends (b : pool F) kind am th pd : exists u, unsharp_init b kind am th pd = Ok u.
Proof. unfold unsharp_init. destruct (filter_ends b pd) as [f ->]. cbn. eauto. Qed.
End P.
