(** How the Gaussian constructors end, for all arguments (pooling/gaussian.py:9-128, filtering/edges.py:166-233,
    contrib/edge_loss.py).  Used by PropsConstruct.v. *)
From Coq Require Import Reals Lra.
From Verif Require Export Construct.
Open Scope Z_scope.

(** gaussian_kernel_1d for all arguments; sizes 0 and below give the empty kernel. *)
Theorem kernel_ends ks sigma order :
  (order < 0 -> gaussian_kernel_1d ks sigma order = Err ValueError) /\
  (0 <= order -> sigma = 0%R -> gaussian_kernel_1d ks sigma order = Err ZeroDivisionError) /\
  (0 <= order -> sigma <> 0%R -> exists k, gaussian_kernel_1d ks sigma order = Ok k /\ Z.of_nat (length k) = Z.max 0 ks).
Proof.
  split; [|split].
  - intros H. unfold gaussian_kernel_1d, gaussian_kernel1d. destruct (Z.ltb_spec order 0); [reflexivity|lia].
  - intros H ->. unfold gaussian_kernel_1d, gaussian_kernel1d. destruct (Z.ltb_spec order 0); [lia|]. destruct (Req_EM_T (0 * 0) 0) as [_|E]; [reflexivity|]. exfalso. apply E. ring.
  - intros Ho Hs. destruct (Z_le_gt_dec 1 ks) as [Hk|Hk].
    { destruct (gauss_any_order ks sigma order Hk Hs Ho) as [k [E L]]. exists k. split; auto. lia. }
    exists []. split; [|cbn; lia].
    destruct (gauss_any_order 1 sigma order ltac:(lia) Hs Ho) as [k1 [E1 _]]. unfold gaussian_kernel_1d in E1. change (1 / 2) with 0 in E1.
    destruct (gaussian_kernel1d sigma order 0) as [k0|] eqn:E0; [|discriminate]. clear E1 k1.
    assert (D : ks = 0 \/ ks / 2 < 0) by (assert (ks = 0 \/ ks < 0) as [->|H] by lia; [now left|right; apply Z.div_lt_upper_bound; lia]).
    destruct D as [->|D].
    + unfold gaussian_kernel_1d. change (0 / 2) with 0. rewrite E0. cbn [bind]. destruct (Z.eqb_spec (Z.of_nat (length (rev k0))) 0) as [L|L].
      * destruct (rev k0); [reflexivity|cbn in L; lia].
      * replace (Z.to_nat (clampi (Z.of_nat (length (rev k0))) 0)) with 0%nat by (unfold clampi; cbn; lia). cbn [firstn map]. destruct (order =? 0); reflexivity.
    + assert (E : gaussian_kernel1d sigma order (ks / 2) = Ok []).
      { revert E0. unfold gaussian_kernel1d. destruct (Z.ltb_spec order 0); [lia|]. destruct (Req_EM_T (sigma * sigma) 0); [discriminate|].
        assert (X : np_arange (- (ks / 2)) (ks / 2 + 1) = []) by (unfold np_arange; replace (Z.to_nat (ks / 2 + 1 - - (ks / 2))) with 0%nat by lia; reflexivity).
        rewrite X. cbn [map length]. destruct (order =? 0); [reflexivity|].
        destruct (tmap2 Rplus _ _) as [Q|]; [|discriminate]. cbn [bind]. destruct (repeatM _ _ _) as [q|]; [|discriminate]. cbn [bind].
        unfold np_dot at 1. unfold np_dot at 1. cbn [shp]. destruct (_ =? Z.of_nat (length q)); [|discriminate]. intros _. reflexivity. }
      unfold gaussian_kernel_1d. rewrite E. cbn [bind rev length]. destruct (Z.of_nat 0 =? ks); [reflexivity|]. rewrite firstn_nil. cbn [map]. destruct (order =? 0); reflexivity.
Qed.

(** GaussianPoolNd: the kernels are computed from left to right; the first bad pair of sigma and order decides. *)
Theorem gauss_ends ks sigma order stride pd :
  (~ one_length (lengths3 ks sigma order) -> gauss_init ks sigma order stride pd = Err ValueError) /\
  forall n lk ls lo, jointly n (lengths3 ks sigma order) -> expand n ks = Some lk -> expand n sigma = Some ls -> expand n order = Some lo ->
    (forall r, (r < n)%nat -> (forall r', (r' < r)%nat -> 0 <= nth r' lo 0 /\ nth r' ls 0%R <> 0%R) ->
       (nth r lo 0 < 0 -> gauss_init ks sigma order stride pd = Err ValueError) /\
       (0 <= nth r lo 0 -> nth r ls 0%R = 0%R -> gauss_init ks sigma order stride pd = Err ZeroDivisionError)) /\
    ((forall r, (r < n)%nat -> 0 <= nth r lo 0 /\ nth r ls 0%R <> 0%R) ->
       let good := (forall s, In (Some s) (items stride) -> 1 <= s) /\ one_length (lengths3 ks sigma order ++ [nds_ishape stride]) in
       (good -> exists m, gauss_init ks sigma order stride pd = Ok m /\ pl_padder m = pd /\
          forall r, (r < n)%nat -> gaussian_kernel_1d (nth r lk 0) (nth r ls 0%R) (nth r lo 0) = Ok (nth r (items (pl_kernel m)) [])) /\
       (~ good -> gauss_init ks sigma order stride pd = Err ValueError)).
Proof.
  destruct (apply3_ends gaussian_kernel_1d ks sigma order 0 0%R 0) as [P Q]. unfold gauss_init.
  split; [intros H; now rewrite P|]. intros n lk ls lo J Hk Hs Ho. destruct (Q n lk ls lo J Hk Hs Ho) as [G B]. clear P Q. split.
  - intros r Hr Hb. assert (Hb' : forall r', (r' < r)%nat -> exists d, gaussian_kernel_1d (nth r' lk 0) (nth r' ls 0%R) (nth r' lo 0) = Ok d).
    { intros r' Hr'. destruct (Hb r' Hr') as [A C]. destruct (kernel_ends (nth r' lk 0) (nth r' ls 0%R) (nth r' lo 0)) as [_ [_ K]]. destruct (K A C) as [k [E _]]. eauto. }
    destruct (kernel_ends (nth r lk 0) (nth r ls 0%R) (nth r lo 0)) as [K1 [K2 _]]. split.
    + intros H. now rewrite (B r ValueError Hr Hb' (K1 H)).
    + intros H H'. now rewrite (B r ZeroDivisionError Hr Hb' (K2 H H')).
  - intros H. destruct G as [w [E [I [l [X [Y [L R]]]]]]].
    { intros r Hr. destruct (H r Hr) as [A C]. destruct (kernel_ends (nth r lk 0) (nth r ls 0%R) (nth r lo 0)) as [_ [_ K]]. destruct (K A C) as [k [E _]]. eauto. }
    rewrite E. cbn [bind]. destruct (sep_ends RF w stride pd) as [S1 S2].
    assert (OE : one_length [nds_ishape w; nds_ishape stride] <-> one_length (lengths3 ks sigma order ++ [nds_ishape stride])).
    { change [nds_ishape w; nds_ishape stride] with (nds_ishape w :: [nds_ishape stride]). now apply one_length_w. }
    split.
    + intros [S O]. destruct S1 as [m [Em [Km [Pm _]]]]; [split; [auto|now apply OE]|]. exists m. split; auto. split; auto. intros r Hr. rewrite Km, ?Y. rewrite <- Y in R. exact (R r [] Hr).
    + intros N. apply S2. intros [S O]. apply N. split; auto. now apply OE.
Qed.

Lemma some_zero (ls : list R) r : (exists r', (r' < r)%nat /\ nth r' ls 0%R = 0%R) \/ forall r', (r' < r)%nat -> nth r' ls 0%R <> 0%R.
Proof.
  induction r as [|r [[r' [A B]]|H]]; [right; intros; lia|left; exists r'; split; [lia|auto]|].
  destruct (Req_dec (nth r ls 0%R) 0) as [E|E]; [left; exists r; split; [lia|auto]|]. right. intros r' Hr'. destruct (Nat.eq_dec r' r) as [->|]; [auto|apply H; lia].
Qed.
Lemma one_length_dec {A B} (a : nds A) (b : nds B) : one_length (lengths2 a b) \/ ~ one_length (lengths2 a b).
Proof.
  destruct a as [va|la]; [left; intros p q Hp Hq; cbn in *; intuition congruence|]. destruct b as [vb|lb]; [left; intros p q Hp Hq; cbn in *; intuition congruence|].
  destruct (Z.eq_dec (Z.of_nat (length la)) (Z.of_nat (length lb))) as [E|E]; [left; intros p q Hp Hq; cbn in *; intuition congruence|].
  right. intros H. apply E. apply H; cbn; auto.
Qed.
(** GaussianGrad: the smoothing kernels first, then the size and the sigma of the edge kernel, then the edge kernel. *)
Lemma sum_gauss ks sigma k : sigma <> 0%R -> gaussian_kernel_1d ks sigma 0 = Ok k -> k <> [] -> @lsum RF k <> @f0 RF.
Proof.
  intros Hs E N. destruct (Z_le_gt_dec 1 ks) as [Hk|Hk].
  - destruct (gauss_kernel ks sigma Hk Hs) as [k' [E' [_ [_ [S _]]]]]. rewrite E in E'. inv E'. change (@lsum RF k') with (fold_right Rplus 0%R k'). rewrite S. cbn [f0 RF]. lra.
  - destruct (kernel_ends ks sigma 0) as [_ [_ K]]. destruct (K ltac:(lia) Hs) as [k' [E' L]]. rewrite E in E'. inv E'. destruct k'; [congruence|cbn in L; lia].
Qed.
Theorem grad_ends ks sigma eks es nrm order pd shared :
  let go := gg_init ks sigma eks es nrm order pd shared in
  (~ one_length (lengths2 ks sigma) -> go = Err ValueError) /\
  forall n lk ls, jointly n (lengths2 ks sigma) -> expand n ks = Some lk -> expand n sigma = Some ls ->
    ((exists r, (r < n)%nat /\ nth r ls 0%R = 0%R) -> go = Err ZeroDivisionError) /\
    ((forall r, (r < n)%nat -> nth r ls 0%R <> 0%R) ->
      (eks = None /\ (exists l, ks = NList l) \/ es = None /\ (exists l, sigma = NList l) -> go = Err AssertionError) /\
      forall k s, (eks = Some k \/ eks = None /\ ks = NItem k) -> (es = Some s \/ es = None /\ sigma = NItem s) ->
        (order < 0 -> go = Err ValueError) /\
        (0 <= order -> s = 0%R -> go = Err ZeroDivisionError) /\
        (0 <= order -> s <> 0%R -> exists e, go = Ok e /\ gaussian_kernel_1d k s order = Ok (ef_kernel e) /\
           nds_ishape (pl_kernel (ef_smooth e)) = (match nds_ishape ks with None => nds_ishape sigma | i => i end))).
Proof.
  intros go. unfold go, gg_init. clear go.
  destruct (apply2_ends (fun ks s => gaussian_kernel_1d ks s 0) ks sigma 0 0%R) as [P Q].
  split; [intros H; now rewrite P|]. intros n lk ls J Hk Hs. destruct (Q n lk ls J Hk Hs) as [G B]. clear P Q.
  assert (K0 : forall k s, s <> 0%R -> exists d, gaussian_kernel_1d k s 0 = Ok d).
  { intros k s N. destruct (kernel_ends k s 0) as [_ [_ K]]. destruct (K ltac:(lia) N) as [d [E _]]. eauto. }
  split.
  - intros [r [Hr Z0]]. assert (F : exists r, (r < n)%nat /\ nth r ls 0%R = 0%R /\ forall r', (r' < r)%nat -> nth r' ls 0%R <> 0%R).
    { revert r Hr Z0. induction r as [r IH] using lt_wf_ind. intros Hr Z0.
      destruct (some_zero ls r) as [[r' [A C]]|D]; [apply (IH r'); auto; lia|]. exists r. auto. }
    destruct F as [q [Hq [Eq Fq]]]. rewrite (B q ZeroDivisionError); auto.
    destruct (kernel_ends (nth q lk 0) (nth q ls 0%R) 0) as [_ [K _]]. apply K; [lia|auto].
  - intros H. destruct G as [w [E [I [l [X [Y [L R]]]]]]]; [intros r Hr; apply K0; now apply H|]. rewrite E. cbn [bind]. split.
    + intros [[-> [lks ->]]|[-> [lsg ->]]]; [reflexivity|].
      destruct eks as [k|]; [reflexivity|]. destruct ks as [k|lks]; reflexivity.
    + intros k s Ek Es.
      assert (C1 : match eks with Some k => Ok k | None => match ks with NItem k => Ok k | NList _ => Err AssertionError end end = Ok k) by (destruct Ek as [->|[-> ->]]; reflexivity).
      assert (C2 : match es with Some s => Ok s | None => match sigma with NItem s => Ok s | NList _ => Err AssertionError end end = Ok s) by (destruct Es as [->|[-> ->]]; reflexivity).
      rewrite C1. cbn [bind]. rewrite C2. cbn [bind]. destruct (kernel_ends k s order) as [K1 [K2 K3]].
      split; [intros Hn; now rewrite (K1 Hn)|]. split; [intros Hn Z0; now rewrite (K2 Hn Z0)|]. intros Hn N.
      destruct (K3 Hn N) as [kn [EK _]]. rewrite EK. cbn [bind].
      destruct (edge_ends RF (NItem kn) w nrm pd shared) as [_ EE]. destruct (EE kn eq_refl) as [e [Ee [Ke Ie]]].
      { intros _ u Hu Nu. change (In u (items w)) in Hu. subst l. apply (In_nth _ _ []) in Hu as [r [Hr Er]]. assert (Hr2 : (r < n)%nat) by (rewrite <- L; exact Hr). pose proof (R r [] Hr2) as RR. assert (RR2 : gaussian_kernel_1d (nth r lk 0) (nth r ls 0%R) 0 = Ok u) by (rewrite <- Er; exact RR).
        apply (sum_gauss (nth r lk 0) (nth r ls 0%R)); auto. }
      exists e. split; auto. split; [now rewrite Ke|]. rewrite Ie. change (nds_ishape w = match nds_ishape ks with None => nds_ishape sigma | i => i end). apply agg_one_length in I as [OL I]. unfold lengths2 in *.
      destruct (nds_ishape w) as [q|].
      * destruct (nds_ishape ks) as [a|] eqn:EA; [f_equal; apply OL; [auto|now left]|]. destruct I as [I|[I|[]]]; [discriminate|now rewrite I].
      * destruct (nds_ishape ks) as [a|] eqn:EA; [exfalso; apply (I a); now left|]. destruct (nds_ishape sigma) as [a|] eqn:EB; [exfalso; apply (I a); right; now left|reflexivity].
Qed.
(** LaplacianOfGaussian: one size and one sigma. *)
Theorem log_ends ks sigma pd shared :
  ((exists e, log_init ks sigma pd shared = Ok e) <-> exists k s, ks = NItem k /\ sigma = NItem s /\ s <> 0%R).
Proof.
  destruct (grad_ends ks sigma None None true 2 pd shared) as [A B]. fold (log_init ks sigma pd shared) in A, B. cbv zeta in A, B. split.
  - intros [e E]. destruct ks as [k|lks].
    + destruct sigma as [s|lsg].
      * exists k, s. split; auto. split; auto. intros ->. destruct (B 1%nat [k] [0%R]) as [B1 _]; [|reflexivity|reflexivity|].
        { split; [intros p q Hp; cbn in Hp; destruct Hp as [Hp|[Hp|[]]]; discriminate|]. right. split; auto. cbn. intros q [Hq|[Hq|[]]]; discriminate. }
        rewrite B1 in E; [discriminate|]. exists 0%nat. split; [lia|reflexivity].
      * exfalso. destruct (B (length lsg) (repeat k (length lsg)) lsg) as [B1 B2].
        { split; [intros p q Hp Hq; cbn in *; intuition congruence|]. left. cbn. auto. }
        { reflexivity. } { cbn. now rewrite Nat.eqb_refl. }
        destruct (some_zero lsg (length lsg)) as [C|C]; [rewrite (B1 C) in E; discriminate|].
        destruct B2 as [B2 _]; [exact C|]. rewrite B2 in E; [discriminate|]. right. eauto.
    + exfalso. destruct (one_length_dec (NList lks) sigma) as [O|O]; [|rewrite (A O) in E; discriminate].
      destruct (jointly_ex (NList lks) sigma (NItem tt)) as [n [la [lb [_ [J [Ha [Hb _]]]]]]]; [now apply one_length_2|]. apply jointly_2 in J.
      destruct (B n la lb J Ha Hb) as [B1 B2]. destruct (some_zero lb n) as [C|C]; [rewrite (B1 C) in E; discriminate|].
      destruct B2 as [B2 _]; [exact C|]. rewrite B2 in E; [discriminate|]. left. eauto.
  - intros [k [s [-> [-> N]]]]. destruct (B 1%nat [k] [s]) as [_ B2]; [|reflexivity|reflexivity|].
    { split; [intros p q Hp; cbn in Hp; destruct Hp as [Hp|[Hp|[]]]; discriminate|]. right. split; auto. cbn. intros q [Hq|[Hq|[]]]; discriminate. }
    destruct B2 as [_ B2]; [intros [|r] Hr; [exact N|lia]|]. destruct (B2 k s) as [_ [_ B3]]; [auto|auto|]. destruct B3 as [e [E _]]; [lia|auto|eauto].
Qed.
