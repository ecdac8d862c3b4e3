(** C130: how the constructors end, for all arguments.

    Vocabulary (Construct.v, ToSame.v, PoolForward.v):
    - [items s]: the items of a specification; [nds_ishape s]: the length of its list, None for a single item;
    - [one_length l]: all lists among the specifications have one length;
    - [jointly n l]: they can be used together, on n positions (n = 1 when all are single items);
    - [expand n s = Some l]: l are the n items that s stands for. *)
From Coq Require Import Reals Lra QArith Qcanon.
From Verif Require Import ConstructGauss ExampleUtil.
Open Scope Z_scope.

(** ** Padder: widths must not be negative and the lists must have one length; the mode is not checked. *)
Theorem C130_padder : forall (F : ofield) w m c e s,
  let good := (forall b a, In (b, a) (items w) -> 0 <= b /\ 0 <= a) /\
    one_length [nds_ishape w; nds_ishape m; nds_ishape c; nds_ishape e; nds_ishape s] in
  (good -> exists n, @padder_init F w m c e s = Ok (mkPadder w m c e s n) /\
     (forall k, In (Some k) [nds_ishape w; nds_ishape m; nds_ishape c; nds_ishape e; nds_ishape s] -> n = k) /\
     ((forall k, ~ In (Some k) [nds_ishape w; nds_ishape m; nds_ishape c; nds_ishape e; nds_ishape s]) -> n = 0)) /\
  (~ good -> @padder_init F w m c e s = Err ValueError).
Proof. exact padder_ends. Qed.
Print Assumptions C130_padder.
Example C130_padder_example : let z := NItem (qz 0, qz 0) in let u := NItem (@None Z, @None Z) in
  @padder_init QcF (NList [(1, 0); (2, 3)]) (NItem MUnknown) z z u = Ok (mkPadder (NList [(1, 0); (2, 3)]) (NItem MUnknown) z z u 2) /\
  @padder_init QcF (NItem (1, 0)) (NItem MReflect) z z u = Ok (mkPadder (NItem (1, 0)) (NItem MReflect) z z u 0) /\
  @padder_init QcF (NList [(1, 0); (2, -3)]) (NItem MReflect) z z u = Err ValueError /\
  @padder_init QcF (NList [(1, 0); (2, 3)]) (NList [MReflect]) z z u = Err ValueError.
Proof. repeat split. Qed.

(** ** SeparablePoolNd and AvgPoolNd *)
Theorem C130_separable : forall (F : ofield) (k : nds (list F)) st pd,
  let good := (forall s, In (Some s) (items st) -> 1 <= s) /\ one_length [nds_ishape k; nds_ishape st] in
  (good -> exists m, sep_init k st pd = Ok m /\ pl_kernel m = k /\ pl_padder m = pd /\
     (forall n, In (Some n) [nds_ishape k; nds_ishape st] -> pl_ndim m = n) /\ ((forall n, ~ In (Some n) [nds_ishape k; nds_ishape st]) -> pl_ndim m = 0)) /\
  (~ good -> sep_init k st pd = Err ValueError).
Proof. exact sep_ends. Qed.
Print Assumptions C130_separable.
Theorem C130_average : forall (F : ofield) ks st pd,
  let good := (forall k, In k (items ks) -> 0 <= k) /\ (forall s, In (Some s) (items st) -> 1 <= s) /\ one_length [nds_ishape ks; nds_ishape st] in
  (good -> exists m : pool F, avg_init ks st pd = Ok m) /\ (~ good -> @avg_init F ks st pd = Err ValueError).
Proof. exact avg_ends. Qed.
Print Assumptions C130_average.
Example C130_pool_example : let k : list QcF := ints [1; 2] in
  (exists m, sep_init (NList [k; []]) (NItem (Some 3)) None = Ok m /\ pl_ndim m = 2) /\
  sep_init (NList [k; []]) (NList [Some 3; Some 0]) None = Err ValueError /\ sep_init (NList [k; k]) (NList [None]) None = Err ValueError /\
  (exists m : pool QcF, avg_init (NItem 0) (NList [None; Some 2]) None = Ok m) /\ @avg_init QcF (NList [2; -1]) (NItem None) None = Err ValueError.
Proof. cbv zeta. split; [eexists; split; reflexivity|]. split; [reflexivity|]. split; [reflexivity|]. split; [eexists; reflexivity|reflexivity]. Qed.

(** ** EdgeFilter: one edge kernel.  (Normalising a smoothing kernel of sum zero gives infinities in numpy, which the model
    does not have.)  SSIM and UnsharpMask never fail. *)
Theorem C130_edge : forall (F : ofield) ek (sk : nds (list F)) nrm pd sh,
  (forall l, ek = NList l -> edge_init ek sk nrm pd sh = Err ValueError) /\
  (forall k, ek = NItem k -> (nrm = true -> forall u, In u (items sk) -> u <> [] -> lsum u <> f0) ->
     exists e, edge_init ek sk nrm pd sh = Ok e /\ ef_kernel e = k /\ nds_ishape (pl_kernel (ef_smooth e)) = nds_ishape sk).
Proof. exact edge_ends. Qed.
Print Assumptions C130_edge.
Theorem C130_ssim : forall (F : ofield) (b : pool F) pd k1 k2 us cr, exists s, ssim_init b pd k1 k2 us cr = Ok s.
Proof. exact ssim_ends. Qed.
Print Assumptions C130_ssim.
Theorem C130_unsharp : forall (F : ofield) (b : pool F) kind am th pd, exists u, unsharp_init b kind am th pd = Ok u.
Proof. exact unsharp_ends. Qed.
Print Assumptions C130_unsharp.
Example C130_edge_example : let k : list QcF := ints [1; 2] in
  edge_init (NList [k; k]) (NItem k) false None true = Err ValueError /\
  lsum k <> f0 /\ (exists e, edge_init (NItem k) (NList [k; []]) true None true = Ok e).
Proof. cbv zeta. split; [reflexivity|]. split; [intros H; discriminate H|]. eexists. reflexivity. Qed.

(** ** gaussian_kernel_1d and GaussianPoolNd: sizes 0 and below give the empty kernel; the first bad sigma or order decides. *)
Theorem C130_kernel : forall ks sigma order,
  (order < 0 -> gaussian_kernel_1d ks sigma order = Err ValueError) /\
  (0 <= order -> sigma = 0%R -> gaussian_kernel_1d ks sigma order = Err ZeroDivisionError) /\
  (0 <= order -> sigma <> 0%R -> exists k, gaussian_kernel_1d ks sigma order = Ok k /\ Z.of_nat (length k) = Z.max 0 ks).
Proof. exact kernel_ends. Qed.
Print Assumptions C130_kernel.
Theorem C130_gaussian : forall ks sigma order stride pd,
  (~ one_length (lengths3 ks sigma order) -> gauss_init ks sigma order stride pd = Err ValueError) /\
  forall n lk ls lo, jointly n (lengths3 ks sigma order) -> expand n ks = Some lk -> expand n sigma = Some ls -> expand n order = Some lo ->
    (forall r, (r < n)%nat -> (forall r', (r' < r)%nat -> 0 <= nth r' lo 0 /\ nth r' ls 0%R <> 0%R) ->
       (nth r lo 0 < 0 -> gauss_init ks sigma order stride pd = Err ValueError) /\
       (0 <= nth r lo 0 -> nth r ls 0%R = 0%R -> gauss_init ks sigma order stride pd = Err ZeroDivisionError)) /\
    ((forall r, (r < n)%nat -> 0 <= nth r lo 0 /\ nth r ls 0%R <> 0%R) ->
       let good := (forall s, In (Some s) (items stride) -> 1 <= s) /\ one_length (lengths3 ks sigma order ++ [nds_ishape stride]) in
       (good -> exists m, gauss_init ks sigma order stride pd = Ok m /\ pl_padder m = pd /\
          forall r, (r < n)%nat -> gaussian_kernel_1d (nth r lk 0) (nth r ls 0%R) (nth r lo 0) = Ok (nth r (items (pl_kernel m)) [])) /\
       (~ good -> gauss_init ks sigma order stride pd = Err ValueError)).
Proof. exact gauss_ends. Qed.
Print Assumptions C130_gaussian.
(** Specifications of one length can be used together, so the cases above are all cases. *)
Theorem C130_cases : forall A B C (a : nds A) (b : nds B) (c : nds C), one_length (lengths3 a b c) ->
  exists n la lb lc, jointly n (lengths3 a b c) /\ expand n a = Some la /\ expand n b = Some lb /\ expand n c = Some lc.
Proof. exact @jointly_ex. Qed.
Print Assumptions C130_cases.
Example C130_gaussian_example :
  jointly 2 (lengths3 (NItem 3) (NList [0%R; 1%R]) (NList [-1; 1])) /\
  gauss_init (NItem 3) (NList [0%R; 1%R]) (NList [-1; 1]) (NItem None) None = Err ValueError /\
  gauss_init (NItem 3) (NList [0%R; 1%R]) (NList [1; -1]) (NItem None) None = Err ZeroDivisionError /\
  gauss_init (NItem 3) (NList [0%R; 1%R]) (NList [1; 2; 3]) (NItem None) None = Err ValueError.
Proof.
  assert (J : jointly 2 (lengths3 (NItem 3) (NList [0%R; 1%R]) (NList [-1; 1])) /\ jointly 2 (lengths3 (NItem 3) (NList [0%R; 1%R]) (NList [1; -1]))).
  { split; (split; [intros a b Ha Hb; cbn in *; intuition congruence|left; cbn; auto]). }
  destruct J as [J1 J2]. split; [exact J1|]. split; [|split].
  - destruct (gauss_ends (NItem 3) (NList [0%R; 1%R]) (NList [-1; 1]) (NItem None) None) as [_ G].
    destruct (G 2%nat [3; 3] [0%R; 1%R] [-1; 1] J1 eq_refl eq_refl eq_refl) as [G' _]. destruct (G' 0%nat) as [P _]; [lia|intros; lia|]. apply P. reflexivity.
  - destruct (gauss_ends (NItem 3) (NList [0%R; 1%R]) (NList [1; -1]) (NItem None) None) as [_ G].
    destruct (G 2%nat [3; 3] [0%R; 1%R] [1; -1] J2 eq_refl eq_refl eq_refl) as [G' _]. destruct (G' 0%nat) as [_ P]; [lia|intros; lia|]. apply P; [discriminate|reflexivity].
  - apply gauss_ends. intros O. discriminate (O 2 3 ltac:(cbn; auto) ltac:(cbn; auto)).
Qed.

(** ** GaussianGrad and LaplacianOfGaussian: without edge_kernel_size or edge_sigma the size or sigma must be a single item. *)
Theorem C130_gaussian_grad : forall ks sigma eks es nrm order pd shared,
  let go := gg_init ks sigma eks es nrm order pd shared in
  (~ one_length (lengths2 ks sigma) -> go = Err ValueError) /\
  forall n lk ls, jointly n (lengths2 ks sigma) -> expand n ks = Some lk -> expand n sigma = Some ls ->
    ((exists r, (r < n)%nat /\ nth r ls 0%R = 0%R) -> go = Err ZeroDivisionError) /\
    ((forall r, (r < n)%nat -> nth r ls 0%R <> 0%R) ->
      (eks = None /\ (exists l, ks = NList l) \/ es = None /\ (exists l, sigma = NList l) -> go = Err AssertionError) /\
      forall k s, (eks = Some k \/ eks = None /\ ks = NItem k) -> (es = Some s \/ es = None /\ sigma = NItem s) ->
        (order < 0 -> go = Err ValueError) /\
        (0 <= order -> s = 0%R -> go = Err ZeroDivisionError) /\
        (0 <= order -> s <> 0%R -> exists e, go = Ok e /\ gaussian_kernel_1d k s order = Ok (ef_kernel e) /\
           nds_ishape (pl_kernel (ef_smooth e)) = (match nds_ishape ks with None => nds_ishape sigma | i => i end))).
Proof. exact grad_ends. Qed.
Print Assumptions C130_gaussian_grad.
Theorem C130_log : forall ks sigma pd shared,
  ((exists e, log_init ks sigma pd shared = Ok e) <-> exists k s, ks = NItem k /\ sigma = NItem s /\ s <> 0%R).
Proof. exact log_ends. Qed.
Print Assumptions C130_log.
Example C130_grad_example :
  jointly 2 (lengths2 (NList [3; 5]) (NItem 1%R)) /\
  gg_init (NList [3; 5]) (NItem 1%R) None None true 1 None true = Err AssertionError /\
  (exists e, gg_init (NList [3; 5]) (NItem 1%R) (Some 3) None true 1 None true = Ok e) /\
  gg_init (NList [3; 5]) (NItem 1%R) (Some 3) (Some 0%R) true 1 None true = Err ZeroDivisionError.
Proof.
  assert (J : jointly 2 (lengths2 (NList [3; 5]) (NItem 1%R))) by (split; [intros a b Ha Hb; cbn in *; intuition congruence|left; cbn; auto]).
  assert (N : forall r, (r < 2)%nat -> nth r [1%R; 1%R] 0%R <> 0%R) by (intros [|[|r]] Hr; cbn; [lra|lra|lia]).
  split; auto. split; [|split].
  - destruct (grad_ends (NList [3; 5]) (NItem 1%R) None None true 1 None true) as [_ G]. destruct (G 2%nat [3; 5] [1%R; 1%R] J eq_refl eq_refl) as [_ G'].
    apply (G' N). left. split; eauto.
  - destruct (grad_ends (NList [3; 5]) (NItem 1%R) (Some 3) None true 1 None true) as [_ G]. destruct (G 2%nat [3; 5] [1%R; 1%R] J eq_refl eq_refl) as [_ G'].
    destruct (G' N) as [_ H]. destruct (H 3 1%R) as [_ [_ K]]; [auto|auto|]. destruct K as [e [E _]]; [lia|lra|eauto].
  - destruct (grad_ends (NList [3; 5]) (NItem 1%R) (Some 3) (Some 0%R) true 1 None true) as [_ G]. destruct (G 2%nat [3; 5] [1%R; 1%R] J eq_refl eq_refl) as [_ G'].
    destruct (G' N) as [_ H]. destruct (H 3 0%R) as [_ [K _]]; [auto|auto|]. apply K; [lia|reflexivity].
Qed.
