(** C78-C84: linearity and constant response of edge filters, noise, descriptive statistics,
    pixels_per_degree, the deprecated padding pair.

    Vocabulary (EdgeLinear.v, StatsProofs.v, NoiseProofs.v; PropsEdge.v, PropsPool.v, PropsPad.v):
    - [combination a b x y z]: images of one shape with z = a x + b y;
    - [linear_padder p m]: padding with mode m is linear (PropsPool.v [linear_mode], e.g. not max or
      min statistics, constant only with value 0);
    - [fprod l]: the product of l; [gain k]: the sum of the kernel k (1 if empty, i.e. skipped);
    - [used_kernel trunc k]: k, or the special kernel of the fast path with the same integer parts;
    - [elems x]: the pixels of x; [interp s q r]: the sorted list s read at position r/q with linear
      interpolation;
    - [expectation o f], [distribution o]: mean of f over weighted outcomes o; weights >= 0, sum 1;
    - [standard o z]: mean 0, variance 1; [poisson_like o n r]: mean r, variance r. *)
From Coq Require Import QArith Qcanon Reals Lra Permutation Sorted.
From Verif Require Import EdgeExample PropsEdge EdgeLinear StatsProofs NoiseProofs SamePair.
Open Scope Z_scope.

(** ** C78: edge filters are linear in the image *)
Theorem C78_component : forall (F : ofield) (trunc : F -> Z) fuel junk ker smooth raw normalize p m shared (e : edge_filter F) a b (x y z : tensor F) ea ax ax' c al k,
  edge_init (NItem ker) smooth normalize (Some p) shared = Ok e -> ker <> [] ->
  check_axes (Z.of_nat (ndim x)) ea = Ok [Z.of_nat c] -> In c al ->
  edge_image fuel p m x ax al (k + 1) -> check_axes (Z.of_nat (ndim x)) ax' = Ok (map Z.of_nat al) -> klen ker <= k -> linear_padder p m ->
  expand (length (without c al)) smooth = Some raw -> (forall s, In s raw -> klen s <= k) ->
  combination a b x y z ->
  exists x' y' z', snd (component trunc fuel junk e x ea ax') = Ok x' /\ snd (component trunc fuel junk e y ea ax') = Ok y' /\
    snd (component trunc fuel junk e z ea ax') = Ok z' /\ combination a b x' y' z'.
Proof. exact component_linear. Qed.
Print Assumptions C78_component.
(** Without a padder. *)
Theorem C78_component_valid : forall (F : ofield) (trunc : F -> Z) fuel junk ker smooth raw normalize shared (e : edge_filter F) a b (x y z : tensor F) ea sx c al,
  edge_init (NItem ker) smooth normalize None shared = Ok e -> ker <> [] ->
  check_axes (Z.of_nat (ndim x)) ea = Ok [Z.of_nat c] -> check_axes (Z.of_nat (ndim x)) sx = Ok (map Z.of_nat al) ->
  (c < ndim x)%nat -> (forall d, In d al -> (d < ndim x)%nat) -> NoDup al ->
  (forall d, (d < ndim x)%nat -> 0 <= nth d (shp x) 0) -> klen ker <= nth c (shp x) 0 ->
  expand (length (without c al)) smooth = Some raw ->
  (forall r, (r < length (without c al))%nat -> klen (nth r (smoothers normalize raw) []) <= nth (nth r (without c al) 0%nat) (shp x) 0) ->
  combination a b x y z ->
  exists x' y' z', snd (component trunc fuel junk e x ea sx) = Ok x' /\ snd (component trunc fuel junk e y ea sx) = Ok y' /\
    snd (component trunc fuel junk e z ea sx) = Ok z' /\ combination a b x' y' z'.
Proof. exact component_linear_valid. Qed.
Print Assumptions C78_component_valid.
Theorem C78_all_components : forall (F : ofield) (trunc : F -> Z) fuel junk ker smooth raw normalize p m shared (e : edge_filter F) a b (x y z : tensor F) ax al k,
  edge_init (NItem ker) smooth normalize (Some p) shared = Ok e -> ker <> [] -> (2 <= length al)%nat ->
  edge_image fuel p m x ax al (k + 1) -> klen ker <= k -> linear_padder p m ->
  (forall c, In c al -> expand (length (without c al)) smooth = Some (raw c)) -> (forall c s, In s (raw c) -> klen s <= k) ->
  combination a b x y z ->
  exists xs ys zs : list (tensor F), snd (all_components trunc fuel junk e x ax) = Ok xs /\ snd (all_components trunc fuel junk e y ax) = Ok ys /\
    snd (all_components trunc fuel junk e z ax) = Ok zs /\ length xs = length al /\ length ys = length al /\ length zs = length al /\
    forall r dx dy dz, (r < length al)%nat -> combination a b (nth r xs dx) (nth r ys dy) (nth r zs dz).
Proof. exact all_linear. Qed.
Print Assumptions C78_all_components.
(** The sum of the components (magnitude with p = 1, epsilon = 0), as in Laplace.forward. *)
Theorem C78_sum : forall (F : ofield) (trunc : F -> Z) fuel junk ker smooth raw normalize p m shared (e : edge_filter F) a b (x y z : tensor F) ax al k,
  edge_init (NItem ker) smooth normalize (Some p) shared = Ok e -> ker <> [] -> (2 <= length al)%nat -> m <> MPeriodize ->
  edge_image fuel p m x ax al (k + 1) -> klen ker <= k -> linear_padder p m ->
  (forall c, In c al -> expand (length (without c al)) smooth = Some (raw c)) -> (forall c s, In s (raw c) -> klen s <= k) ->
  combination a b x y z ->
  exists x' y' z', snd (magnitude trunc fuel junk e x ax f0 P1) = Ok x' /\ snd (magnitude trunc fuel junk e y ax f0 P1) = Ok y' /\
    snd (magnitude trunc fuel junk e z ax f0 P1) = Ok z' /\ combination a b x' y' z' /\ shp x' = shp x.
Proof. exact sum_linear. Qed.
Print Assumptions C78_sum.
Definition y34 := ofz [3; 4] [0; 1; 0; 2; 5; 3; 1; 0; 7; 7; 2; 4].
Definition z34 : tensor QcF := mkT [3; 4] (fun i => fadd (fmul (qz 2) (at_ x34 i)) (fmul (qz (-1)) (at_ y34 i))).
Example C78_example : exists e l : edge_filter QcF, sobel_init false (Some repl) true = Ok e /\ laplace_init (Some repl) true = Ok l /\
  sobel_init false (Some repl) true = @edge_init QcF (NItem central_kernel) (NItem (ints [1; 2; 1])) false (Some repl) true /\
  laplace_init (Some repl) true = @edge_init QcF (NItem laplace_kernel) (NItem []) false (Some repl) true /\
  edge_image 16 repl MReplicate x34 AxNone [0; 1]%nat (3 + 1) /\ linear_padder repl MReplicate /\ combination (qz 2) (qz (-1)) x34 y34 z34 /\
  show (snd (component qtrunc 16 garbage e x34 (AxInt 0) AxNone)) = Some ([3; 4], zq [9; 13; 15; 11; 85; 121; 163; 175; 76; 108; 148; 164]) /\
  show (snd (component qtrunc 16 garbage e y34 (AxInt 0) AxNone)) = Some ([3; 4], zq [17; 10; 2; -5; 27; 21; 12; 8; 10; 11; 10; 13]) /\
  show (snd (component qtrunc 16 garbage e z34 (AxInt 0) AxNone)) = Some ([3; 4], zq [1; 16; 28; 27; 143; 221; 314; 342; 142; 205; 286; 315]) /\
  show (snd (magnitude qtrunc 16 garbage l x34 AxNone f0 P1)) = Some ([3; 4], zq [3; 4; 7; -2; 17; 24; 33; 38; -7; -15; -60; -42]) /\
  show (snd (magnitude qtrunc 16 garbage l z34 AxNone f0 P1)) = Some ([3; 4], zq [0; 8; 10; 0; 39; 46; 65; 69; -12; -21; -126; -78]).
Proof.
  destruct (named_ok QcF false (Some repl) true) as [[e He] [_ [_ [_ [l Hl]]]]]. exists e, l. split; auto. split; auto.
  split; [reflexivity|]. split; [reflexivity|]. split; [apply image34; lia|].
  split; [exists (qz 7, qz 8), (qz 0, qz 10); split; [reflexivity|]; split; [reflexivity|]; exact I|].
  split; [split; [reflexivity|]; split; [reflexivity|]; intros i _; reflexivity|].
  rewrite (get_ok filter0 _ _ He), (get_ok filter0 _ _ Hl). clear He Hl. repeat split; vm_compute; reflexivity.
Qed.

(** ** C79: the response to a constant image is the constant times the kernel sums *)
Theorem C79_constant_response : forall (F : ofield) (trunc : F -> Z) fuel junk ker smooth raw normalize p m shared (e : edge_filter F) (x : tensor F) ea ax ax' a al k c,
  edge_init (NItem ker) smooth normalize (Some p) shared = Ok e -> ker <> [] ->
  check_axes (Z.of_nat (ndim x)) ea = Ok [Z.of_nat a] -> In a al ->
  edge_image fuel p m x ax al (k + 1) -> check_axes (Z.of_nat (ndim x)) ax' = Ok (map Z.of_nat al) -> klen ker <= k -> keeps_constants F m ->
  expand (length (without a al)) smooth = Some raw -> (forall s, In s raw -> klen s <= k) ->
  constant_image c x ->
  exists y, snd (component trunc fuel junk e x ea ax') = Ok y /\
    constant_image (fmul (fmul c (wsum (used_kernel trunc ker))) (EdgeLinear.fprod (map gain (smoothers normalize raw)))) y.
Proof. exact component_const. Qed.
Print Assumptions C79_constant_response.
Example C79_example : exists e : edge_filter QcF, edge_init (NItem (ints [1; 2])) (NItem (ints [1; 3])) false (Some repl) false = Ok e /\
  edge_image 16 repl MReplicate flat34 AxNone [0; 1]%nat (2 + 1) /\ keeps_constants QcF MReplicate /\ constant_image (qz 7) flat34 /\
  show (snd (component qtrunc 16 garbage e flat34 (AxInt 1) AxNone)) = Some ([3; 4], zq (repeat 84 12)).
Proof.
  destruct (init_item QcF (ints [1; 2]) (ints [1; 3]) false (Some repl) false) as [e He]; [discriminate|right; vm_compute; discriminate|]. exists e. split; auto.
  split; [apply (flat_image MReplicate); [exact I|lia]|]. split; [exact I|]. split; [intros i V; reflexivity|].
  rewrite (get_ok filter0 _ _ He). clear He. vm_compute. reflexivity.
Qed.

(** ** C80: noise *)
Theorem C80_gauss_noise : forall normal (x : tensor RF) sigma, exists y, add_gauss_noise normal x sigma = Ok y /\ shp y = shp x /\
  forall i, valid (shp x) i -> at_ y i = (at_ x i + Rabs sigma * normal i)%R.
Proof. exact gauss_noise_ok. Qed.
Print Assumptions C80_gauss_noise.
Theorem C80_poisson_noise : forall pois normal (x : tensor RF) k sigma, k <> 0%R -> (forall i, valid (shp x) i -> (0 <= at_ x i / k)%R) ->
  exists y, add_poisson_gauss_noise pois normal x k sigma = Ok y /\ shp y = shp x /\
    forall i, valid (shp x) i -> at_ y i = (k * INR (pois i (at_ x i / k)) + Rabs sigma * normal i)%R.
Proof. exact poisson_noise_ok. Qed.
Print Assumptions C80_poisson_noise.
Theorem C80_errors : forall pois normal (x : tensor RF) k sigma,
  (k = 0%R -> add_poisson_gauss_noise pois normal x k sigma = Err ZeroDivisionError) /\
  (k <> 0%R -> (exists i, valid (shp x) i /\ (at_ x i / k < 0)%R) -> add_poisson_gauss_noise pois normal x k sigma = Err RuntimeError).
Proof. exact poisson_noise_errors. Qed.
Print Assumptions C80_errors.
(** Mean x, variance sigma^2. *)
Theorem C80_gauss_moments : forall W (o : list (R * W)) (normal : W -> normal_draw) (y : W -> tensor RF) (x : tensor RF) sigma i,
  distribution o -> valid (shp x) i -> standard o (fun w => normal w i) ->
  (forall w, add_gauss_noise (normal w) x sigma = Ok (y w)) ->
  expectation o (fun w => at_ (y w) i) = at_ x i /\ expectation o (fun w => (at_ (y w) i - at_ x i) ^ 2)%R = (sigma ^ 2)%R.
Proof. exact @gauss_noise_moments. Qed.
Print Assumptions C80_gauss_moments.
(** Mean x, variance k x + sigma^2. *)
Theorem C80_poisson_moments : forall W (o : list (R * W)) (pois : W -> poisson_draw) (normal : W -> normal_draw) (y : W -> tensor RF) (x : tensor RF) k sigma i,
  distribution o -> k <> 0%R -> (forall i, valid (shp x) i -> (0 <= at_ x i / k)%R) -> valid (shp x) i -> let r := (at_ x i / k)%R in
  standard o (fun w => normal w i) -> poisson_like o (fun w => INR (pois w i r)) r ->
  expectation o (fun w => (INR (pois w i r) - r) * normal w i)%R = 0%R ->
  (forall w, add_poisson_gauss_noise (pois w) (normal w) x k sigma = Ok (y w)) ->
  expectation o (fun w => at_ (y w) i) = at_ x i /\ expectation o (fun w => (at_ (y w) i - at_ x i) ^ 2)%R = (k * at_ x i + sigma ^ 2)%R.
Proof. exact @poisson_noise_moments. Qed.
Print Assumptions C80_poisson_moments.
(** Four equally likely outcomes: a count of 0 or 2 and an independent z of 1 or -1. *)
Definition coin : list (R * (nat * R)) := [(1/4, (0%nat, 1)); (1/4, (0%nat, -1)); (1/4, (2%nat, 1)); (1/4, (2%nat, -1))]%R.
Example C80_example : let x : tensor RF := mkT [1] (fun _ => 3%R) in
  distribution coin /\ (forall i, valid (shp x) i -> (0 <= at_ x i / 3)%R) /\ valid (shp x) [0] /\
  standard coin (fun w => snd w) /\ poisson_like coin (fun w => INR (fst w)) (at_ x [0%Z] / 3)%R /\
  expectation coin (fun w => (INR (fst w) - at_ x [0%Z] / 3) * snd w)%R = 0%R.
Proof.
  cbv zeta. cbn [shp at_]. split.
  { split; [|unfold expectation, coin; cbn [map fold_right fst snd]; lra]. intros o [<-|[<-|[<-|[<-|[]]]]]; cbn [fst]; lra. }
  split; [intros; lra|]. split; [repeat constructor; lia|].
  split; [split; unfold expectation, coin; cbn [map fold_right fst snd]; lra|].
  split; [split; unfold expectation, coin; cbn [map fold_right fst snd INR]; lra|].
  unfold expectation, coin; cbn [map fold_right fst snd INR]; lra.
Qed.

(** ** C81: describe *)
Theorem C81_order : forall (F : ofield) (root : F -> F) (x : tensor F) d, describe root x = Ok d ->
  fle (d_min d) (d_25 d) /\ fle (d_25 d) (d_50 d) /\ fle (d_50 d) (d_75 d) /\ fle (d_75 d) (d_max d) /\
  fle (d_min d) (d_mean d) /\ fle (d_mean d) (d_max d) /\
  (exists i, valid (shp x) i /\ at_ x i = d_min d) /\ (exists i, valid (shp x) i /\ at_ x i = d_max d) /\
  (forall i, valid (shp x) i -> fle (d_min d) (at_ x i) /\ fle (at_ x i) (d_max d)).
Proof. exact describe_order. Qed.
Print Assumptions C81_order.
Theorem C81_values : forall (F : ofield) (root : F -> F) (x : tensor F) d s, describe root x = Ok d -> Permutation (elems x) s -> Sorted fle s ->
  let n := Z.of_nat (length s) in
  fmul (fofZ n) (d_mean d) = lsum (elems x) /\
  d_min d = nth 0 s f0 /\ d_25 d = interp F s 4 (n - 1) /\ d_50 d = interp F s 2 (n - 1) /\ d_75 d = interp F s 4 (3 * (n - 1)) /\
  d_max d = nth (length s - 1) s f0 /\
  (n = 1 -> d_std d = None) /\
  (1 < n -> exists v, d_std d = Some (root v) /\ fle f0 v /\
     fmul (fofZ (n - 1)) v = lsum (map (fun e => fmul (fsub e (d_mean d)) (fsub e (d_mean d))) (elems x))).
Proof. exact describe_values. Qed.
Print Assumptions C81_values.
Theorem C81_empty : forall (F : ofield) (root : F -> F) (x : tensor F),
  (describe root x = Err RuntimeError <-> exists d, In d (shp x) /\ d <= 0) /\
  ((forall n, In n (shp x) -> 1 <= n) -> exists d, describe root x = Ok d).
Proof. exact describe_empty. Qed.
Print Assumptions C81_empty.
Theorem C81_rearranged : forall (F : ofield) (root : F -> F) (x y : tensor F) d, Permutation (elems x) (elems y) -> describe root x = Ok d -> describe root y = Ok d.
Proof. exact describe_rearranged. Qed.
Print Assumptions C81_rearranged.
Definition shown (d : res (description QcF)) : option (list Q) :=
  match d with Ok d => Some (map this [d_mean d; match d_std d with Some v => v | None => qz (-1) end; d_min d; d_25 d; d_50 d; d_75 d; d_max d]) | Err _ => None end.
Definition x4 := ofz [2; 2] [4; 1; 10; 2].
Example C81_example : shown (describe (fun v => v) x4) = Some [17 # 4; 65 # 4; 1; 7 # 4; 3; 11 # 2; 10]%Q /\
  Permutation (elems x4) (map qz [1; 2; 4; 10]) /\ Sorted (@fle QcF) (map qz [1; 2; 4; 10]) /\
  describe (fun v => v) (ofz [2; 0] []) = Err RuntimeError.
Proof.
  split; [vm_compute; reflexivity|]. split.
  { change (elems x4) with (map qz [4; 1; 10; 2]). apply Permutation_map.
    apply (perm_trans (l' := [1; 4; 2; 10])); [apply (perm_trans (l' := [1; 4; 10; 2])); [apply perm_swap|do 2 apply perm_skip; apply perm_swap]|apply perm_skip; apply perm_swap]. }
  split; [|reflexivity]. repeat constructor; vm_compute; reflexivity.
Qed.

(** ** C82: describe of a x + b.  With a negative a minimum and maximum, and the outer quartiles, change places. *)
Theorem C82_affine : forall (F : ofield) (root : F -> F) (a b : F) (x : tensor F) d,
  (forall v, fle f0 v -> fle f0 (root v) /\ root (fmul (fmul a a) v) = fmul (if fleb f0 a then a else fopp a) (root v)) ->
  describe root x = Ok d ->
  exists d', describe root (tmap (fun v => fadd (fmul a v) b) x) = Ok d' /\
    d_mean d' = fadd (fmul a (d_mean d)) b /\ d_50 d' = fadd (fmul a (d_50 d)) b /\
    d_std d' = option_map (fmul (if fleb f0 a then a else fopp a)) (d_std d) /\
    (if fleb f0 a
     then d_min d' = fadd (fmul a (d_min d)) b /\ d_25 d' = fadd (fmul a (d_25 d)) b /\
          d_75 d' = fadd (fmul a (d_75 d)) b /\ d_max d' = fadd (fmul a (d_max d)) b
     else d_min d' = fadd (fmul a (d_max d)) b /\ d_25 d' = fadd (fmul a (d_75 d)) b /\
          d_75 d' = fadd (fmul a (d_25 d)) b /\ d_max d' = fadd (fmul a (d_min d)) b).
Proof. exact describe_affine. Qed.
Print Assumptions C82_affine.
(** The square root on the reals is such a root. *)
Example C82_sqrt : forall a v : R, (0 <= v)%R -> (0 <= sqrt v)%R /\ sqrt (a * a * v) = ((if @fleb RF f0 a then a else - a) * sqrt v)%R.
Proof.
  intros a v V. split; [apply sqrt_pos|]. destruct (@fleb RF f0 a) eqn:E.
  - apply R_leb_iff in E. rewrite sqrt_mult by nra. now rewrite sqrt_square.
  - assert (a < 0)%R. { apply Rnot_le_lt. intros H. apply R_leb_iff in H. cbn in E. congruence. }
    replace (a * a)%R with ((- a) * (- a))%R by ring. rewrite sqrt_mult by nra. rewrite sqrt_square by lra. reflexivity.
Qed.
Example C82_example : shown (describe (fun v => f0) (tmap (fun v => fadd (fmul (qz (-2)) v) (qz 3)) x4)) = Some [-11 # 2; 0; -17; -8; -3; -1 # 2; 1]%Q /\
  (forall a v : QcF, fle f0 v -> fle f0 (@f0 QcF) /\ @f0 QcF = fmul (if fleb f0 a then a else fopp a) f0).
Proof.
  split; [vm_compute; reflexivity|]. intros a v _. split; [apply fle_refl|]. generalize (if fleb f0 a then a else fopp a). intros u. cbn. ring.
Qed.

(** ** C83: pixels_per_degree *)
(** The screen has the height and width given by the diagonal and the aspect ratio, and its h pixel rows fill
    h / p degrees at distance v. *)
Theorem C83_meaning : forall d h w v, (0 < d -> 0 < h -> 0 < w -> 0 < v ->
  exists p height width, pixels_per_degree d h w v = Ok p /\ 0 < p /\ 0 < height /\ 0 < width /\
    width * h = height * w /\ height ^ 2 + width ^ 2 = d ^ 2 /\
    (0 < h / p < 180) /\ tan (h / p / 2 * (PI / 180)) * (1000 * v) = height / 2)%R.
Proof. exact ppd_meaning. Qed.
Print Assumptions C83_meaning.
Theorem C83_distance : forall d h w v v' p p', (0 < d)%R -> (0 < h)%R -> (0 < v < v')%R ->
  pixels_per_degree d h w v = Ok p -> pixels_per_degree d h w v' = Ok p' -> (p < p')%R.
Proof. exact ppd_distance. Qed.
Print Assumptions C83_distance.
Theorem C83_diagonal : forall d d' h w v p p', (0 < d < d')%R -> (0 < h)%R -> (0 < v)%R ->
  pixels_per_degree d h w v = Ok p -> pixels_per_degree d' h w v = Ok p' -> (p' < p)%R.
Proof. exact ppd_diagonal. Qed.
Print Assumptions C83_diagonal.
Theorem C83_scale : forall c d h w v p, (0 < c)%R -> (0 < d)%R -> (0 < h)%R -> (0 < v)%R -> pixels_per_degree d h w v = Ok p ->
  pixels_per_degree (c * d)%R h w (c * v)%R = Ok p /\ pixels_per_degree d (c * h)%R (c * w)%R v = Ok (c * p)%R.
Proof. exact ppd_scale. Qed.
Print Assumptions C83_scale.
Theorem C83_errors : forall d h w v, h = 0%R \/ v = 0%R \/ d = 0%R -> pixels_per_degree d h w v = Err ZeroDivisionError.
Proof. exact ppd_errors. Qed.
Print Assumptions C83_errors.
(** A 5 m screen of 4:3 seen from 1.5 m: 3 m high, it fills 90 degrees. *)
Example C83_example : pixels_per_degree 5000 900 1200 (3 / 2) = Ok 10%R.
Proof.
  destruct (ppd_ok 5000 900 1200 (3 / 2)) as [_ ->]; [lra|lra|lra|].
  assert (H : height_of 5000 900 1200 = 3000%R).
  { unfold height_of. replace (5000 ^ 2 / (1 + (1200 / 900) ^ 2))%R with (3000 * 3000)%R by field. apply sqrt_square. lra. }
  rewrite H. replace (3000 / (2000 * (3 / 2)))%R with 1%R by field. rewrite atan_1. f_equal. field. apply PI_neq0.
Qed.

(** ** C84: _same_padding_pair *)
Theorem C84_pair : forall k, 1 <= k ->
  let '(b, a) := same_padding_pair k in
  b + a = k - 1 /\ 0 <= b - a <= 1 /\ (forall n, same_padding_width k (Some 1) n = Ok (b, a)) /\
  (forall n, 1 <= n -> window_count (n + b + a) k 1 n).
Proof. exact same_pair_ok. Qed.
Print Assumptions C84_pair.
Theorem C84_small : forall k, k <= 1 -> same_padding_pair k = (0, 0).
Proof. exact same_pair_small. Qed.
Print Assumptions C84_small.
Theorem C84_split : forall total, 0 <= total ->
  let '(b, a) := same_padding_pair (total + 1) in b + a = total /\ 0 <= a /\ 0 <= b - a <= 1.
Proof. exact same_pair_split. Qed.
Print Assumptions C84_split.
Example C84_example : same_padding_pair 5 = (2, 2) /\ same_padding_pair 4 = (2, 1) /\ same_padding_pair 1 = (0, 0) /\ same_padding_pair (-3) = (0, 0).
Proof. repeat split. Qed.
