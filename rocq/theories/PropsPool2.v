(** C112-C114: two poolings in a row; block averages and the mean; commuting filters.

    Vocabulary (PoolTwice.v, AvgTwice.v, FilterCommute.v; PropsPool.v):
    - [entry k i]: entry i of the kernel k, zero outside of k;
    - [spread_conv k1 s k2]: entry t is the sum over j of k2[j] * k1[t - s*j], length len k1 + s * (len k2 - 1);
    - [in_turn k1 s1 k2]: spread_conv, or the other kernel when one is empty (the axis is left alone);
      [in_turn_stride]: the product of the strides, or the other stride when one kernel is empty;
    - [bsum sh f]: the sum of f over all indices of an image of shape sh; [zprod sh]: the number of indices. *)
From Coq Require Import QArith Qcanon.
From Verif Require Import FilterCommute PropsMirror ExampleUtil IndexLemmas.
Open Scope Z_scope.

(** ** C112: two poolings without padding are one. *)
Theorem C112_twice : forall (F : ofield) fuel junk fuel1 junk1 fuel2 junk2 (m m1 m2 : pool F) (x : tensor F) ax al k1 s1 k2 s2 kers sts,
  on_axes x ax al -> built (length al) k1 s1 None m1 -> built (length al) k2 s2 None m2 -> built (length al) kers sts None m ->
  (forall r, (r < length al)%nat -> nth r kers [] = in_turn (nth r k1 []) (nth r s1 1) (nth r k2 []) /\
     nth r sts 1 = in_turn_stride (nth r k1 []) (nth r s1 1) (nth r k2 []) (nth r s2 1) /\
     klen (nth r kers []) <= nth (nth r al 0%nat) (shp x) 0) ->
  exists y z w, snd (sep_forward fuel1 junk1 m1 x ax) = Ok y /\ snd (sep_forward fuel2 junk2 m2 y ax) = Ok z /\
    snd (sep_forward fuel junk m x ax) = Ok w /\ teq z w.
Proof. exact pool_twice. Qed.
Print Assumptions C112_twice.
Ltac ex_on := split; [vm_compute; reflexivity | apply all_lt; vm_compute; reflexivity | repeat constructor; cbn; intuition lia].
Definition x7 := ofz [7] [1; 5; 2; 0; 3; 7; 4].
Definition k1212 : list QcF := [qz 1; qz 2; qz 3; qz 6].
Definition k13 : list QcF := [qz 1; qz 3].
Definition y3 := ofz [3] [11; 2; 17].
Example C112_twice_example : on_axes x7 (AxInt (-1)) [0%nat] /\
  built 1 [k12] [2] None (pl k12 2 None) /\ built 1 [k13] [1] None (pl k13 1 None) /\ built 1 [k1212] [2] None (pl k1212 2 None) /\
  k1212 = in_turn k12 2 k13 /\ in_turn_stride k12 2 k13 1 = 2 /\ klen k1212 <= 7 /\
  show (snd (sep_forward 9 garbage (pl k12 2 None) x7 (AxInt (-1)))) = Some ([3], zq [11; 2; 17]) /\
  show (snd (sep_forward 9 garbage (pl k13 1 None) y3 (AxInt (-1)))) = Some ([2], zq [17; 53]) /\
  show (snd (sep_forward 9 garbage (pl k1212 2 None) x7 (AxInt (-1)))) = Some ([2], zq [17; 53]).
Proof.
  split; [ex_on|]. split; [apply pl_built; [discriminate|lia]|]. split; [apply pl_built; [discriminate|lia]|].
  split; [apply pl_built; [discriminate|lia]|].
  split. { unfold k1212. change (in_turn k12 2 k13) with (spread_conv k12 2 k13).
    assert (E : map this [qz 1; qz 2; qz 3; qz 6] = map this (spread_conv k12 2 k13)) by (vm_compute; reflexivity).
    apply list_ext with (d := qz 0); [vm_compute; reflexivity|]. intros i Hi. apply Qc_is_canon.
    rewrite <- !(map_nth this). now rewrite E. }
  split; [reflexivity|]. split; [unfold klen; cbn; lia|]. split; [vm_compute; reflexivity|]. split; vm_compute; reflexivity.
Qed.
(** Averaging averages: AvgPool of size a with stride a, then AvgPool of size b, is AvgPool of size a*b. *)
Theorem C112_average : forall (F : ofield) fuel junk fuel1 junk1 fuel2 junk2 (k k1 k2 : nds Z) st st1 st2 (m m1 m2 : pool F) (x : tensor F) ax al l l1 l2 s s1 s2,
  on_axes x ax al ->
  expand (length al) k1 = Some l1 -> expand (length al) st1 = Some s1 -> avg_init k1 st1 None = Ok m1 ->
  expand (length al) k2 = Some l2 -> expand (length al) st2 = Some s2 -> avg_init k2 st2 None = Ok m2 ->
  expand (length al) k = Some l -> expand (length al) st = Some s -> avg_init k st None = Ok m ->
  (forall r, (r < length al)%nat -> 1 <= nth r l1 0 /\ 1 <= nth r l2 0 /\ nth r l 0 = nth r l1 0 * nth r l2 0 /\ nth r l 0 <= nth (nth r al 0%nat) (shp x) 0 /\
     nth r (map2 stride_or_size l1 s1) 1 = nth r l1 0 /\
     nth r (map2 stride_or_size l s) 1 = nth r l1 0 * nth r (map2 stride_or_size l2 s2) 1) ->
  exists y z w, snd (avg_forward fuel1 junk1 true m1 x ax) = Ok y /\ snd (avg_forward fuel2 junk2 true m2 y ax) = Ok z /\
    snd (avg_forward fuel junk true m x ax) = Ok w /\ teq z w.
Proof. exact avg_twice. Qed.
Print Assumptions C112_average.
Definition x29 := ofz [2; 9] [1; 5; 2; 0; 3; 7; 4; 4; 9; 3; 3; 0; 8; 1; 1; 2; 6; 5].
Definition avg (l : list Z) (s : list Z) : pool QcF := mkPool (NList (map (avg_ker QcF) l)) (NList l) (NList s) None 2.
Example C112_average_example : on_axes x29 AxNone [0%nat; 1%nat] /\
  avg_init (NList [1; 2]) (NItem None) None = Ok (avg [1; 2] [1; 2]) /\ avg_init (NList [2; 2]) (NItem (Some 1)) None = Ok (avg [2; 2] [1; 1]) /\
  avg_init (NList [2; 4]) (NList [Some 1; Some 2]) None = Ok (avg [2; 4] [1; 2]) /\
  (forall r, (r < 2)%nat -> 1 <= nth r [1; 2] 0 /\ 1 <= nth r [2; 2] 0 /\ nth r [2; 4] 0 = nth r [1; 2] 0 * nth r [2; 2] 0 /\
     nth r [2; 4] 0 <= nth (nth r [0; 1]%nat 0%nat) (shp x29) 0 /\
     nth r (map2 stride_or_size [1; 2] [None; None]) 1 = nth r [1; 2] 0 /\
     nth r (map2 stride_or_size [2; 4] [Some 1; Some 2]) 1 = nth r [1; 2] 0 * nth r (map2 stride_or_size [2; 2] [Some 1; Some 1]) 1) /\
  show (snd (avg_forward 9 garbage true (avg [2; 4] [1; 2]) x29 AxNone)) = Some ([1; 3], [11 # 4; 11 # 4; 7 # 2]%Q).
Proof.
  split; [ex_on|]. split; [reflexivity|]. split; [reflexivity|]. split; [reflexivity|].
  split; [intros [|[|r]] Hr; cbn; lia|]. vm_compute. reflexivity.
Qed.

(** ** C113: block averages that tile the image keep the sum (times the block size), hence the mean. *)
Theorem C113_total : forall (F : ofield) fuel junk (ks : nds Z) stride (m : pool F) (x : tensor F) ax al l sts, on_axes x ax al ->
  (forall n, In n (shp x) -> 0 <= n) ->
  expand (length al) ks = Some l -> expand (length al) stride = Some sts -> avg_init ks stride None = Ok m ->
  (forall r, (r < length al)%nat -> 1 <= nth r l 0 <= nth (nth r al 0%nat) (shp x) 0 /\ nth r (map2 stride_or_size l sts) 1 = nth r l 0 /\
     (nth r l 0 | nth (nth r al 0%nat) (shp x) 0)) ->
  exists y, snd (avg_forward fuel junk true m x ax) = Ok y /\
    fmul (bsum (shp y) (at_ y)) (fofZ (zprod l)) = bsum (shp x) (at_ x) /\ zprod (shp y) * zprod l = zprod (shp x).
Proof. exact avg_total. Qed.
Print Assumptions C113_total.
Theorem C113_mean : forall (F : ofield) fuel junk (ks : nds Z) stride (m : pool F) (x : tensor F) ax al l sts, on_axes x ax al ->
  (forall n, In n (shp x) -> 1 <= n) ->
  expand (length al) ks = Some l -> expand (length al) stride = Some sts -> avg_init ks stride None = Ok m ->
  (forall r, (r < length al)%nat -> 1 <= nth r l 0 <= nth (nth r al 0%nat) (shp x) 0 /\ nth r (map2 stride_or_size l sts) 1 = nth r l 0 /\
     (nth r l 0 | nth (nth r al 0%nat) (shp x) 0)) ->
  exists y, snd (avg_forward fuel junk true m x ax) = Ok y /\
    fdiv (bsum (shp y) (at_ y)) (fofZ (zprod (shp y))) = fdiv (bsum (shp x) (at_ x)) (fofZ (zprod (shp x))).
Proof. exact avg_mean_kept. Qed.
Print Assumptions C113_mean.
Definition x26 := ofz [2; 6] [1; 5; 2; 0; 3; 7; 4; 4; 9; 3; 3; 1].
Example C113_example : on_axes x26 (AxInt 1) [1%nat] /\ avg_init (NItem 3) (NItem None) None = Ok (pl (avg_ker QcF 3) 3 None) /\
  1 <= 3 <= nth 1 (shp x26) 0 /\ (3 | nth 1 (shp x26) 0) /\
  show (snd (avg_forward 9 garbage true (pl (avg_ker QcF 3) 3 None) x26 (AxInt 1))) = Some ([2; 2], [8 # 3; 10 # 3; 17 # 3; 7 # 3]%Q) /\
  this (bsum (shp x26) (at_ x26)) = 42%Q /\ zprod (shp x26) = 12.
Proof.
  split; [ex_on|]. split; [reflexivity|]. split; [cbn; lia|]. split; [now exists 2|].
  split; [vm_compute; reflexivity|]. split; vm_compute; reflexivity.
Qed.
(** With a rest at the border the mean may change. *)
Theorem C113_rest_differs : exists (m : pool QcF) x y, avg_init (NItem 2) (NItem None) None = Ok m /\ on_axes x (AxInt 0) [0%nat] /\ shp x = [3] /\
  snd (avg_forward 9 garbage true m x (AxInt 0)) = Ok y /\
  fdiv (bsum (shp y) (at_ y)) (fofZ (zprod (shp y))) <> fdiv (bsum (shp x) (at_ x)) (fofZ (zprod (shp x))).
Proof.
  exists (pl (avg_ker QcF 2) 2 None), x3.
  destruct (snd (avg_forward 9 garbage true (pl (avg_ker QcF 2) 2 None) x3 (AxInt 0))) as [y|] eqn:E.
  - exists y. split; [reflexivity|]. split; [ex_on|]. split; [reflexivity|]. split; [reflexivity|].
    assert (S : show (Ok y) = Some ([1], [3 # 2]%Q)) by (rewrite <- E; vm_compute; reflexivity).
    destruct (show_nth y [1] _ 0 S ltac:(apply Nat.ltb_lt; reflexivity)) as [S1 S2]. rewrite S1. change (nth 0 (indices [1]) []) with [0] in S2. cbn [nth] in S2. intros H.
    assert (H2 : this (fdiv (fadd f0 (at_ y [0])) (fofZ 1)) = this (fdiv (bsum (shp x3) (at_ x3)) (fofZ (zprod (shp x3))))) by (rewrite <- H; reflexivity).
    assert (Q : at_ y [0] = qq 3 2) by (apply Qc_is_canon; rewrite S2; reflexivity). rewrite Q in H2. vm_compute in H2. discriminate.
  - exfalso. assert (S : show (snd (avg_forward 9 garbage true (pl (avg_ker QcF 2) 2 None) x3 (AxInt 0))) = Some ([1], [3 # 2]%Q)) by (vm_compute; reflexivity).
    rewrite E in S. discriminate.
Qed.
Print Assumptions C113_rest_differs.

(** ** C114: filters commute without padding and with circular padding. *)
Theorem C114_valid : forall (F : ofield) fuel1 junk1 fuel2 junk2 fuel3 junk3 fuel4 junk4 (m1 m2 : pool F) (x : tensor F) ax al k1 k2, on_axes x ax al ->
  built (length al) k1 (repeat 1 (length al)) None m1 -> built (length al) k2 (repeat 1 (length al)) None m2 ->
  (forall r, (r < length al)%nat -> klen (in_turn (nth r k1 []) 1 (nth r k2 [])) <= nth (nth r al 0%nat) (shp x) 0) ->
  exists y z y' z', snd (sep_forward fuel1 junk1 m1 x ax) = Ok y /\ snd (sep_forward fuel2 junk2 m2 y ax) = Ok z /\
    snd (sep_forward fuel3 junk3 m2 x ax) = Ok y' /\ snd (sep_forward fuel4 junk4 m1 y' ax) = Ok z' /\ teq z z'.
Proof. exact valid_commute. Qed.
Print Assumptions C114_valid.
Theorem C114_circular : forall (F : ofield) fuel1 junk1 junk1' fuel2 junk2 junk2' (m1 m2 : pool F) (x : tensor F) ax al k1 k2 p1 p2,
  built (length al) k1 (repeat 1 (length al)) (Some p1) m1 -> built (length al) k2 (repeat 1 (length al)) (Some p2) m2 ->
  same_call F fuel1 p1 x ax al (repeat MCircular (length al)) k1 (repeat 1 (length al)) ->
  same_call F fuel2 p2 x ax al (repeat MCircular (length al)) k2 (repeat 1 (length al)) ->
  exists y z y' z', snd (sep_forward fuel1 junk1 m1 x ax) = Ok y /\ snd (sep_forward fuel2 junk2 m2 y ax) = Ok z /\
    snd (sep_forward fuel2 junk2' m2 x ax) = Ok y' /\ snd (sep_forward fuel1 junk1' m1 y' ax) = Ok z' /\ teq z z' /\ shp z = shp x.
Proof. exact circular_commute. Qed.
Print Assumptions C114_circular.
Definition then_ (m2 : pool QcF) (r : res (tensor QcF)) (ax : axes_arg) : res (tensor QcF) :=
  match r with Ok y => snd (sep_forward 9 garbage m2 y ax) | Err e => Err e end.
Definition circ k := pl k 1 (Some (sym (0, 0) MCircular)).
Definition repli k := pl k 1 (Some (sym (0, 0) MReplicate)).
Example C114_example :
  built 1 [k12] (repeat 1 1) None (pl k12 1 None) /\ built 1 [k13] (repeat 1 1) None (pl k13 1 None) /\ klen (in_turn k12 1 k13) <= nth 0 (shp x7) 0 /\
  show (then_ (pl k13 1 None) (snd (sep_forward 9 garbage (pl k12 1 None) x7 (AxInt 0))) (AxInt 0)) = Some ([5], zq [38; 15; 20; 57; 62]) /\
  built 1 [k12] (repeat 1 1) (Some (sym (0, 0) MCircular)) (circ k12) /\ built 1 [k321] (repeat 1 1) (Some (sym (0, 0) MCircular)) (circ k321) /\
  same_call QcF 9 (sym (0, 0) MCircular) x3 (AxInt 0) [0%nat] (repeat MCircular 1) [k12] (repeat 1 1) /\
  same_call QcF 9 (sym (0, 0) MCircular) x3 (AxInt 0) [0%nat] (repeat MCircular 1) [k321] (repeat 1 1) /\
  show (then_ (circ k321) (snd (sep_forward 9 garbage (circ k12) x3 (AxInt 0))) (AxInt 0)) = Some ([3], zq [47; 38; 41]) /\
  show (then_ (circ k12) (snd (sep_forward 9 garbage (circ k321) x3 (AxInt 0))) (AxInt 0)) = Some ([3], zq [47; 38; 41]).
Proof.
  split; [apply pl_built; [discriminate|lia]|]. split; [apply pl_built; [discriminate|lia]|]. split; [vm_compute; discriminate|]. split; [vm_compute; reflexivity|].
  split; [apply pl_built; [discriminate|lia]|]. split; [apply pl_built; [discriminate|lia]|].
  split; [apply sym_call; [lia|unfold klen; cbn; lia|exact I]|]. split; [apply sym_call; [lia|unfold klen; cbn; lia|exact I]|].
  split; vm_compute; reflexivity.
Qed.
Lemma two_orders (f g : tensor QcF -> res (tensor QcF)) x n l l' :
  show (match f x with Ok y => g y | Err e => Err e end) = Some ([Zpos n], l) -> show (match g x with Ok y => f y | Err e => Err e end) = Some ([Zpos n], l') ->
  nth 0 l 0%Q <> nth 0 l' 0%Q ->
  exists y z y' z', f x = Ok y /\ g y = Ok z /\ g x = Ok y' /\ f y' = Ok z' /\ shp z = [Zpos n] /\ at_ z [0] <> at_ z' [0].
Proof.
  intros A B N. destruct (f x) as [y|]; [|discriminate]. destruct (g x) as [y'|]; [|discriminate].
  destruct (g y) as [z|] eqn:E1; [|discriminate]. destruct (f y') as [z'|] eqn:E2; [|discriminate].
  exists y, z, y', z'. do 4 (split; auto). assert (L : (0 < length (indices [Zpos n]))%nat /\ nth 0 (indices [Zpos n]) [] = [0]).
  { cbn [indices]. unfold zrange. destruct (Z.to_nat (Z.pos n)) eqn:E; [lia|]. cbn. split; [lia|reflexivity]. }
  destruct L as [L1 L2]. destruct (show_nth z _ _ 0 A L1) as [A1 A2]. destruct (show_nth z' _ _ 0 B L1) as [B1 B2]. rewrite L2 in A2, B2.
  split; [exact A1|]. intros E. rewrite E in A2. congruence.
Qed.
(** Not with other padding modes. *)
Theorem C114_replicate_differs : exists y z y' z',
  snd (sep_forward 9 garbage (repli k12) x3 (AxInt 0)) = Ok y /\ snd (sep_forward 9 garbage (repli k321) y (AxInt 0)) = Ok z /\
  snd (sep_forward 9 garbage (repli k321) x3 (AxInt 0)) = Ok y' /\ snd (sep_forward 9 garbage (repli k12) y' (AxInt 0)) = Ok z' /\
  shp z = [3] /\ at_ z [0] <> at_ z' [0].
Proof.
  assert (A : show (then_ (repli k321) (snd (sep_forward 9 garbage (repli k12) x3 (AxInt 0))) (AxInt 0)) = Some ([3], zq [20; 29; 45])) by (vm_compute; reflexivity).
  assert (B : show (then_ (repli k12) (snd (sep_forward 9 garbage (repli k321) x3 (AxInt 0))) (AxInt 0)) = Some ([3], zq [21; 29; 47])) by (vm_compute; reflexivity).
  exact (two_orders (fun x => snd (sep_forward 9 garbage (repli k12) x (AxInt 0))) (fun x => snd (sep_forward 9 garbage (repli k321) x (AxInt 0))) x3 _ _ _ A B ltac:(discriminate)).
Qed.
Print Assumptions C114_replicate_differs.
