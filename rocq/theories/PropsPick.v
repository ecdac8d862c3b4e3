(** C119: items along the axes that are not worked on do not influence each other.

    Vocabulary (PickPad.v, ReduceFlip.v; PropsPad.v, PropsPool.v, PropsEdge.v, PropsSsim.v):
    - [picked d g n x x']: x' has n items along axis d and item k of x' is item g k of x: selecting,
      reordering or repeating the images of a batch;
    - [rank al d]: the position of axis d among the axes that are not in al;
    - [reduced nd al]: the axes that are reduced when asked for al (all of them if al is empty). *)
From Coq Require Import QArith Qcanon.
From Verif Require Import EdgeExample PropsEdge SsimRefute IndexLemmas PickEdge PickSsim.
Open Scope Z_scope.

Theorem C119_pad : forall (F : ofield) d (g : Z -> Z) n fuel junk fuel' junk' (p : padder F) (x x' : tensor F) ax al,
  pad_call fuel p x ax al -> pad_call fuel' p x' ax al -> all_fine F p x al ->
  (forall b q, axis_par p (last_axes p al) b = Some q -> is_empty_mode F (ap_mode q) = false) ->
  (d < ndim x)%nat -> ~ In d al -> picked d g n x x' ->
  exists y y', padder_forward fuel junk p x ax = Ok y /\ padder_forward fuel' junk' p x' ax = Ok y' /\ picked d g n y y'.
Proof. exact padding_pick. Qed.
Print Assumptions C119_pad.
Theorem C119_pool_valid : forall (F : ofield) d (g : Z -> Z) n fuel junk fuel' junk' (m : pool F) (x x' : tensor F) ax al kers sts, on_axes x ax al ->
  built (length al) kers sts None m ->
  (forall r, (r < length al)%nat -> klen (nth r kers []) <= nth (nth r al 0%nat) (shp x) 0) ->
  ~ In d al -> picked d g n x x' ->
  exists y y', snd (sep_forward fuel junk m x ax) = Ok y /\ snd (sep_forward fuel' junk' m x' ax) = Ok y' /\ picked d g n y y'.
Proof. exact pool_valid_pick. Qed.
Print Assumptions C119_pool_valid.
Theorem C119_pool_same : forall (F : ofield) d (g : Z -> Z) n fuel junk fuel' junk' (m : pool F) (x x' : tensor F) ax al kers sts p ms,
  built (length al) kers sts (Some p) m -> same_call F fuel p x ax al ms kers sts -> same_call F fuel' p x' ax al ms kers sts ->
  (d < ndim x)%nat -> ~ In d al -> picked d g n x x' ->
  exists y y', snd (sep_forward fuel junk m x ax) = Ok y /\ snd (sep_forward fuel' junk' m x' ax) = Ok y' /\ picked d g n y y'.
Proof. exact pool_same_pick. Qed.
Print Assumptions C119_pool_same.
Theorem C119_component : forall (F : ofield) (trunc : F -> Z) d (g : Z -> Z) n fuel junk fuel' junk' ker smooth raw normalize p m shared (e : edge_filter F) (x x' : tensor F) ea ax ax' c al k,
  edge_init (NItem ker) smooth normalize (Some p) shared = Ok e -> ker <> [] ->
  check_axes (Z.of_nat (ndim x)) ea = Ok [Z.of_nat c] -> In c al ->
  edge_image fuel p m x ax al (k + 1) -> edge_image fuel' p m x' ax al (k + 1) -> check_axes (Z.of_nat (ndim x)) ax' = Ok (map Z.of_nat al) -> klen ker <= k ->
  expand (length (without c al)) smooth = Some raw -> (forall s, In s raw -> klen s <= k) ->
  (d < ndim x)%nat -> ~ In d al -> picked d g n x x' ->
  exists y y', snd (component trunc fuel junk e x ea ax') = Ok y /\ snd (component trunc fuel' junk' e x' ea ax') = Ok y' /\ picked d g n y y'.
Proof. exact component_pick. Qed.
Print Assumptions C119_component.
Theorem C119_magnitude : forall (F : ofield) (trunc : F -> Z) d (g : Z -> Z) n fuel junk fuel' junk' normalize p m shared (e : edge_filter F) (x x' : tensor F) ker smooth ax al eps pw,
  truncates trunc -> named normalize (Some p) shared e ker smooth ->
  edge_image fuel p m x ax al 6 -> edge_image fuel' p m x' ax al 6 -> m <> MPeriodize -> (2 <= length al)%nat ->
  (d < ndim x)%nat -> ~ In d al -> picked d g n x x' ->
  exists y y', snd (magnitude trunc fuel junk e x ax eps pw) = Ok y /\ snd (magnitude trunc fuel' junk' e x' ax eps pw) = Ok y' /\ picked d g n y y'.
Proof. exact magnitude_pick. Qed.
Print Assumptions C119_magnitude.
Theorem C119_mse : forall (F : ofield) d (g : Z -> Z) n r (u v u' v' : tensor F) ax al, on_axes u ax al -> shp u = shp v -> (d < ndim u)%nat ->
  ~ In d (reduced (ndim u) al) -> picked d g n u u' -> picked d g n v v' ->
  match r with
  | RNone => exists e e', mse_forward r u v ax = Ok e /\ mse_forward r u' v' ax = Ok e' /\ picked d g n e e'
  | RSum => exists y y', mse_forward r u v ax = Ok y /\ mse_forward r u' v' ax = Ok y' /\ picked (rank (reduced (ndim u) al) d) g n y y'
  | RMean => (forall a, In a (reduced (ndim u) al) -> 0 < nth a (shp u) 0) ->
      exists y y', mse_forward r u v ax = Ok y /\ mse_forward r u' v' ax = Ok y' /\ picked (rank (reduced (ndim u) al) d) g n y y'
  | ROther => mse_forward r u v ax = Err ValueError /\ mse_forward r u' v' ax = Err ValueError
  end.
Proof. exact mse_pick. Qed.
Print Assumptions C119_mse.
(** SSIM fails if a denominator of any item is zero, so the picked call can succeed where the full one fails;
    never the other way round. *)
Theorem C119_ssim : forall (F : ofield) d (g : Z -> Z) n fuel junk (s : ssim F) (x y x' y' : tensor F) cax rax al rl kers pd score map,
  ssim_call fuel s x y cax rax al rl kers pd -> ssim_call fuel s x' y' cax rax al rl kers pd ->
  (d < ndim x)%nat -> ~ In d al -> picked d g n x x' -> picked d g n y y' ->
  snd (ssim_forward (sep_forward fuel junk) x y cax rax s) = Ok (score, map) ->
  exists score' map', snd (ssim_forward (sep_forward fuel junk) x' y' cax rax s) = Ok (score', map') /\ picked d g n map map' /\
    (~ In d (reduced (ndim x) rl) -> picked (rank (reduced (ndim x) rl) d) g n score score').
Proof. exact ssim_pick. Qed.
Print Assumptions C119_ssim.

(** The items g 0, ..., g (n - 1) of x along axis d. *)
Definition pick (d : nat) (g : Z -> Z) (n : Z) (x : tensor QcF) : tensor QcF :=
  mkT (upd d n (shp x)) (fun i => at_ x (upd d (g (nth d i 0)) i)).
Lemma pick_picked d g n x : (forall k, 0 <= k < n -> 0 <= g k < nth d (shp x) 0) -> picked d g n x (pick d g n x).
Proof. intros H. split; [reflexivity|]. split; [exact H|]. reflexivity. Qed.
(** Second, first, second. *)
Definition sfs (k : Z) : Z := if k =? 1 then 0 else 1.
Lemma sfs_ok k : 0 <= k < 3 -> 0 <= sfs k < 2.
Proof. intros H. unfold sfs. destruct (k =? 1); lia. Qed.
Definition x323 := ofz [3; 3] [10; 20; 40; 1; 2; 4; 10; 20; 40].
Lemma x323_picked : picked 0 sfs 3 x23 x323.
Proof.
  split; [reflexivity|]. split; [exact sfs_ok|]. intros i V. apply valid2 in V as [k [l [-> [Hk Hl]]]].
  assert (k = 0 \/ k = 1 \/ k = 2) as [->|[->| ->]] by lia; (assert (l = 0 \/ l = 1 \/ l = 2) as [->|[->| ->]] by lia); vm_compute; reflexivity.
Qed.
Example C119_pad_example :
  pad_call 9 (pad1d (1, 2) MReflect) x23 (AxInt 1) [1%nat] /\ pad_call 9 (pad1d (1, 2) MReflect) x323 (AxInt 1) [1%nat] /\
  all_fine QcF (pad1d (1, 2) MReflect) x23 [1%nat] /\ picked 0 sfs 3 x23 x323 /\
  show (padder_forward 9 garbage (pad1d (1, 2) MReflect) x23 (AxInt 1)) = Some ([2; 6], zq [2; 1; 2; 4; 2; 1;  20; 10; 20; 40; 20; 10]) /\
  show (padder_forward 9 garbage (pad1d (1, 2) MReflect) x323 (AxInt 1)) = Some ([3; 6], zq [20; 10; 20; 40; 20; 10;  2; 1; 2; 4; 2; 1;  20; 10; 20; 40; 20; 10]).
Proof.
  split; [ex_call|]. split; [ex_call|]. split.
  { intros d [<-|[]]. eexists. split; [reflexivity|]. split; [cbn; lia|]. split; [cbn; lia|]. right. right. split; [left; cbn; lia|]. eexists. reflexivity. }
  split; [exact x323_picked|]. split; vm_compute; reflexivity.
Qed.

(** Pooling, edges and metrics of a batch of two 4 x 3 images (x51) and of its second, first and second item. *)
Lemma b51_picked (x : tensor QcF) : nth 0 (shp x) 0 = 2 -> picked 0 sfs 3 x (pick 0 sfs 3 x).
Proof. intros H. apply pick_picked. rewrite H. exact sfs_ok. Qed.
Lemma batch_same (x : tensor QcF) n : shp x = [n; 4; 3] -> 1 <= n <= 4 -> same_call QcF 20 repl x (AxSeq [1; 2]) [1%nat; 2%nat] [MReplicate; MReplicate] kers51 [1; 1].
Proof.
  intros Sx Hn. split.
  - split; [unfold ndim; rewrite Sx; reflexivity|unfold ndim; rewrite Sx; intros a [<-|[<-|[]]]; cbn; lia|repeat constructor; cbn; intuition lia].
  - unfold ndim. rewrite Sx. cbn. lia.
  - unfold ndim. rewrite Sx. intros [|[|[|d]]] Hd; cbn in *; lia.
  - rewrite Sx. intros a [<-|[<-|[]]]; cbn; lia.
  - intros [|[|r]] Hr; cbn in *; lia.
  - split; [reflexivity|discriminate|discriminate|discriminate].
  - intros m [<-|[<-|[]]]; exact I.
  - unfold ndim. rewrite Sx. intros d k Hd Hk. assert (nth d [n; 4; 3] 0 <= 4) by (destruct d as [|[|[|d]]]; cbn in *; lia).
    destruct Hk as [->|[ker [[<-|[<-|[]]] ->]]]; unfold klen; cbn [kerA kerB length]; lia.
Qed.
Lemma batch_image (x : tensor QcF) n k : shp x = [n; 4; 3] -> 1 <= n <= 4 -> k <= 12 -> edge_image 20 repl MReplicate x (AxSeq [1; 2]) [1%nat; 2%nat] k.
Proof.
  intros Sx Hn Hk.
  split; [split; [unfold ndim; rewrite Sx; reflexivity|unfold ndim; rewrite Sx; intros a [<-|[<-|[]]]; cbn; lia|repeat constructor; cbn; intuition lia] | | | | exact I |].
  - unfold ndim. rewrite Sx. intros [|[|[|d]]] Hd; cbn in *; lia.
  - rewrite Sx. intros a [<-|[<-|[]]]; cbn; lia.
  - split; [reflexivity|]. split; [eexists; reflexivity|]. split; eexists; reflexivity.
  - unfold ndim. rewrite Sx. intros [|[|[|d]]] Hd; cbn [nth length] in Hd |- *; try lia.
Qed.
Example C119_pool_example :
  built 2 kers51 [1; 1] None (filt51 None) /\ built 2 kers51 [1; 1] (Some repl) (filt51 (Some repl)) /\
  same_call QcF 20 repl x51 (AxSeq [1; 2]) [1%nat; 2%nat] [MReplicate; MReplicate] kers51 [1; 1] /\
  same_call QcF 20 repl (pick 0 sfs 3 x51) (AxSeq [1; 2]) [1%nat; 2%nat] [MReplicate; MReplicate] kers51 [1; 1] /\ picked 0 sfs 3 x51 (pick 0 sfs 3 x51) /\
  show (snd (sep_forward 20 garbage (filt51 None) x51 (AxSeq [1; 2]))) = Some ([2; 2; 2], [9#2; 11#2; 21#4; 25#4;  1#2; 1#2; 1#2; 1#2]%Q) /\
  show (snd (sep_forward 20 garbage (filt51 None) (pick 0 sfs 3 x51) (AxSeq [1; 2]))) = Some ([3; 2; 2], [1#2; 1#2; 1#2; 1#2;  9#2; 11#2; 21#4; 25#4;  1#2; 1#2; 1#2; 1#2]%Q).
Proof.
  split; [apply built51|]. split; [apply built51|]. split; [now apply (batch_same x51 2)|]. split; [apply (batch_same (pick 0 sfs 3 x51) 3); [reflexivity|lia]|].
  split; [now apply b51_picked|]. split; vm_compute; reflexivity.
Qed.
Example C119_edge_example : exists e : edge_filter QcF,
  named false (Some repl) true e central_kernel (ints [1; 2; 1]) /\ edge_image 20 repl MReplicate x51 (AxSeq [1; 2]) [1%nat; 2%nat] 6 /\
  edge_image 20 repl MReplicate (pick 0 sfs 3 x51) (AxSeq [1; 2]) [1%nat; 2%nat] 6 /\ picked 0 sfs 3 x51 (pick 0 sfs 3 x51) /\
  show (snd (component qtrunc 20 garbage e x51 (AxInt 1) (AxSeq [1; 2]))) =
    Some ([2; 4; 3], zq [12; 12; 12; 24; 24; 24; -12; -12; -12; -24; -24; -24;   2; 0; 2; 0; 0; 0; 0; 0; 0; 2; 0; 2]) /\
  show (snd (component qtrunc 20 garbage e (pick 0 sfs 3 x51) (AxInt 1) (AxSeq [1; 2]))) =
    Some ([3; 4; 3], zq [2; 0; 2; 0; 0; 0; 0; 0; 0; 2; 0; 2;   12; 12; 12; 24; 24; 24; -12; -12; -12; -24; -24; -24;   2; 0; 2; 0; 0; 0; 0; 0; 0; 2; 0; 2]).
Proof.
  destruct (named_ok QcF false (Some repl) true) as [[e He] _]. exists e.
  split; [now apply n_sobel|]. split; [apply (batch_image x51 2); [reflexivity|lia|lia]|]. split; [apply (batch_image (pick 0 sfs 3 x51) 3); [reflexivity|lia|lia]|].
  split; [now apply b51_picked|]. rewrite (get_ok filter0 _ _ He). clear He. split; vm_compute; reflexivity.
Qed.
Example C119_mse_example : on_axes x51 (AxSeq [1; 2]) [1%nat; 2%nat] /\ rank (reduced (ndim x51) [1%nat; 2%nat]) 0 = 0%nat /\ ~ In 0%nat (reduced (ndim x51) [1%nat; 2%nat]) /\
  show (mse_forward RMean x51 y51 (AxSeq [1; 2])) = Some ([2], [4 # 3; 5 # 6]%Q) /\
  show (mse_forward RMean (pick 0 sfs 3 x51) (pick 0 sfs 3 y51) (AxSeq [1; 2])) = Some ([3], [5 # 6; 4 # 3; 5 # 6]%Q).
Proof.
  split; [ex_on|]. split; [reflexivity|]. split; [cbn; intuition lia|]. split; vm_compute; reflexivity.
Qed.
Lemma batch_ssim n x y : shp x = [n; 4; 3] -> shp y = [n; 4; 3] -> 1 <= n <= 4 ->
  ssim_call 20 (s51 (Some repl) true) x y (AxSeq [1; 2]) (AxSeq [1; 2]) [1%nat; 2%nat] [1%nat; 2%nat] kers51 (Some repl).
Proof.
  intros Sx Sy Hn. pose proof (batch_same x n Sx Hn) as SC. split.
  - congruence.
  - apply SC.
  - apply SC.
  - apply built51.
  - exists [MReplicate; MReplicate]. exact SC.
  - intros _ [|[|r]] Hr; rewrite Sx; unfold klen; cbn in *; lia.
  - rewrite Sx. intros k [<-|[<-|[<-|[]]]]; lia.
  - intros _ E. discriminate.
Qed.
Example C119_ssim_example :
  ssim_call 20 (s51 (Some repl) true) x51 y51 (AxSeq [1; 2]) (AxSeq [1; 2]) [1%nat; 2%nat] [1%nat; 2%nat] kers51 (Some repl) /\
  ssim_call 20 (s51 (Some repl) true) (pick 0 sfs 3 x51) (pick 0 sfs 3 y51) (AxSeq [1; 2]) (AxSeq [1; 2]) [1%nat; 2%nat] [1%nat; 2%nat] kers51 (Some repl) /\
  fst (show2 (snd (ssim_forward (sep_forward 20 garbage) x51 y51 (AxSeq [1; 2]) (AxSeq [1; 2]) (s51 (Some repl) true)))) =
    Some ([2], [570569277776133941 # 614443691825279589; -1062367 # 1818528]%Q) /\
  fst (show2 (snd (ssim_forward (sep_forward 20 garbage) (pick 0 sfs 3 x51) (pick 0 sfs 3 y51) (AxSeq [1; 2]) (AxSeq [1; 2]) (s51 (Some repl) true)))) =
    Some ([3], [-1062367 # 1818528; 570569277776133941 # 614443691825279589; -1062367 # 1818528]%Q).
Proof.
  split; [apply (batch_ssim 2); [reflexivity|reflexivity|lia]|]. split; [apply (batch_ssim 3); [reflexivity|reflexivity|lia]|]. split; vm_compute; reflexivity.
Qed.
