(** C122: MS_SSIM works item by item along the axes that are not content axes, and commutes with permuting the axes.

    Vocabulary (PickPad.v, AxisPerm.v, PermSsim.v, MsForward.v; PropsPick.v, PropsPermute.v, PropsMs.v):
    - [picked d g n x x']: x' consists of the items g 0, ..., g (n - 1) of x along axis d;
    - [rank al d]: the position of axis d among the axes that are not in al; [reduced n al]: al, or all axes if al is empty;
    - [renames n ren back], [permuted ren x x']: x' is x with axis d renamed to ren d;
    - [renamed_out ren n s' al al' y y']: y and y' are corresponding results of reducing along al and along al';
    - [kept_shape al sh]: sh with the axes al of length one;
    - [ms_call]: images, MS_SSIM blur and axes fit together. *)
From Coq Require Import QArith Qcanon.
From Verif Require Import MsReindex SsimRefute IndexLemmas PropsPick PropsPermute.
Open Scope Z_scope.

Theorem C122_items : forall (F : ofield) d (g : Z -> Z) n nd, (d < nd)%nat ->
  forall fuel junk (s : ssim F) (x y x' y' : tensor F) cax rax al rl kers pd pow (m : msssim F) score,
  ms_call fuel s x y cax rax al rl kers pd -> ms_call fuel s x' y' cax rax al rl kers pd -> ms_weights m <> [] -> ndim x = nd ->
  ~ In d (reduced nd al) -> picked d g n x x' -> picked d g n y y' ->
  snd (ms_forward (sep_forward fuel junk) pow (avg_forward fuel junk true) m x y cax rax s) = Ok score ->
  exists score', snd (ms_forward (sep_forward fuel junk) pow (avg_forward fuel junk true) m x' y' cax rax s) = Ok score' /\
    (~ In d (reduced nd rl) -> picked (rank (reduced nd rl) d) g n score score').
Proof. exact ms_pick. Qed.
Print Assumptions C122_items.
(** Both calls fail alike (images too small for the number of levels, or a zero denominator), or the scores correspond. *)
Theorem C122_permuted : forall (F : ofield) n ren back fuel junk (s : ssim F) (x y x' y' : tensor F) cax rax cax' rax' al rl kers pd pow (m : msssim F),
  renames n ren back -> ms_call fuel s x y cax rax al rl kers pd ->
  (2 <= length (ms_weights m))%nat -> ndim x = n -> permuted ren x x' -> permuted ren y y' ->
  check_axes (Z.of_nat n) cax' = Ok (map Z.of_nat (map ren al)) -> check_axes (Z.of_nat n) rax' = Ok (map Z.of_nat (map ren rl)) ->
  (exists score score', snd (ms_forward (sep_forward fuel junk) pow (avg_forward fuel junk true) m x y cax rax s) = Ok score /\
     snd (ms_forward (sep_forward fuel junk) pow (avg_forward fuel junk true) m x' y' cax' rax' s) = Ok score' /\
     renamed_out ren n (kept_shape (map ren al) (shp x')) (reduced n rl) (reduced n (map ren rl)) score score') \/
  (exists e, snd (ms_forward (sep_forward fuel junk) pow (avg_forward fuel junk true) m x y cax rax s) = Err e /\
     snd (ms_forward (sep_forward fuel junk) pow (avg_forward fuel junk true) m x' y' cax' rax' s) = Err e /\ (e = ZeroDivisionError \/ e = AssertionError)).
Proof. exact ms_perm. Qed.
Print Assumptions C122_permuted.

(** Two rows of seven pixels; second, first and second row. *)
Lemma call_rows (x y : tensor QcF) n : shp x = [n; 7] -> shp y = [n; 7] -> 1 <= n <= 12 ->
  ms_call 20 (s54 (Some repl)) x y (AxSlice (sfrom 1)) (AxSlice (sfrom 1)) [1%nat] [1%nat] [kerB] (Some repl).
Proof.
  intros Sx Sy Hn. assert (N : ndim x = 2%nat) by (unfold ndim; now rewrite Sx).
  assert (OA : forall ax, check_axes 2 ax = Ok [1] -> on_axes x ax [1%nat]).
  { intros ax E. constructor; [rewrite N; exact E|intros a [<-|[]]; rewrite N; lia|repeat constructor; intros []]. }
  split.
  - congruence.
  - apply OA. reflexivity.
  - apply OA. reflexivity.
  - apply filt1_built.
  - intros k [<-|[]]. unfold klen. cbn. lia.
  - exists [MReplicate]. split; [apply OA; reflexivity|rewrite N; lia| | |intros [|[|r]] Hr; cbn in Hr |- *; try lia| | |].
    + intros d Hd. rewrite N in Hd. rewrite Sx. destruct d as [|[|d]]; cbn; lia.
    + intros a [<-|[]]. rewrite Sx. cbn. lia.
    + split; [reflexivity|discriminate|discriminate|discriminate].
    + intros k [<-|[]]; exact I.
    + intros d k Hd Hk. rewrite N in Hd. assert (nth d (shp x) 0 <= 12) by (rewrite Sx; destruct d as [|[|d]]; cbn; lia).
      destruct Hk as [->|[ker [[<-|[]] ->]]]; unfold klen; cbn [kerB length]; lia.
  - intros k. rewrite Sx. intros [<-|[<-|[]]]; lia.
  - intros _ E. discriminate.
Qed.
Notation ms_rows x y ax := (snd (ms_forward (F := QcF) (sep_forward 20 garbage) ipow (avg_forward 20 garbage true) (ms_of [qz 2; qz 3] false) x y ax ax (s54 (Some repl)))).
Example C122_items_example : let x' := pick 0 sfs 3 x54 in let y' := pick 0 sfs 3 y54 in
  ms_call 20 (s54 (Some repl)) x54 y54 (AxSlice (sfrom 1)) (AxSlice (sfrom 1)) [1%nat] [1%nat] [kerB] (Some repl) /\
  ms_call 20 (s54 (Some repl)) x' y' (AxSlice (sfrom 1)) (AxSlice (sfrom 1)) [1%nat] [1%nat] [kerB] (Some repl) /\
  picked 0 sfs 3 x54 x' /\ picked 0 sfs 3 y54 y' /\ ~ In 0%nat (reduced 2 [1%nat]) /\ rank (reduced 2 [1%nat]) 0 = 0%nat /\
  show (ms_rows x54 y54 (AxSlice (sfrom 1))) = Some ([2], [17296058961869 # 4126617998932; 11064572 # 4206769]%Q) /\
  show (ms_rows x' y' (AxSlice (sfrom 1))) = Some ([3], [11064572 # 4206769; 17296058961869 # 4126617998932; 11064572 # 4206769]%Q).
Proof.
  split; [apply (call_rows _ _ 2); [reflexivity|reflexivity|lia]|]. split; [apply (call_rows _ _ 3); [reflexivity|reflexivity|lia]|].
  split; [apply pick_picked; exact sfs_ok|]. split; [apply pick_picked; exact sfs_ok|]. split; [intros [E|[]]; discriminate|]. split; [reflexivity|].
  split; vm_compute; reflexivity.
Qed.
Definition swap (d : nat) : nat := match d with 0%nat => 1%nat | 1%nat => 0%nat | _ => d end.
Lemma swap_ren : renames 2 swap swap.
Proof. constructor; intros [|[|d]] H; cbn; lia. Qed.
Definition transpose (x : tensor QcF) : tensor QcF := mkT (pull swap 2 (shp x)) (fun i => at_ x (pull swap 2 i)).
Lemma transpose_perm x : ndim x = 2%nat -> permuted swap x (transpose x).
Proof.
  intros N. split; [rewrite N; reflexivity|]. rewrite N. split; [|reflexivity]. cbn [transpose shp]. symmetry. apply (pull_back 2 swap swap swap_ren). exact N.
Qed.
Example C122_permuted_example : renames 2 swap swap /\ permuted swap x54 (transpose x54) /\ permuted swap y54 (transpose y54) /\ shp (transpose x54) = [7; 2] /\
  check_axes 2 (AxInt (-2)) = Ok (map Z.of_nat (map swap [1%nat])) /\
  show (ms_rows x54 y54 (AxSlice (sfrom 1))) = Some ([2], [17296058961869 # 4126617998932; 11064572 # 4206769]%Q) /\
  show (ms_rows (transpose x54) (transpose y54) (AxInt (-2))) = Some ([2], [17296058961869 # 4126617998932; 11064572 # 4206769]%Q).
Proof.
  split; [exact swap_ren|]. split; [now apply transpose_perm|]. split; [now apply transpose_perm|]. split; [reflexivity|]. split; [reflexivity|]. split; vm_compute; reflexivity.
Qed.
