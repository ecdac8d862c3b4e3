(** C110, C111: what MS_SSIM computes; change of contrast.

    Vocabulary (MsValue.v, MsLaws.v; PropsSsim.v):
    - [halves al x x']: x' is x with the axes al halved (rounding down), pixels being means of 2 x ... x 2 blocks;
    - [level_mean al kers g x y sc]: sc j is the mean, over the axes al, of g applied to the windowed means and second
      moments of x and y; [cs_at] and [ssim_at]: contrast-structure part and full SSIM of a window;
    - [levels_value al kers K1 K2 c pow m ws x y v]: v is the product of clamped level means to the power of their weights
      (or the sum of weight times mean); all levels but the last use cs_at, the last one ssim_at, and every level
      is the halved previous one;
    - [times a x x']: x' = a * x. *)
From Coq Require Import QArith Qcanon.
From Verif Require Import MsValue MsLaws SsimRefute IndexLemmas.
Open Scope Z_scope.
Definition ax1 := AxSlice (sfrom 1).
Notation ms_result m x y s := (snd (ms_forward (F := QcF) (sep_forward 20 garbage) ipow (avg_forward 20 garbage true) m x y ax1 ax1 s)).

(** ** C110: without padding, the score is the mean over the reduced axes of the combined level scores. *)
Theorem C110_value : forall (F : ofield) fuel junk (s : ssim F) (x y : tensor F) cax rax al rl kers pow (m : msssim F) score,
  ms_call fuel s x y cax rax al rl kers None -> al <> [] -> rl <> [] -> ms_weights m <> [] ->
  snd (ms_forward (sep_forward fuel junk) pow (avg_forward fuel junk true) m x y cax rax s) = Ok score ->
  let n := zprod (map klen kers) in
  let c := if ss_sample s then fdiv (fofZ n) (fofZ (n - 1)) else f1 in
  exists v, levels_value al kers (ss_K1 s) (ss_K2 s) c pow m (ms_weights m) x y v /\
    shp score = outside rl (ones_at al (shp x)) /\
    forall j L, valid (shp score) j -> block_of (ones_at al (shp x)) rl j L ->
      0 < Z.of_nat (length L) /\ at_ score j = fdiv (lsum (map v L)) (fofZ (Z.of_nat (length L))).
Proof. exact ms_value. Qed.
Print Assumptions C110_value.
Example C110_example : ms_call 20 (s54 None) x54 y54 ax1 ax1 [1%nat] [1%nat] [kerB] None /\ ms_weights (ms_of [qz 2; qz 3] false) <> [] /\
  show (ms_result (ms_of [qz 2; qz 3] false) x54 y54 (s54 None)) = Some ([2], [17296058961869 # 4126617998932; 11064572 # 4206769]%Q).
Proof. split; [apply call54; auto|]. split; [discriminate|vm_compute; reflexivity]. Qed.

(** ** C111: MS_SSIM does not change if both images are multiplied by a and K1, K2 by a (up to sign). *)
Theorem C111_contrast : forall (F : ofield) fuel junk (s s' : ssim F) (x y x' y' : tensor F) cax rax al rl kers pd pow (m : msssim F) a,
  ms_call fuel s x y cax rax al rl kers pd -> (2 <= length (ms_weights m))%nat ->
  match pd with None => True | Some p => every_axis (length al) p linear_mode end -> a <> f0 ->
  ss_blur s' = ss_blur s -> ss_sample s' = ss_sample s -> ss_crop s' = ss_crop s ->
  fmul (ss_K1 s') (ss_K1 s') = fmul (fmul a a) (fmul (ss_K1 s) (ss_K1 s)) -> fmul (ss_K2 s') (ss_K2 s') = fmul (fmul a a) (fmul (ss_K2 s) (ss_K2 s)) ->
  times a x x' -> times a y y' ->
  same_result (snd (ms_forward (sep_forward fuel junk) pow (avg_forward fuel junk true) m x y cax rax s))
              (snd (ms_forward (sep_forward fuel junk) pow (avg_forward fuel junk true) m x' y' cax rax s')).
Proof. exact ms_scale. Qed.
Print Assumptions C111_contrast.
(** The images -3 * x54 and -3 * y54. *)
Definition x111 := ofz [2; 7] [-3; -6; -9; -15; -24; -6; -3;  0; -3; 0; -9; 0; -3; 0].
Definition y111 := ofz [2; 7] [-6; -6; -9; -12; -24; -3; -3;  -3; -3; 0; -6; 0; -3; -12].
Lemma times111 u u' : shp u = [2; 7] -> shp u' = [2; 7] -> (forall k, 0 <= k < 2 -> forall l, 0 <= l < 7 -> at_ u' [k; l] = fmul (qz (-3)) (at_ u [k; l])) -> times (qz (-3)) u u'.
Proof. intros S S' H. split; [congruence|]. intros i V. rewrite S in V. apply valid2 in V as [k [l [-> [Hk Hl]]]]. auto. Qed.
Example C111_example :
  ms_call 20 (s54 (Some repl)) x54 y54 ax1 ax1 [1%nat] [1%nat] [kerB] (Some repl) /\ every_axis 1 repl linear_mode /\ times (qz (-3)) x54 x111 /\ times (qz (-3)) y54 y111 /\
  ss_blur (s1 kerB (Some repl) (qq 3 2) (qz 1) true true) = ss_blur (s54 (Some repl)) /\
  show (ms_result (ms_of [qz 2; qz 3] true) x54 y54 (s54 (Some repl))) =
  show (ms_result (ms_of [qz 2; qz 3] true) x111 y111 (s1 kerB (Some repl) (qq 3 2) (qz 1) true true)) /\
  show (ms_result (ms_of [qz 2; qz 3] true) x111 y111 (s54 (Some repl))) <>
  show (ms_result (ms_of [qz 2; qz 3] true) x54 y54 (s54 (Some repl))).
Proof.
  split; [apply call54; auto; right; exists MReplicate; split; auto; exact I|].
  split; [exists [MReplicate], [(qz 7, qz 8)], [(qz 0, qz 10)]; do 3 (split; [reflexivity|]); intros [|r] Hr; cbn; auto; lia|].
  assert (H2 : forall k, 0 <= k < 2 -> k = 0 \/ k = 1) by (intros; lia).
  assert (H7 : forall l, 0 <= l < 7 -> l = 0 \/ l = 1 \/ l = 2 \/ l = 3 \/ l = 4 \/ l = 5 \/ l = 6) by (intros; lia).
  split; [apply times111; try reflexivity; intros k Hk l Hl; destruct (H2 k Hk) as [->| ->]; destruct (H7 l Hl) as [->|[->|[->|[->|[->|[->| ->]]]]]]; apply Qc_is_canon; vm_compute; reflexivity|].
  split; [apply times111; try reflexivity; intros k Hk l Hl; destruct (H2 k Hk) as [->| ->]; destruct (H7 l Hl) as [->|[->|[->|[->|[->|[->| ->]]]]]]; apply Qc_is_canon; vm_compute; reflexivity|].
  split; [reflexivity|]. split; [vm_compute; reflexivity|]. vm_compute. discriminate.
Qed.
