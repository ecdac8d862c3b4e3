(** C97: padding, pooling and permutations of the axes.

    Vocabulary (AxisPerm.v; PropsPad.v, PropsPool.v):
    - [renames n ren back]: ren and back are inverse renamings of the axes 0..n-1;
    - [permuted ren x x']: x' is x with axis d renamed to ren d (torch.permute, transpose);
    - [pad_call], [all_fine], [axis_par], [on_axes], [built], [same_call]: as there. *)
From Coq Require Import QArith.
From Verif Require Import ExampleUtil IndexLemmas AxisPerm PropsMirror.
Open Scope Z_scope.

(** ** C97: padding or pooling the permuted image along the renamed axes gives the permuted result. *)
Theorem C97_padding : forall (F : ofield) n ren back, renames n ren back ->
  forall fuel junk junk' (p : padder F) (x x' : tensor F) ax ax' al, ndim x = n -> permuted ren x x' ->
  pad_call fuel p x ax al -> all_fine F p x al ->
  (forall d q, axis_par p (last_axes p al) d = Some q -> is_empty_mode F (ap_mode q) = false) ->
  check_axes (Z.of_nat n) ax' = Ok (map Z.of_nat (map ren al)) ->
  exists y y', padder_forward fuel junk p x ax = Ok y /\ padder_forward fuel junk' p x' ax' = Ok y' /\ ndim y = n /\ permuted ren y y'.
Proof. exact padding_permuted. Qed.
Print Assumptions C97_padding.
Theorem C97_valid : forall (F : ofield) n ren back, renames n ren back ->
  forall fuel junk junk' (m : pool F) (x x' : tensor F) ax ax' al kers sts, ndim x = n -> permuted ren x x' ->
  on_axes x ax al -> check_axes (Z.of_nat n) ax' = Ok (map Z.of_nat (map ren al)) -> built (length al) kers sts None m ->
  (forall r, (r < length al)%nat -> klen (nth r kers []) <= nth (nth r al 0%nat) (shp x) 0) ->
  exists y y', snd (sep_forward fuel junk m x ax) = Ok y /\ snd (sep_forward fuel junk' m x' ax') = Ok y' /\ permuted ren y y'.
Proof. exact pool_valid_permuted. Qed.
Print Assumptions C97_valid.
Theorem C97_same : forall (F : ofield) n ren back, renames n ren back ->
  forall fuel junk junk' (m : pool F) (x x' : tensor F) ax ax' al kers sts p ms, ndim x = n -> permuted ren x x' ->
  check_axes (Z.of_nat n) ax' = Ok (map Z.of_nat (map ren al)) -> built (length al) kers sts (Some p) m ->
  same_call F fuel p x ax al ms kers sts ->
  exists y y', snd (sep_forward fuel junk m x ax) = Ok y /\ snd (sep_forward fuel junk' m x' ax') = Ok y' /\ permuted ren y y'.
Proof. exact pool_same_permuted. Qed.
Print Assumptions C97_same.

Definition swap01 (d : nat) : nat := match d with 0%nat => 1%nat | 1%nat => 0%nat | _ => d end.
Lemma swap01_ren : renames 2 swap01 swap01.
Proof. constructor; intros [|[|d]] H; cbn; lia. Qed.
Definition x32 := ofz [3; 2] [1; 10; 2; 20; 4; 40].
Lemma x32_perm : permuted swap01 x23 x32.
Proof.
  split; [reflexivity|]. split; [reflexivity|]. intros i V. apply valid2 in V as [k [l [-> [Hk Hl]]]].
  assert (l = 0 \/ l = 1) as [->| ->] by lia; (assert (k = 0 \/ k = 1 \/ k = 2) as [->|[->| ->]] by lia); vm_compute; reflexivity.
Qed.
Example C97_example : renames 2 swap01 swap01 /\ permuted swap01 x23 x32 /\
  pad_call 10 (pad2 (1, 0) (2, 1) MReplicate MConstant) x23 AxNone [0; 1]%nat /\
  all_fine QcF (pad2 (1, 0) (2, 1) MReplicate MConstant) x23 [0; 1]%nat /\
  check_axes 2 (AxSeq [1; 0]) = Ok (map Z.of_nat (map swap01 [0; 1]%nat)) /\
  show (padder_forward 10 garbage (pad2 (1, 0) (2, 1) MReplicate MConstant) x23 AxNone) =
    Some ([3; 6], zq [7; 7; 1; 2; 4; 8; 7; 7; 1; 2; 4; 8; 7; 7; 10; 20; 40; 8]) /\
  show (padder_forward 10 garbage (pad2 (1, 0) (2, 1) MReplicate MConstant) x32 (AxSeq [1; 0])) =
    Some ([6; 3], zq [7; 7; 7; 7; 7; 7; 1; 1; 10; 2; 2; 20; 4; 4; 40; 8; 8; 8]).
Proof.
  split; [apply swap01_ren|]. split; [apply x32_perm|]. split; [ex_call|]. split; [ex_fine|]. split; [reflexivity|]. split; vm_compute; reflexivity.
Qed.
(** Pooling by the kernel (1, 2) with stride 2 along the second, then the renamed first axis. *)
Example C97_pool_example : on_axes x23 (AxInt 1) [1%nat] /\ check_axes 2 (AxInt 0) = Ok (map Z.of_nat (map swap01 [1%nat])) /\
  built 1 [k12] [2] None (pl k12 2 None) /\ klen k12 <= 3 /\
  show (snd (sep_forward 9 garbage (pl k12 2 None) x23 (AxInt 1))) = Some ([2; 1], zq [5; 50]) /\
  show (snd (sep_forward 9 garbage (pl k12 2 None) x32 (AxInt 0))) = Some ([1; 2], zq [5; 50]) /\
  show (snd (sep_forward 9 garbage (pl k12 2 (Some (sym (0, 0) MReplicate))) x23 (AxInt 1))) = Some ([2; 2], zq [3; 10; 30; 100]) /\
  show (snd (sep_forward 9 garbage (pl k12 2 (Some (sym (0, 0) MReplicate))) x32 (AxInt 0))) = Some ([2; 2], zq [3; 30; 10; 100]).
Proof.
  split. { constructor; [reflexivity|intros a [<-|[]]; cbn; lia|repeat constructor; cbn; tauto]. } split; [reflexivity|]. split; [apply pl_built; [discriminate|lia]|]. split; [unfold klen; cbn; lia|].
  repeat split; vm_compute; reflexivity.
Qed.
