(** C121: edge filters, reductions and metrics of images whose axes are permuted.

    Vocabulary (AxisPerm.v, PermSsim.v; PropsPerm.v, PropsEdge.v, PropsSsim.v):
    - [renames n ren back], [permuted ren x x'], [pull ren n i]: x' is x with axis d renamed to ren d; pull gives the old index;
    - [outside al i]: i without the coordinates of the axes al; [reduced n al]: al, or all axes if al is empty;
    - [renamed_out ren n s' al al' y y']: y and y' are the results of reducing the image along al and its renamed form (of shape s')
      along al': the value of y' for the renamed index i is the value of y for the old index;
    - [edge_image], [named], [without], [ssim_call]: as there. *)
From Coq Require Import QArith.
From Verif Require Import EdgeExample PropsEdge SsimRefute IndexLemmas PermSsim PropsPick.
Open Scope Z_scope.

Theorem C121_component : forall (F : ofield) (trunc : F -> Z) n ren back, renames n ren back ->
  forall fuel junk junk' ker smooth raw normalize p m shared (e : edge_filter F) (x x' : tensor F) ea ea' ax axr ax' c al k,
  edge_init (NItem ker) smooth normalize (Some p) shared = Ok e -> ker <> [] ->
  check_axes (Z.of_nat n) ea = Ok [Z.of_nat c] -> check_axes (Z.of_nat n) ea' = Ok [Z.of_nat (ren c)] -> In c al ->
  edge_image fuel p m x ax al (k + 1) -> check_axes (Z.of_nat n) axr = Ok (map Z.of_nat al) -> check_axes (Z.of_nat n) ax' = Ok (map Z.of_nat (map ren al)) ->
  klen ker <= k -> expand (length (without c al)) smooth = Some raw -> (forall s, In s raw -> klen s <= k) ->
  ndim x = n -> permuted ren x x' ->
  exists y y', snd (component trunc fuel junk e x ea axr) = Ok y /\ snd (component trunc fuel junk' e x' ea' ax') = Ok y' /\ permuted ren y y'.
Proof. exact component_perm. Qed.
Print Assumptions C121_component.
Theorem C121_magnitude : forall (F : ofield) (trunc : F -> Z) n ren back, renames n ren back ->
  forall fuel junk junk' normalize p m shared (e : edge_filter F) (x x' : tensor F) ker smooth ax ax' al eps pw, truncates trunc ->
  named normalize (Some p) shared e ker smooth -> edge_image fuel p m x ax al 6 -> check_axes (Z.of_nat n) ax' = Ok (map Z.of_nat (map ren al)) ->
  m <> MPeriodize -> (2 <= length al)%nat -> ndim x = n -> permuted ren x x' ->
  exists y y', snd (magnitude trunc fuel junk e x ax eps pw) = Ok y /\ snd (magnitude trunc fuel junk' e x' ax' eps pw) = Ok y' /\ permuted ren y y'.
Proof. exact magnitude_perm. Qed.
Print Assumptions C121_magnitude.
Theorem C121_mse : forall (F : ofield) n ren back, renames n ren back ->
  forall r (u v u' v' : tensor F) ax ax' al, on_axes u ax al -> check_axes (Z.of_nat n) ax' = Ok (map Z.of_nat (map ren al)) ->
  shp u = shp v -> ndim u = n -> permuted ren u u' -> permuted ren v v' ->
  match r with
  | RNone => exists e e', mse_forward r u v ax = Ok e /\ mse_forward r u' v' ax' = Ok e' /\ permuted ren e e'
  | RSum => exists y y', mse_forward r u v ax = Ok y /\ mse_forward r u' v' ax' = Ok y' /\
      renamed_out ren n (shp u') (reduced n al) (reduced n (map ren al)) y y'
  | RMean => (forall a, In a (reduced n al) -> 0 < nth a (shp u) 0) ->
      exists y y', mse_forward r u v ax = Ok y /\ mse_forward r u' v' ax' = Ok y' /\
        renamed_out ren n (shp u') (reduced n al) (reduced n (map ren al)) y y'
  | ROther => mse_forward r u v ax = Err ValueError /\ mse_forward r u' v' ax' = Err ValueError
  end.
Proof. exact mse_perm. Qed.
Print Assumptions C121_mse.
(** SSIM: either both calls fail with a zero denominator, or the maps and the scores correspond. *)
Theorem C121_ssim : forall (F : ofield) n ren back, renames n ren back ->
  forall fuel junk (s : ssim F) (x y x' y' : tensor F) cax rax cax' rax' al rl kers pd, ssim_call fuel s x y cax rax al rl kers pd ->
  ndim x = n -> permuted ren x x' -> permuted ren y y' ->
  check_axes (Z.of_nat n) cax' = Ok (map Z.of_nat (map ren al)) -> check_axes (Z.of_nat n) rax' = Ok (map Z.of_nat (map ren rl)) ->
  (exists score map score' map', snd (ssim_forward (sep_forward fuel junk) x y cax rax s) = Ok (score, map) /\
    snd (ssim_forward (sep_forward fuel junk) x' y' cax' rax' s) = Ok (score', map') /\ permuted ren map map' /\
    exists c' : list Z, length c' = n /\ (forall k, In k c' -> 1 <= k) /\ renamed_out ren n c' (reduced n rl) (reduced n (List.map ren rl)) score score') \/
  (snd (ssim_forward (sep_forward fuel junk) x y cax rax s) = Err ZeroDivisionError /\
   snd (ssim_forward (sep_forward fuel junk) x' y' cax' rax' s) = Err ZeroDivisionError).
Proof. exact ssim_perm. Qed.
Print Assumptions C121_ssim.
(** Reducing every axis, both results are the same number. *)
Theorem C121_all : forall (F : ofield) ren n s' al al' (y y' : tensor F), length s' = n -> (forall k, In k s' -> 1 <= k) ->
  (forall d, (d < n)%nat -> In d al) -> (forall d, (d < n)%nat -> In d al') -> renamed_out ren n s' al al' y y' ->
  shp y = [] /\ shp y' = [] /\ at_ y' [] = at_ y [].
Proof. exact renamed_out_all. Qed.
Print Assumptions C121_all.

(** A batch of two 4 x 3 images (axes: item, row, column) stored column, item, row. *)
Definition rot (d : nat) : nat := match d with 0%nat => 1%nat | 1%nat => 2%nat | 2%nat => 0%nat | _ => d end.
Definition tor (d : nat) : nat := match d with 0%nat => 2%nat | 1%nat => 0%nat | 2%nat => 1%nat | _ => d end.
Lemma rot_ren : renames 3 rot tor.
Proof. constructor; intros [|[|[|d]]] H; cbn; lia. Qed.
Definition rott (x : tensor QcF) : tensor QcF := mkT (pull tor 3 (shp x)) (fun i => at_ x (pull rot 3 i)).
Lemma rott_perm x : ndim x = 3%nat -> permuted rot x (rott x).
Proof.
  intros N. split; [rewrite N; reflexivity|]. rewrite N. split; [|reflexivity]. cbn [rott shp]. symmetry. apply (pull_back 3 rot tor rot_ren). exact N.
Qed.
Example C121_edge_example : exists e : edge_filter QcF,
  named false (Some repl) true e central_kernel (ints [1; 2; 1]) /\ edge_image 20 repl MReplicate x51 (AxSeq [1; 2]) [1%nat; 2%nat] 6 /\
  renames 3 rot tor /\ permuted rot x51 (rott x51) /\ shp (rott x51) = [3; 2; 4] /\ check_axes 3 (AxSeq [-1; 0]) = Ok (map Z.of_nat (map rot [1%nat; 2%nat])) /\
  show (snd (component qtrunc 20 garbage e x51 (AxInt 1) (AxSeq [1; 2]))) =
    Some ([2; 4; 3], zq [12; 12; 12; 24; 24; 24; -12; -12; -12; -24; -24; -24;   2; 0; 2; 0; 0; 0; 0; 0; 0; 2; 0; 2]) /\
  show (snd (component qtrunc 20 garbage e (rott x51) (AxInt 2) (AxSeq [-1; 0]))) =
    Some ([3; 2; 4], zq [12; 24; -12; -24; 2; 0; 0; 2;  12; 24; -12; -24; 0; 0; 0; 0;  12; 24; -12; -24; 2; 0; 0; 2]).
Proof.
  destruct (named_ok QcF false (Some repl) true) as [[e He] _]. exists e.
  split; [now apply n_sobel|]. split; [apply (batch_image x51 2); [reflexivity|lia|lia]|].
  split; [exact rot_ren|]. split; [now apply rott_perm|]. split; [reflexivity|]. split; [reflexivity|].
  rewrite (get_ok filter0 _ _ He). clear He. split; vm_compute; reflexivity.
Qed.
Example C121_mse_example : on_axes x51 (AxSeq [1; 2]) [1%nat; 2%nat] /\ permuted rot y51 (rott y51) /\
  show (mse_forward RMean x51 y51 (AxSeq [1; 2])) = Some ([2], [4 # 3; 5 # 6]%Q) /\
  show (mse_forward RMean (rott x51) (rott y51) (AxSeq [2; 0])) = Some ([2], [4 # 3; 5 # 6]%Q) /\
  show (mse_forward RMean x51 y51 AxNone) = Some ([], [13 # 12]%Q) /\
  show (mse_forward RMean (rott x51) (rott y51) AxNone) = Some ([], [13 # 12]%Q).
Proof.
  split; [ex_on|]. split; [now apply rott_perm|]. repeat (match goal with |- _ /\ _ => split; [vm_compute; reflexivity|] end). vm_compute; reflexivity.
Qed.
Example C121_ssim_example :
  ssim_call 20 (s51 (Some repl) true) x51 y51 (AxSeq [1; 2]) (AxSeq [1; 2]) [1%nat; 2%nat] [1%nat; 2%nat] kers51 (Some repl) /\
  fst (show2 (snd (ssim_forward (sep_forward 20 garbage) x51 y51 (AxSeq [1; 2]) (AxSeq [1; 2]) (s51 (Some repl) true)))) =
    Some ([2], [570569277776133941 # 614443691825279589; -1062367 # 1818528]%Q) /\
  fst (show2 (snd (ssim_forward (sep_forward 20 garbage) (rott x51) (rott y51) (AxSeq [2; 0]) (AxSeq [2; 0]) (s51 (Some repl) true)))) =
    Some ([2], [570569277776133941 # 614443691825279589; -1062367 # 1818528]%Q).
Proof.
  split; [apply (batch_ssim 2); [reflexivity|reflexivity|lia]|]. split; vm_compute; reflexivity.
Qed.
