(** C128: metrics of images whose entries are reordered along an axis; cyclic shifts, edge filters and SSIM.

    Vocabulary (ReduceShuffle.v, EdgeShift.v, SsimShift.v; PropsMirror.v, PropsEdge.v, PropsSsim.v):
    - [reorders n p q]: p and q are maps of 0, ..., n-1 to itself that undo each other;
    - [reordered a p x x']: x' has the shape of x and x' at i is x at i with i_a replaced by p i_a;
    - [reordered_out al a p y y']: the same for results y, y' from which the axes al are removed: y' is y if a is
      one of them, else y' is y reordered along what has become of axis a ([rank al a]);
    - [shifted a s x x']: reordered by t -> (t + s) mod n; [flipped a x x']: by t -> n - 1 - t;
    - [copying m]: circular, symmetric, reflect or replicate;
    - [cyclic_blur a al p]: the modes of p for the axes al are copying modes, circular on axis a;
    - [shifted_scores]: both calls fail with the same error, or the second mean score is the first one reordered
      and the second score map the first one shifted. *)
From Coq Require Import Reals QArith Qcanon Lra.
From Verif Require Import ReduceShuffle PsnrShuffle EdgeShift SsimShift EdgeExample PropsEdge PropsEdge3 SsimRefute IndexLemmas EdgeLinear.
Open Scope Z_scope.

(** ** The mse and the PSNR of two images whose entries are reordered alike along an axis. *)
Theorem C128_mse : forall (F : ofield) r (u v u' v' : tensor F) ax al a p q, on_axes u ax al -> shp u = shp v -> (a < ndim u)%nat ->
  reorders (nth a (shp u) 0) p q -> reordered a p u u' -> reordered a p v v' ->
  match r with
  | RNone => exists d d', mse_forward r u v ax = Ok d /\ mse_forward r u' v' ax = Ok d' /\ reordered a p d d'
  | RSum => exists y y', mse_forward r u v ax = Ok y /\ mse_forward r u' v' ax = Ok y' /\ reordered_out (reduced (ndim u) al) a p y y'
  | RMean => (forall d, In d (reduced (ndim u) al) -> 0 < nth d (shp u) 0) ->
      exists y y', mse_forward r u v ax = Ok y /\ mse_forward r u' v' ax = Ok y' /\ reordered_out (reduced (ndim u) al) a p y y'
  | ROther => mse_forward r u v ax = Err ValueError /\ mse_forward r u' v' ax = Err ValueError
  end.
Proof. exact mse_reordered. Qed.
Print Assumptions C128_mse.
Theorem C128_psnr : forall mx eps r (u v u' v' : tensor RF) ax al a p q, on_axes u ax al -> shp u = shp v -> (a < ndim u)%nat ->
  reorders (nth a (shp u) 0) p q -> reordered a p u u' -> reordered a p v v' -> r = RMean \/ r = RSum ->
  (r = RMean -> forall d, In d (reduced (ndim u) al) -> 0 < nth d (shp u) 0) ->
  (psnr_forward mx eps r u v ax = Err ValueError /\ psnr_forward mx eps r u' v' ax = Err ValueError) \/
  exists y y', psnr_forward mx eps r u v ax = Ok y /\ psnr_forward mx eps r u' v' ax = Ok y' /\ reordered_out (reduced (ndim u) al) a p y y'.
Proof. exact psnr_reordered. Qed.
Print Assumptions C128_psnr.
(** Cyclic shifts and mirror images are reorderings. *)
Theorem C128_shift_is_reordering : forall (F : ofield) a s (x x' : tensor F),
  (shifted a s x x' <-> reordered a (fun t => (t + s) mod nth a (shp x) 0) x x') /\
  reorders (nth a (shp x) 0) (fun t => (t + s) mod nth a (shp x) 0) (fun t => (t - s) mod nth a (shp x) 0).
Proof. exact (fun F a s x x' => conj (shifted_reordered F a s x x') (shift_reorders _ s)). Qed.
Print Assumptions C128_shift_is_reordering.
Theorem C128_mirror_is_reordering : forall (F : ofield) a (x x' : tensor F),
  (flipped a x x' <-> reordered a (fun t => nth a (shp x) 0 - 1 - t) x x') /\
  reorders (nth a (shp x) 0) (fun t => nth a (shp x) 0 - 1 - t) (fun t => nth a (shp x) 0 - 1 - t).
Proof. exact (fun F a x x' => conj (flipped_reordered F a x x') (mirror_reorders _)). Qed.
Print Assumptions C128_mirror_is_reordering.
(** 0, 1, 2, 3 -> 2, 0, 1, 3. *)
Definition turn (t : Z) : Z := if t =? 0 then 2 else if t =? 3 then 3 else t - 1.
Definition turn_back (t : Z) : Z := if t =? 2 then 0 else if t =? 3 then 3 else t + 1.
Lemma turn_ok : reorders 4 turn turn_back.
Proof. intros t Ht. assert (t = 0 \/ t = 1 \/ t = 2 \/ t = 3) as [->|[->|[->| ->]]] by lia; vm_compute; intuition congruence. Qed.
Definition reorder (a : nat) (p : Z -> Z) (x : tensor QcF) : tensor QcF := mkT (shp x) (fun i => at_ x (upd a (p (nth a i 0)) i)).
Lemma reorder_ok a p x : reordered a p x (reorder a p x).
Proof. split; reflexivity. Qed.
Definition y34 := ofz [3; 4] [1; 3; 4; 6; 3; 5; 9; 12; 20; 33; 50; 50].
Example C128_mse_example : on_axes x34 (AxInt 0) [0%nat] /\ reorders 4 turn turn_back /\ reordered 1 turn x34 (reorder 1 turn x34) /\ reordered 1 turn y34 (reorder 1 turn y34) /\
  show (mse_forward RSum x34 y34 (AxInt 0)) = Some ([4], zq [0; 10; 0; 9]) /\
  show (mse_forward RSum (reorder 1 turn x34) (reorder 1 turn y34) (AxInt 0)) = Some ([4], zq [0; 0; 10; 9]) /\
  show (mse_forward RSum x34 y34 (AxInt 1)) = Some ([3], zq [5; 4; 10]) /\
  show (mse_forward RSum (reorder 1 turn x34) (reorder 1 turn y34) (AxInt 1)) = Some ([3], zq [5; 4; 10]).
Proof.
  split; [ex_on|]. split; [exact turn_ok|]. split; [apply reorder_ok|]. split; [apply reorder_ok|].
  split; [vm_compute; reflexivity|]. split; [vm_compute; reflexivity|]. split; vm_compute; reflexivity.
Qed.
Example C128_psnr_example : let u := mkT [2] (fun i => IZR (nth 0 i 0)) : tensor RF in let v := mkT [2] (fun _ => 1%R) : tensor RF in
  let u' := mkT [2] (fun i => IZR (1 - nth 0 i 0)) : tensor RF in
  on_axes u AxNone [0%nat] /\ shp u = shp v /\ reorders 2 (fun t => 1 - t) (fun t => 1 - t) /\
  reordered 0 (fun t => 1 - t) u u' /\ reordered 0 (fun t => 1 - t) v v /\
  exists y, psnr_forward 1 1 RMean u v AxNone = Ok y.
Proof.
  intros u v u'. split; [ex_on|]. split; [reflexivity|]. split; [exact (mirror_reorders 2)|].
  split. { split; [reflexivity|]. intros i V. apply valid1 in V as [k [-> Hk]]. reflexivity. }
  split; [split; reflexivity|].
  destruct (psnr_mean 1 1 u v AxNone [0%nat]) as [y [E _]]; [lra|lra|ex_on|reflexivity| | |exists y; exact E].
  - intros d [<-|[]]. cbn. lia.
  - intros H. exfalso. lra.
Qed.

(** ** Edge filters commute with cyclic shifts: along circular axes, and along axes that are not filtered. *)
Theorem C128_component : forall (F : ofield) (trunc : F -> Z) fuel junk junk' ker smooth raw normalize p m shared (e : edge_filter F) (x x' : tensor F) ea ax ax' c d al k s,
  edge_init (NItem ker) smooth normalize (Some p) shared = Ok e -> ker <> [] ->
  check_axes (Z.of_nat (ndim x)) ea = Ok [Z.of_nat c] -> In c al ->
  edge_image fuel p m x ax al k -> check_axes (Z.of_nat (ndim x)) ax' = Ok (map Z.of_nat al) -> klen ker <= k ->
  expand (length (without c al)) smooth = Some raw -> (forall u, In u raw -> klen u <= k) ->
  copying m -> (d < ndim x)%nat -> (In d al -> m = MCircular) -> shifted d s x x' ->
  exists y y', snd (component trunc fuel junk e x ea ax') = Ok y /\ snd (component trunc fuel junk' e x' ea ax') = Ok y' /\
    shp y = shp x /\ shifted d s y y'.
Proof. exact component_shift. Qed.
Print Assumptions C128_component.
Theorem C128_magnitude : forall (F : ofield) (trunc : F -> Z) fuel junk junk' ker smooth raw normalize p m shared (e : edge_filter F) (x x' : tensor F) ax d al k s eps pw,
  edge_init (NItem ker) smooth normalize (Some p) shared = Ok e -> ker <> [] -> (2 <= length al)%nat ->
  edge_image fuel p m x ax al k -> klen ker <= k ->
  (forall c, In c al -> expand (length (without c al)) smooth = Some (raw c)) -> (forall c u, In u (raw c) -> klen u <= k) ->
  copying m -> (d < ndim x)%nat -> (In d al -> m = MCircular) -> shifted d s x x' ->
  exists y y', snd (magnitude trunc fuel junk e x ax eps pw) = Ok y /\ snd (magnitude trunc fuel junk' e x' ax eps pw) = Ok y' /\
    shp y = shp x /\ shifted d s y y'.
Proof. exact magnitude_shift. Qed.
Print Assumptions C128_magnitude.
Definition shift (a : nat) (s : Z) (x : tensor QcF) : tensor QcF := reorder a (fun t => (t + s) mod nth a (shp x) 0) x.
Lemma shift_ok a s x : shifted a s x (shift a s x).
Proof. apply (proj2 (shifted_reordered QcF a s x _)). apply reorder_ok. Qed.
Example C128_edge_example : exists e : edge_filter QcF,
  edge_init (NItem central_kernel) (NItem (ints [1; 2; 1])) false (Some (evenp 0 MCircular)) true = Ok e /\
  edge_image 16 (evenp 0 MCircular) MCircular x34 AxNone [0; 1]%nat 6 /\ copying (@MCircular QcF) /\ shifted 1 1 x34 (shift 1 1 x34) /\
  expand 1 (NItem (ints [1; 2; 1] : list QcF)) = Some [ints [1; 2; 1]] /\
  show (Ok (shift 1 1 x34)) = Some ([3; 4], zq [2; 4; 8; 1; 5; 9; 10; 3; 30; 50; 51; 20]) /\
  show (snd (component qtrunc 16 garbage e x34 (AxInt 1) AxNone)) = Some ([3; 4], zq [-38; 42; 38; -42; -37; 45; 37; -45; -53; 69; 53; -69]) /\
  show (snd (component qtrunc 16 garbage e (shift 1 1 x34) (AxInt 1) AxNone)) = Some ([3; 4], zq [42; 38; -42; -38; 45; 37; -45; -37; 69; 53; -69; -53]) /\
  show (snd (magnitude qtrunc 16 garbage e x34 AxNone f0 P1)) = Some ([3; 4], zq [-138; -66; -110; -182; 72; 166; 200; 106; -62; 56; 38; -80]) /\
  show (snd (magnitude qtrunc 16 garbage e (shift 1 1 x34) AxNone f0 P1)) = Some ([3; 4], zq [-66; -110; -182; -138; 166; 200; 106; 72; 56; 38; -80; -62]).
Proof.
  destruct (named_ok QcF false (Some (evenp 0 MCircular)) true) as [[e He] _]. exists e.
  split; [eapply named_init; now apply n_sobel|]. split; [apply even34; [exact I|lia]|]. split; [left; reflexivity|]. split; [apply shift_ok|]. split; [reflexivity|].
  rewrite (get_ok filter0 _ _ He). clear He.
  repeat (match goal with |- _ /\ _ => split; [vm_compute; reflexivity|] end). vm_compute. reflexivity.
Qed.
(** With another copying mode they do not. *)
Theorem C128_replicate_differs : exists (e : edge_filter QcF) x x' y y',
  named false (Some (evenp 0 MReplicate)) true e central_kernel (ints [1; 2; 1]) /\ edge_image 16 (evenp 0 MReplicate) MReplicate x AxNone [0; 1]%nat 6 /\
  shifted 1 1 x x' /\ snd (component qtrunc 16 garbage e x (AxInt 1) AxNone) = Ok y /\ snd (component qtrunc 16 garbage e x' (AxInt 1) AxNone) = Ok y' /\
  ~ shifted 1 1 y y'.
Proof.
  destruct (named_ok QcF false (Some (evenp 0 MReplicate)) true) as [[e He] _]. exists e, x34, (shift 1 1 x34).
  assert (S : show (snd (component qtrunc 16 garbage e x34 (AxInt 1) AxNone)) = Some ([3; 4], zq [5; 15; 23; 13; 15; 45; 37; 7; 32; 96; 68; 4])).
  { rewrite (get_ok filter0 _ _ He). clear He. vm_compute. reflexivity. }
  assert (S' : show (snd (component qtrunc 16 garbage e (shift 1 1 x34) (AxInt 1) AxNone)) = Some ([3; 4], zq [10; 23; -15; -28; 30; 37; -45; -52; 64; 68; -96; -100])).
  { rewrite (get_ok filter0 _ _ He). clear He. vm_compute. reflexivity. }
  destruct (snd (component qtrunc 16 garbage e x34 (AxInt 1) AxNone)) as [y|]; [|discriminate].
  destruct (snd (component qtrunc 16 garbage e (shift 1 1 x34) (AxInt 1) AxNone)) as [y'|]; [|discriminate]. exists y, y'.
  split; [now apply n_sobel|]. split; [apply even34; [exact I|lia]|]. split; [apply shift_ok|]. split; auto. split; auto.
  destruct (show_nth y _ _ 1 S) as [Y1 Y2]; [vm_compute; lia|]. destruct (show_nth y' _ _ 0 S') as [Z1 Z2]; [vm_compute; lia|].
  intros [_ H]. specialize (H [0; 0]). rewrite Y1 in H. specialize (H ltac:(repeat constructor; lia)).
  change (nth 0 (indices [3; 4]) []) with [0; 0] in Z2. change (nth 1 (indices [3; 4]) []) with [0; 1] in Y2.
  change (upd 1 ((nth 1 [0; 0] 0 + 1) mod nth 1 [3; 4] 0) [0; 0]) with [0; 1] in H. rewrite H, Y2 in Z2. vm_compute in Z2. discriminate.
Qed.
Print Assumptions C128_replicate_differs.

(** ** SSIM without cropping (or with a shift along an axis that is not blurred): the mean score over the
    shifted axis is unchanged. *)
Theorem C128_ssim : forall (F : ofield) fuel junk (g : ssim F) (x y x' y' : tensor F) cax rax al rl kers p a s, ssim_call fuel g x y cax rax al rl kers (Some p) ->
  cyclic_blur a al p -> (In a al -> ss_crop g = false) -> (a < ndim x)%nat -> shifted a s x x' -> shifted a s y y' ->
  shifted_scores (reduced (ndim x) rl) a s (nth a (shp x) 0) (snd (ssim_forward (sep_forward fuel junk) x y cax rax g)) (snd (ssim_forward (sep_forward fuel junk) x' y' cax rax g)).
Proof. exact ssim_shift. Qed.
Print Assumptions C128_ssim.
Definition circ : padder QcF := pad1d (0, 0) MCircular.
(** The SSIM of s51 with circular padding; crop or not. *)
Definition c51 (crop : bool) := mkSsim (filt51 (Some circ)) (qq 1 2) (qq 1 3) true crop.
Lemma circ_call crop : ssim_call 20 (c51 crop) x51 y51 (AxSlice (sfrom 1)) (AxSlice (sfrom 1)) [1%nat; 2%nat] [1%nat; 2%nat] kers51 (Some circ).
Proof.
  destruct (call51 (Some circ) true) as [H1 H2 H3 H4 H5 H6 H7 H8]; [right; exists circ; split; [reflexivity|]; exists MCircular; split; [reflexivity|exact I]|].
  split; auto.
Qed.
Lemma circ_cyclic a : cyclic_blur a [1%nat; 2%nat] circ.
Proof.
  exists [MCircular; MCircular]. split; [reflexivity|]. split; [intros m [<-|[<-|[]]]; left; reflexivity|].
  intros [|[|r]] Hr _; [reflexivity|reflexivity|cbn in Hr; lia].
Qed.
Example C128_ssim_example :
  ssim_call 20 (c51 false) x51 y51 (AxSlice (sfrom 1)) (AxSlice (sfrom 1)) [1%nat; 2%nat] [1%nat; 2%nat] kers51 (Some circ) /\ cyclic_blur 1 [1%nat; 2%nat] circ /\
  shifted 1 3 x51 (shift 1 3 x51) /\ shifted 1 3 y51 (shift 1 3 y51) /\
  fst (show2 (snd (ssim_forward (sep_forward 20 garbage) x51 y51 (AxSlice (sfrom 1)) (AxSlice (sfrom 1)) (c51 false)))) = Some ([2], [1588291209736768138371922173861958819964507 # 1835764476744832419707128187398180807931250; -12528826295 # 30816775488]%Q) /\
  fst (show2 (snd (ssim_forward (sep_forward 20 garbage) (shift 1 3 x51) (shift 1 3 y51) (AxSlice (sfrom 1)) (AxSlice (sfrom 1)) (c51 false)))) = Some ([2], [1588291209736768138371922173861958819964507 # 1835764476744832419707128187398180807931250; -12528826295 # 30816775488]%Q) /\
  fst (show2 (snd (ssim_forward (sep_forward 20 garbage) x51 y51 (AxSlice (sfrom 1)) (AxSlice (sfrom 1)) (c51 true)))) = Some ([2], [570569277776133941 # 614443691825279589; -1062367 # 1818528]%Q) /\
  fst (show2 (snd (ssim_forward (sep_forward 20 garbage) (shift 1 3 x51) (shift 1 3 y51) (AxSlice (sfrom 1)) (AxSlice (sfrom 1)) (c51 true)))) = Some ([2], [144780266646251 # 168156134702283; -1062367 # 1818528]%Q).
Proof.
  split; [apply circ_call|]. split; [apply circ_cyclic|]. split; [apply shift_ok|]. split; [apply shift_ok|].
  split; [vm_compute; reflexivity|]. split; [vm_compute; reflexivity|]. split; vm_compute; reflexivity.
Qed.
