(** C99-C102: laws of the metrics: affine maps of the intensities, the triangle inequality of the root of
    the mse, SSIM under a change of contrast, mirror images.

    Vocabulary (MetricLaws.v, SsimLaws.v, ReduceFlip.v, SsimFlip.v; PropsMetrics.v, PropsSsim.v, PropsMirror.v):
    - [affine s c x x']: x' = s x + c, elementwise;
    - [reduced n al]: the axes al, or all n axes if al is empty (torch's dim=());
    - [flipped a x x']: x' is x read backwards along axis a;
    - [rank al a]: the position of axis a among the axes outside al; [flipped_out al a y y']: y' = y if a is
      one of the reduced axes al, otherwise y' is y read backwards along what is left of axis a;
    - [mirror_blur a al kers pd sh]: the kernel of axis a is a palindrome; with a same padder it has odd
      length, the padding values of axis a are the same before and after, and the axis has even length in
      mode periodize;
    - [mirrored_scores rl a r r']: both fail with the same error, or the second score and map are those of
      the first seen in the mirror;
    - [linear_mode] (PadLinear.v): modes whose padding is a linear function of the image. *)
From Coq Require Import QArith Qcanon Reals Lra.
From Verif Require Import MetricLaws SsimFlip SsimRefute IndexLemmas.
Open Scope Z_scope.

(** ** C99: brightness and contrast. The mse only sees the square of the contrast; the PSNR does not change
    if the maximal value is scaled too. *)
Theorem C99_mse : forall (F : ofield) r s c (a b a' b' : tensor F) ax, affine F s c a a' -> affine F s c b b' ->
  (exists e, mse_forward r a b ax = Err e /\ mse_forward r a' b' ax = Err e) \/
  exists y z, mse_forward r a b ax = Ok y /\ mse_forward r a' b' ax = Ok z /\ shp z = shp y /\
    forall j, valid (shp y) j -> at_ z j = fmul (fmul s s) (at_ y j).
Proof. exact mse_affine. Qed.
Print Assumptions C99_mse.
Theorem C99_psnr : forall mx eps s r (a b a' b' : tensor RF) c ax, (0 < s)%R -> affine RF s c a a' -> affine RF s c b b' ->
  (exists e, psnr_forward mx eps r a b ax = Err e /\ psnr_forward (s * mx) (s * s * eps) r a' b' ax = Err e) \/
  exists y z, psnr_forward mx eps r a b ax = Ok y /\ psnr_forward (s * mx) (s * s * eps) r a' b' ax = Ok z /\ teq y z.
Proof. exact psnr_scale. Qed.
Print Assumptions C99_psnr.
Definition a22 := ofz [2; 2] [1; 2; 3; 4].
Definition b22 := ofz [2; 2] [1; 0; 5; 3].
(** -3 v + 7 *)
Definition a22' := ofz [2; 2] [4; 1; -2; -5].
Definition b22' := ofz [2; 2] [4; 7; -8; -2].
Ltac cells2 := let i := fresh in let V := fresh in let k := fresh in let l := fresh in let Hk := fresh in let Hl := fresh in
  intros i V; apply valid2 in V as [k [l [-> [Hk Hl]]]];
  assert (k = 0 \/ k = 1) as [->| ->] by lia; (assert (l = 0 \/ l = 1) as [->| ->] by lia); apply Qc_is_canon; vm_compute; reflexivity.
Example C99_example : affine QcF (qz (-3)) (qz 7) a22 a22' /\ affine QcF (qz (-3)) (qz 7) b22 b22' /\
  show (mse_forward RSum a22 b22 (AxInt 1)) = Some ([2], zq [4; 5]) /\
  show (mse_forward RSum a22' b22' (AxInt 1)) = Some ([2], zq [36; 45]) /\
  show (mse_forward RMean a22 b22 AxNone) = Some ([], [9 # 4]%Q) /\
  show (mse_forward RMean a22' b22' AxNone) = Some ([], [81 # 4]%Q).
Proof. split; [split; [reflexivity|cells2]|]. split; [split; [reflexivity|cells2]|]. repeat (match goal with |- _ /\ _ => split; [vm_compute; reflexivity|] end); vm_compute; reflexivity. Qed.
Example C99_psnr_example : let u := mkT [2] (fun i => IZR (nth 0 i 0)) : tensor RF in let v := mkT [2] (fun _ => 1%R) : tensor RF in
  let u' := mkT [2] (fun i => (2 * IZR (nth 0%nat i 0%Z) + 5)%R) : tensor RF in let v' := mkT [2] (fun _ => 7%R) : tensor RF in
  affine RF 2%R 5%R u u' /\ affine RF 2%R 5%R v v' /\ exists y, psnr_forward 1 1 RMean u v AxNone = Ok y.
Proof.
  cbv zeta. split; [split; [reflexivity|intros; reflexivity]|]. split; [split; [reflexivity|intros i _; cbn; lra]|].
  set (u := mkT [2] (fun i => IZR (nth 0 i 0)) : tensor RF). set (v := mkT [2] (fun _ => 1%R) : tensor RF).
  destruct (psnr_mean 1 1 u v AxNone [0%nat]) as [y [E _]]; [lra|lra|ex_on|reflexivity| | |exists y; exact E].
  - intros d [<-|[]]. cbn. lia.
  - intros H. exfalso. lra.
Qed.

(** ** C100: the root of the mse satisfies the triangle inequality, for every reduction. *)
Theorem C100_triangle : forall r (a b c : tensor RF) ax al, on_axes a ax al -> shp a = shp b -> shp b = shp c -> r = RNone \/ r = RSum \/ r = RMean ->
  (r = RMean -> forall d, In d (reduced (ndim a) al) -> (0 < nth d (shp a) 0)%Z) ->
  exists x y z, mse_forward r a b ax = Ok x /\ mse_forward r b c ax = Ok y /\ mse_forward r a c ax = Ok z /\ shp y = shp x /\ shp z = shp x /\
    forall j, valid (shp x) j -> (sqrt (at_ z j) <= sqrt (at_ x j) + sqrt (at_ y j))%R.
Proof. exact rmse_triangle. Qed.
Print Assumptions C100_triangle.
(** The mse itself does not: 0, 1 and 2 have mse 1, 1 and 4. *)
Theorem C100_mse_is_no_metric : exists (a b c x y z : tensor QcF), mse_forward RMean a b AxNone = Ok x /\ mse_forward RMean b c AxNone = Ok y /\
  mse_forward RMean a c AxNone = Ok z /\ flt (fadd (at_ x []) (at_ y [])) (at_ z []).
Proof.
  exists (ofz [1] [0]), (ofz [1] [1]), (ofz [1] [2]). do 3 eexists. split; [reflexivity|]. split; [reflexivity|]. split; [reflexivity|]. vm_compute. reflexivity.
Qed.
Print Assumptions C100_mse_is_no_metric.
Example C100_example : on_axes (mkT [2; 3] (fun _ => 0%R) : tensor RF) (AxInt (-1)) [1%nat] /\
  on_axes (mkT [2; 3] (fun _ => 0%R) : tensor RF) (AxSeq []) [] /\ reduced 2 [] = [0; 1]%nat /\
  (forall d, In d (reduced 2 [1%nat]) -> 0 < nth d [2; 3] 0).
Proof. split; [ex_on|]. split; [ex_on|]. split; [reflexivity|]. intros d [<-|[]]. cbn. lia. Qed.

(** ** C101: SSIM does not change if both images are multiplied by a and K1, K2 by a (up to sign), for no
    padding and for padding modes that are linear. In particular SSIM(-x, -y) = SSIM(x, y). *)
Theorem C101_contrast : forall (F : ofield) fuel junk (s s' : ssim F) (x y x' y' : tensor F) a cax rax al rl kers pd,
  ssim_call fuel s x y cax rax al rl kers pd ->
  match pd with None => True | Some p => every_axis (length al) p linear_mode end -> a <> f0 ->
  ss_blur s' = ss_blur s -> ss_sample s' = ss_sample s -> ss_crop s' = ss_crop s ->
  fmul (ss_K1 s') (ss_K1 s') = fmul (fmul a a) (fmul (ss_K1 s) (ss_K1 s)) -> fmul (ss_K2 s') (ss_K2 s') = fmul (fmul a a) (fmul (ss_K2 s) (ss_K2 s)) ->
  shp x' = shp x -> (forall i, valid (shp x) i -> at_ x' i = fmul a (at_ x i)) ->
  shp y' = shp y -> (forall i, valid (shp y) i -> at_ y' i = fmul a (at_ y i)) ->
  same_scores (snd (ssim_forward (sep_forward fuel junk) x y cax rax s)) (snd (ssim_forward (sep_forward fuel junk) x' y' cax rax s')).
Proof. exact ssim_scale. Qed.
Print Assumptions C101_contrast.
Notation run x y s := (snd (ssim_forward (sep_forward 20 garbage) x y (AxSlice (sfrom 1)) (AxSlice (sfrom 1)) s)).
Definition s51' pd sample := mkSsim (filt51 pd) (qq 3 2) (qz (-1)) sample true.
Definition x51' := ofz [2; 4; 3] (map (Z.mul (-3)) [1; 2; 3; 4; 5; 6; 7; 8; 9; 1; 2; 3;   0; 1; 0; 1; 0; 1; 0; 1; 0; 1; 0; 1]).
Definition y51' := ofz [2; 4; 3] (map (Z.mul (-3)) [1; 2; 3; 6; 5; 4; 7; 8; 9; 3; 2; 1;   1; 0; 1; 0; 1; 0; 1; 0; 1; 1; 1; 1]).
Lemma repl_linear : every_axis 2 repl linear_mode.
Proof.
  exists [MReplicate; MReplicate], [(qz 7, qz 8); (qz 7, qz 8)], [(qz 0, qz 10); (qz 0, qz 10)].
  split; [reflexivity|]. split; [reflexivity|]. split; [reflexivity|]. intros [|[|r]] Hr; cbn; auto. lia.
Qed.
Ltac cells3 := let i := fresh in let V := fresh in let j := fresh in let k := fresh in let l := fresh in
  intros i V; apply valid3 in V as [j [k [l [-> [? [? ?]]]]]];
  assert (j = 0 \/ j = 1) as [->| ->] by lia; (assert (k = 0 \/ k = 1 \/ k = 2 \/ k = 3) as [->|[->|[->| ->]]] by lia);
  (assert (l = 0 \/ l = 1 \/ l = 2) as [->|[->| ->]] by lia); apply Qc_is_canon; vm_compute; reflexivity.
Example C101_example :
  ssim_call 20 (s51 (Some repl) false) x51 y51 (AxSlice (sfrom 1)) (AxSlice (sfrom 1)) [1%nat; 2%nat] [1%nat; 2%nat] kers51 (Some repl) /\
  every_axis 2 repl linear_mode /\
  fmul (ss_K1 (s51' (Some repl) false)) (ss_K1 (s51' (Some repl) false)) = fmul (fmul (qz (-3)) (qz (-3))) (fmul (ss_K1 (s51 (Some repl) false)) (ss_K1 (s51 (Some repl) false))) /\
  fmul (ss_K2 (s51' (Some repl) false)) (ss_K2 (s51' (Some repl) false)) = fmul (fmul (qz (-3)) (qz (-3))) (fmul (ss_K2 (s51 (Some repl) false)) (ss_K2 (s51 (Some repl) false))) /\
  (forall i, valid (shp x51) i -> at_ x51' i = fmul (qz (-3)) (at_ x51 i)) /\ (forall i, valid (shp y51) i -> at_ y51' i = fmul (qz (-3)) (at_ y51 i)) /\
  show2 (run x51 y51 (s51 (Some repl) false)) = show2 (run x51' y51' (s51' (Some repl) false)) /\
  fst (show2 (run x51 y51 (s51 None false))) = Some ([2], [15775097801962463 # 16986046027977390; -1733 # 3234]%Q) /\
  fst (show2 (run x51' y51' (s51' None false))) = Some ([2], [15775097801962463 # 16986046027977390; -1733 # 3234]%Q).
Proof.
  split; [apply call51; right; exists repl; split; auto; exists MReplicate; split; auto; exact I|]. split; [apply repl_linear|].
  split; [apply Qc_is_canon; vm_compute; reflexivity|]. split; [apply Qc_is_canon; vm_compute; reflexivity|]. split; [cells3|]. split; [cells3|]. repeat (match goal with |- _ /\ _ => split; [vm_compute; reflexivity|] end); vm_compute; reflexivity.
Qed.
(** With K1 and K2 unchanged the score does change. *)
Theorem C101_K_matters : exists (s : ssim QcF) x y x' y' v v' m m', ssim_call 20 s x y (AxSlice (sfrom 1)) (AxSlice (sfrom 1)) [1%nat; 2%nat] [1%nat; 2%nat] kers51 None /\
  (forall i, valid (shp x) i -> at_ x' i = fmul (qz (-3)) (at_ x i)) /\ (forall i, valid (shp y) i -> at_ y' i = fmul (qz (-3)) (at_ y i)) /\
  run x y s = Ok (v, m) /\ run x' y' s = Ok (v', m') /\ at_ v [0] <> at_ v' [0].
Proof.
  destruct (show2_ok (run x51 y51 (s51 None false)) ([2], [15775097801962463 # 16986046027977390; -1733 # 3234]%Q) ([2; 2; 2], [29684 # 32305; 36244 # 39405; 357445 # 385217; 612197 # 645585; -7 # 11; -7 # 11; -64 # 147; -64 # 147]%Q)) as [v [m [E [Q _]]]]; [vm_compute; reflexivity|].
  destruct (run x51' y51' (s51 None false)) as [[v' m']|] eqn:E'; [|exfalso; assert (X : errof (run x51' y51' (s51 None false)) = None) by (vm_compute; reflexivity); rewrite E' in X; discriminate].
  exists (s51 None false), x51, y51, x51', y51', v, v', m, m'. split; [apply call51; auto|]. split; [cells3|]. split; [cells3|]. split; auto. split; auto.
  assert (P : match run x51 y51 (s51 None false), run x51' y51' (s51 None false) with Ok (v, _), Ok (v', _) => Qeq_bool (this (at_ v [0])) (this (at_ v' [0])) | _, _ => true end = false) by (vm_compute; reflexivity).
  rewrite E, E' in P. intros X. rewrite X in P. assert (Qeq_bool (this (at_ v' [0])) (this (at_ v' [0])) = true) by (apply Qeq_bool_iff; reflexivity). congruence.
Qed.
Print Assumptions C101_K_matters.

(** ** C102: the metrics of two mirrored images are those of the originals, mirrored. *)
Theorem C102_mse : forall (F : ofield) r (u v u' v' : tensor F) ax al a, on_axes u ax al -> shp u = shp v -> (a < ndim u)%nat -> flipped a u u' -> flipped a v v' ->
  match r with
  | RNone => exists d d', mse_forward r u v ax = Ok d /\ mse_forward r u' v' ax = Ok d' /\ flipped a d d'
  | RSum => exists y y', mse_forward r u v ax = Ok y /\ mse_forward r u' v' ax = Ok y' /\ flipped_out (reduced (ndim u) al) a y y'
  | RMean => (forall d, In d (reduced (ndim u) al) -> 0 < nth d (shp u) 0) ->
      exists y y', mse_forward r u v ax = Ok y /\ mse_forward r u' v' ax = Ok y' /\ flipped_out (reduced (ndim u) al) a y y'
  | ROther => mse_forward r u v ax = Err ValueError /\ mse_forward r u' v' ax = Err ValueError
  end.
Proof. exact mse_flip. Qed.
Print Assumptions C102_mse.
Theorem C102_ssim : forall (F : ofield) fuel junk (s : ssim F) (x y x' y' : tensor F) cax rax al rl kers pd a, ssim_call fuel s x y cax rax al rl kers pd ->
  mirror_blur a al kers pd (shp x) -> (a < ndim x)%nat -> flipped a x x' -> flipped a y y' ->
  mirrored_scores (reduced (ndim x) rl) a (snd (ssim_forward (sep_forward fuel junk) x y cax rax s)) (snd (ssim_forward (sep_forward fuel junk) x' y' cax rax s)).
Proof. exact ssim_flip. Qed.
Print Assumptions C102_ssim.
(** x51 and y51 read backwards along their second axis. *)
Definition xr := ofz [2; 4; 3] [1; 2; 3; 7; 8; 9; 4; 5; 6; 1; 2; 3;   1; 0; 1; 0; 1; 0; 1; 0; 1; 0; 1; 0].
Definition yr := ofz [2; 4; 3] [3; 2; 1; 7; 8; 9; 6; 5; 4; 1; 2; 3;   1; 1; 1; 1; 0; 1; 0; 1; 0; 1; 0; 1].
Definition x02 : padder QcF := mkPadder (NItem (0, 0)) (NItem MReflect) (NItem (qz 0, qz 0)) (NItem (qz 0, qz 0)) (NItem (None, None)) 0.
Example C102_example :
  flipped 1 x51 xr /\ flipped 1 y51 yr /\ mirror_blur 1 [1%nat; 2%nat] kers51 None [2; 4; 3] /\ mirror_blur 1 [1%nat; 2%nat] kers51 (Some x02) [2; 4; 3] /\
  ssim_call 20 (s51 None false) x51 y51 (AxSlice (sfrom 1)) (AxSlice (sfrom 1)) [1%nat; 2%nat] [1%nat; 2%nat] kers51 None /\
  show2 (run x51 y51 (s51 None false)) =
    (Some ([2], [15775097801962463 # 16986046027977390; -1733 # 3234]%Q),
     Some ([2; 2; 2], [29684 # 32305; 36244 # 39405; 357445 # 385217; 612197 # 645585; -7 # 11; -7 # 11; -64 # 147; -64 # 147]%Q)) /\
  show2 (run xr yr (s51 None false)) =
    (Some ([2], [15775097801962463 # 16986046027977390; -1733 # 3234]%Q),
     Some ([2; 2; 2], [357445 # 385217; 612197 # 645585; 29684 # 32305; 36244 # 39405; -64 # 147; -64 # 147; -7 # 11; -7 # 11]%Q)) /\
  fst (show2 (run x51 y51 (s51 (Some x02) false))) = fst (show2 (run xr yr (s51 (Some x02) false))) /\
  rank [0%nat; 2%nat] 1 = 0%nat /\
  show (mse_forward RSum x51 y51 (AxSeq [0; 2])) = Some ([4], zq [3; 11; 3; 9]) /\
  show (mse_forward RSum xr yr (AxSeq [0; 2])) = Some ([4], zq [9; 3; 11; 3]).
Proof.
  split; [split; [reflexivity|cells3]|]. split; [split; [reflexivity|cells3]|].
  assert (P : forall r, (r < 2)%nat -> nth r [1%nat; 2%nat] 0%nat = 1%nat -> rev (nth r kers51 []) = nth r kers51 []) by (intros [|[|r]] Hr E; cbn in *; try lia; reflexivity).
  split; [split; [exact P|discriminate]|]. split.
  { split; [exact P|]. intros p E. assert (p = x02) as -> by congruence. split.
    - constructor; [reflexivity| | |]; do 2 eexists; (split; [reflexivity|split; [reflexivity|]]); intros [|[|r]] d Hr; cbn in *; try lia; reflexivity.
    - intros [|[|r]] Hr Er; cbn in *; try lia. split; [right; reflexivity|]. intros ms Em. injection Em as <-. discriminate. }
  split; [apply call51; auto|]. repeat (match goal with |- _ /\ _ => split; [vm_compute; reflexivity|] end); vm_compute; reflexivity.
Qed.
