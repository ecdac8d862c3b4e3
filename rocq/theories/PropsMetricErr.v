(** C125: which reduction axes the metrics accept, and how they fail on the others.

    Vocabulary (MetricErrors.v, PoolForward.v, ReduceProofs.v):
    - [check_axes nd ax]: the axis numbers named by the argument (C24); it lets some numbers through that are not axes;
    - [off_range nd a]: a is not an axis of an image with nd axes, even counted from the end;
      [named_axis nd a]: the axis meant by any other a;
    - [axes_cases nd l call ax]: with axis numbers l the call fails with IndexError if any is off range, otherwise with
      RuntimeError if two name the same axis, and otherwise is the call with the list of named axes;
    - [reduced nd al]: the reduced axes (all if none is named); [outside al s]: the lengths of the others.
    Images without any axis are left out: torch accepts 0 and -1 for them, the model does not. *)
From Coq Require Import QArith Qcanon Reals Lra.
From Verif Require Import SsimRefute PsnrModel MetricErrors.
Open Scope Z_scope.

Theorem C125_mse : forall (F : ofield) r (x y : tensor F) ax l, shp x <> [] -> shp x = shp y -> check_axes (Z.of_nat (ndim x)) ax = Ok l ->
  r = RSum \/ r = RMean -> axes_cases (ndim x) l (mse_forward r x y) ax.
Proof. exact (fun F r x y ax l _ => @mse_axes F r x y ax l). Qed.
Print Assumptions C125_mse.
Theorem C125_psnr : forall mx eps r (x y : tensor RF) ax l, shp x <> [] -> shp x = shp y -> check_axes (Z.of_nat (ndim x)) ax = Ok l ->
  r = RSum \/ r = RMean -> axes_cases (ndim x) l (psnr_forward mx eps r x y) ax.
Proof. exact (fun mx eps r x y ax l _ => psnr_axes mx eps r x y ax l). Qed.
Print Assumptions C125_psnr.
(** SSIM, when the call with some reduction axes succeeds: the others fail in the same way or give a score and the
    same map. *)
Theorem C125_ssim : forall (F : ofield) fuel junk (s : ssim F) (x y : tensor F) cax rax al rl kers pd score full ax l, shp x <> [] ->
  ssim_call fuel s x y cax rax al rl kers pd ->
  snd (ssim_forward (sep_forward fuel junk) x y cax rax s) = Ok (score, full) -> check_axes (Z.of_nat (ndim x)) ax = Ok l ->
  axes_cases (ndim x) l (fun a => snd (ssim_forward (sep_forward fuel junk) x y cax a s)) ax /\
  ((forall a, In a l -> ~ off_range (ndim x) a) -> NoDup (map (named_axis (ndim x)) l) ->
    exists t, snd (ssim_forward (sep_forward fuel junk) x y cax ax s) = Ok (t, full)).
Proof. exact (fun F fuel junk s x y cax rax al rl kers pd score full ax l _ => @ssim_axes F fuel junk s x y cax rax al rl kers pd score full ax l). Qed.
Print Assumptions C125_ssim.
(** The accepted lists are the ones of C49 and C50. *)
Theorem C125_accepted : forall (F : ofield) (x : tensor F) l, (forall a, In a l -> ~ off_range (ndim x) a) -> NoDup (map (named_axis (ndim x)) l) ->
  on_axes x (AxSeq (map Z.of_nat (map (named_axis (ndim x)) l))) (map (named_axis (ndim x)) l).
Proof. exact named_on. Qed.
Print Assumptions C125_accepted.
(** An argument rejected by check_axes; without reduction the axes do not matter. *)
Theorem C125_rejected : forall (F : ofield) r (x y : tensor F) ax e, shp x = shp y -> check_axes (Z.of_nat (ndim x)) ax = Err e -> mse_forward r x y ax = Err e.
Proof. exact mse_passes. Qed.
Print Assumptions C125_rejected.
Theorem C125_none : forall (F : ofield) (x y : tensor F) ax ax' l l', shp x = shp y -> check_axes (Z.of_nat (ndim x)) ax = Ok l -> check_axes (Z.of_nat (ndim x)) ax' = Ok l' ->
  mse_forward RNone x y ax = mse_forward RNone x y ax' /\ mse_forward ROther x y ax = Err ValueError.
Proof. exact mse_none. Qed.
Print Assumptions C125_none.
(** PSNR fails whenever the mean squared error does. *)
Theorem C125_psnr_rejected : forall mx eps r (x y : tensor RF) ax e, mse_forward r x y ax = Err e -> psnr_forward mx eps r x y ax = Err e.
Proof. exact psnr_passes. Qed.
Print Assumptions C125_psnr_rejected.
(** The mean over an empty axis is nan (here ZeroDivisionError) unless the result has no entries. *)
Theorem C125_empty : forall (F : ofield) (x y : tensor F) ax al, on_axes x ax al -> shp x = shp y ->
  (exists a, In a (reduced (ndim x) al) /\ nth a (shp x) 0 = 0) ->
  (In 0 (outside (reduced (ndim x) al) (shp x)) -> exists m, mse_forward RMean x y ax = Ok m /\ shp m = outside (reduced (ndim x) al) (shp x)) /\
  ((forall n, In n (outside (reduced (ndim x) al) (shp x)) -> 1 <= n) -> mse_forward RMean x y ax = Err ZeroDivisionError).
Proof. exact mse_mean_empty. Qed.
Print Assumptions C125_empty.

(** Two images of 2 x 2 x 3: axis 3 passes check_axes and fails later, -4 only as a single number; repeated axes. *)
Example C125_example : shp x51 <> [] /\ check_axes 3 (AxSeq [1; 3]) = Ok [1; 3] /\ check_axes 3 (AxInt (-4)) = Ok [-1] /\ check_axes 3 (AxInt (-7)) = Ok [-4] /\
  off_range 3 3 /\ off_range 3 (-4) /\ ~ off_range 3 (-1) /\ named_axis 3 (-1) = 2%nat /\
  mse_forward RMean x51 y51 (AxSeq [1; 3]) = Err IndexError /\ mse_forward RSum x51 y51 (AxInt (-7)) = Err IndexError /\
  mse_forward RMean x51 y51 (AxSeq [1; -2]) = Err RuntimeError /\ mse_forward RSum x51 y51 (AxSeq [1; -2]) = Err RuntimeError /\
  mse_forward RMean x51 y51 (AxSeq [4]) = Err AssertionError /\
  show (mse_forward RMean x51 y51 (AxInt (-4))) = show (mse_forward RMean x51 y51 (AxSeq [2])).
Proof.
  split; [discriminate|]. do 3 (split; [reflexivity|]). split; [unfold off_range; lia|]. split; [unfold off_range; lia|]. split; [unfold off_range; lia|].
  repeat (match goal with |- _ /\ _ => split; [vm_compute; reflexivity|] end). vm_compute; reflexivity.
Qed.
Example C125_empty_example : let u := mkT [0; 2] (fun _ => f0) : tensor QcF in let v := mkT [0; 0] (fun _ => f0) : tensor QcF in
  on_axes u (AxInt 0) [0%nat] /\ mse_forward RMean u u (AxInt 0) = Err ZeroDivisionError /\
  show (mse_forward RMean u u (AxInt 1)) = Some ([0], []) /\ show (mse_forward RSum u u (AxInt 0)) = Some ([2], zq [0; 0]) /\
  show (mse_forward RMean v v (AxInt 0)) = Some ([0], []).
Proof. cbv zeta. split; [ex_on|]. repeat (match goal with |- _ /\ _ => split; [vm_compute; reflexivity|] end). vm_compute; reflexivity. Qed.
Example C125_ssim_example :
  ssim_call 20 (s51 (Some repl) true) x51 y51 (AxSlice (sfrom 1)) (AxSlice (sfrom 1)) [1%nat; 2%nat] [1%nat; 2%nat] kers51 (Some repl) /\
  fst (show2 (snd (ssim_forward (sep_forward 20 garbage) x51 y51 (AxSlice (sfrom 1)) (AxSlice (sfrom 1)) (s51 (Some repl) true)))) <> None /\
  snd (ssim_forward (sep_forward 20 garbage) x51 y51 (AxSlice (sfrom 1)) (AxSeq [0; 3]) (s51 (Some repl) true)) = Err IndexError /\
  snd (ssim_forward (sep_forward 20 garbage) x51 y51 (AxSlice (sfrom 1)) (AxSeq [0; -3]) (s51 (Some repl) true)) = Err RuntimeError.
Proof.
  split; [apply call51; right; exists repl; split; auto; exists MReplicate; split; auto; exact I|]. split; [vm_compute; discriminate|]. split; vm_compute; reflexivity.
Qed.
