(** C142: which demosaicing networks (PreTrainedBilinearInterpolator with any weights, bayer_conv_2d.py:146-174, and
    more generally any BayerConv2d from one channel to two followed by last_step_demosaic and clamp) reproduce flat
    images.

    Vocabulary (CfaModel.v, BayerConvLaws.v, BayerExact.v; see also PropsCfa.v):
    - [demosaic_with M j1 j2 x s cl]: the demosaicing of the mosaic x with sensor alignment s, clamped to [0, cl];
    - [interpolator k wd]: the network of PreTrainedBilinearInterpolator for the k x k kernels wd colour class;
    - [flat_mosaic F pre m n v x]: every pixel of the mosaic x has the value v;
    - [flat_rgb F pre m n v img]: every pixel of channel c of the RGB image img has the value v c;
    - [in_range F cl v]: all three are between 0 and cl;
    - [preserves_grey F M]: all eight kernels have total 1, and there is no bias (or it is 0);
    - [wanted q o]: the colour that output o of the convolution of the class q stands for;
    - [tap q u v]: the colour u rows below and v columns to the right of a pixel of class q;
    - [share F M q o e]: the sum of those weights of the kernel that meet colour e;
    - [selector F M]: for each of the eight kernels the weights that meet the wanted colour sum to 1, those that meet
      another colour sum to 0, and there is no bias (or it is 0). *)
From Coq Require Import Ascii String QArith Qcanon.
From Verif Require Import ExampleUtil PropsCfa BayerExact.
Import List. Import ListNotations.
Local Notation length := List.length.
Open Scope string_scope.
Open Scope list_scope.
Open Scope Z_scope.

Theorem C142_greys : forall (F : ofield) pre m n (M : bayer_conv F) s sa cl,
  nonneg pre -> (length pre <= 1)%nat -> 1 <= m -> 1 <= n -> bc_in M = 1 -> bc_out M = 2 -> 1 <= bc_k M ->
  bc_k M / 2 < 2 * m -> bc_k M / 2 < 2 * n -> In sa patterns -> case_variant s sa -> flt f0 cl -> (exists p, valid pre p) ->
  forall j1 j2,
  (forall v x, fle f0 v -> fle v cl -> flat_mosaic F pre m n v x ->
     exists z, demosaic_with M j1 j2 x s cl = Ok z /\ shp z = pre ++ [3; 2 * m; 2 * n] /\
       forall p c i j, valid pre p -> 0 <= c < 3 -> 0 <= i < 2 * m -> 0 <= j < 2 * n -> at_ z (p ++ [c; i; j]) = v) <->
  preserves_grey F M.
Proof. exact exact_greys. Qed.
Print Assumptions C142_greys.
Theorem C142_colours : forall (F : ofield) pre m n (M : bayer_conv F) s sa cl,
  nonneg pre -> (length pre <= 1)%nat -> 1 <= m -> 1 <= n -> bc_in M = 1 -> bc_out M = 2 -> 1 <= bc_k M ->
  bc_k M / 2 < 2 * m -> bc_k M / 2 < 2 * n -> In sa patterns -> case_variant s sa -> flt f0 cl -> (exists p, valid pre p) ->
  forall j0 j1 j2,
  (forall v img, in_range F cl v -> flat_rgb F pre m n v img ->
     exists x z, rgb_to_1c_bayer j0 img s = Ok x /\ demosaic_with M j1 j2 x s cl = Ok z /\ teq z img) <->
  selector F M.
Proof. exact exact_colours. Qed.
Print Assumptions C142_colours.
Theorem C142_gradient : forall F : ofield, selector F gradient_corrected_interpolator.
Proof. exact gradient_selector. Qed.
Print Assumptions C142_gradient.

(** *** Examples: bilinear interpolation with 3 x 3 kernels reproduces flat colours; the 3 x 3 average of all pixels
    reproduces flat grey images but not flat colours. *)
Definition bilinear_wd (c : Z) (q : pos) : matrix (F := QcF) :=
  match q with
  | PR | PB => if c =? 1 then map (map (fun z => qq z 4)) [[0; 1; 0]; [1; 0; 1]; [0; 1; 0]]
               else map (map (fun z => qq z 4)) [[1; 0; 1]; [0; 0; 0]; [1; 0; 1]]
  | PGR => if c =? 0 then map (map (fun z => qq z 2)) [[0; 0; 0]; [1; 0; 1]; [0; 0; 0]]
           else map (map (fun z => qq z 2)) [[0; 1; 0]; [0; 0; 0]; [0; 1; 0]]
  | PGB => if c =? 2 then map (map (fun z => qq z 2)) [[0; 0; 0]; [1; 0; 1]; [0; 0; 0]]
           else map (map (fun z => qq z 2)) [[0; 1; 0]; [0; 0; 0]; [0; 1; 0]]
  end.
Definition box_wd (c : Z) (q : pos) : matrix (F := QcF) := map (map (fun z => qq z 9)) [[1; 1; 1]; [1; 1; 1]; [1; 1; 1]].
Definition colour44 : tensor QcF := mkT [3; 4; 4] (fun i => qz (10 * (1 + nth 0 i 0))).
Ltac two o H := let E := fresh in assert (o = 0 \/ o = 1) as E by (clear - H; lia); destruct E as [-> | ->].
Ltac three_cases o H := let E := fresh in assert (o = 0 \/ o = 1 \/ o = 2) as E by (clear - H; lia); destruct E as [-> | [-> | ->]].
Example C142_bilinear : selector QcF (interpolator 3 bilinear_wd) /\ flat_rgb QcF [] 2 2 (fun c => qz (10 * (1 + c))) colour44 /\
  show (x <- rgb_to_1c_bayer garbage colour44 "GBRG" ;; demosaic_with (interpolator 3 bilinear_wd) garbage garbage x "gbrg" (qz 255)) = show (Ok colour44).
Proof.
  split; [|split; [split; [reflexivity|]|vm_compute; reflexivity]].
  - intros q o Ho. split; [reflexivity|]. intros e He. apply Qc_is_canon.
    two o Ho; three_cases e He; destruct q; vm_compute; reflexivity.
  - intros p c i j Vp _ _ _. inversion Vp; subst. reflexivity.
Qed.
Example C142_box : preserves_grey QcF (interpolator 3 box_wd) /\ ~ selector QcF (interpolator 3 box_wd) /\
  show (demosaic_with (interpolator 3 box_wd) garbage garbage (mkT [1; 4; 4] (fun _ => qz 7)) "RGGB" (qz 255)) = Some ([3; 4; 4], zq (repeat 7 48)) /\
  show (x <- rgb_to_1c_bayer garbage colour44 "GBRG" ;; demosaic_with (interpolator 3 box_wd) garbage garbage x "GBRG" (qz 255)) <> show (Ok colour44).
Proof.
  split; [|split; [|split; [vm_compute; reflexivity|vm_compute; discriminate]]].
  - intros q o Ho. split; [reflexivity|]. apply Qc_is_canon. two o Ho; destruct q; vm_compute; reflexivity.
  - intros H. destruct (H PR 0 ltac:(lia)) as [_ S]. specialize (S 0 ltac:(lia)). apply (f_equal this) in S. vm_compute in S. discriminate.
Qed.
