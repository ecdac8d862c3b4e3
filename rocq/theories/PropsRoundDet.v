(** C154: SSIM in floating-point arithmetic that always rounds the same number the same way.

    Vocabulary (RoundSsimDet.v):
    - [rd]: what the machine makes of the exact result of an operation; any function at all, unless a hypothesis says more;
    - [blur]: what the program's blur makes of an image; any function;
    - [rd_ssim_full rd blur s f x y]: the SSIM map computed from them, f being the covariance factor; [rd_ssim_den]: the denominator
      by which it divides at a pixel;
    - [rd_mean rd p l w]: w is the mean of p over the list l, added up in any order, divided by the length. *)
From Coq Require Import QArith Qcanon.
From Verif Require Import ExampleUtil PropsSsim SsimRefute RoundSsimDet RoundSsimDetEx.
Open Scope Z_scope.

(** The computed SSIM of an image with itself is exactly 1 at every pixel: numerator and denominator are the same number. *)
Theorem C154_self : forall (F : ofield) (rd : F -> F) blur (s : ssim F) f (x : tensor F) j,
  rd f1 = f1 -> rd_ssim_den rd blur s f x x j <> f0 -> at_ (rd_ssim_full rd blur s f x x) j = f1.
Proof. exact det_self. Qed.
Print Assumptions C154_self.
(** Exchanging the images changes no digit. *)
Theorem C154_symmetric : forall (F : ofield) (rd : F -> F) blur (s : ssim F) f (x y : tensor F), shp x = shp y -> shp (blur x) = shp (blur y) ->
  (forall u v, shp u = shp x -> teq u v -> teq (blur u) (blur v)) -> shp (blur (rd_prod rd x y)) = shp (blur x) ->
  teq (rd_ssim_full rd blur s f x y) (rd_ssim_full rd blur s f y x).
Proof. exact det_symmetric. Qed.
Print Assumptions C154_symmetric.
(** The map is one of those C153 speaks of, if rd errs relatively by at most e and doubles exactly. *)
Theorem C154_possible : forall (F : ofield) e fuel junk (rd : F -> F) blur (s : ssim F) f axes (x y : tensor F), shp x = shp y -> scale_factor s axes = Ok f ->
  (forall v, rounds e v (rd v)) -> (forall v, rd (fmul two (rd v)) = fmul two (rd v)) ->
  (forall z, shp z = shp x -> fl_forward e fuel junk (ss_blur s) z (AxSeq axes) (blur z)) ->
  fl_ssim_full e fuel junk s x y axes (rd_ssim_full rd blur s f x y).
Proof. exact det_possible. Qed.
Print Assumptions C154_possible.
(** The mean of pixels that are all 1 is exactly 1, for any order of the additions, if the machine keeps the integers up to the number of pixels. *)
Theorem C154_mean : forall (F : ofield) (A : Type) (rd : F -> F) (p : A -> F) l w, rd_mean rd p l w -> (forall o, In o l -> p o = f1) ->
  (forall k, 1 <= k <= Z.of_nat (length l) -> rd (fofZ k) = fofZ k) -> w = f1.
Proof. exact @det_mean. Qed.
Print Assumptions C154_mean.
(** So is the score of an image with itself, the mean over any list of pixels of the map (all of a block, or those left by cropping). *)
Theorem C154_score : forall (F : ofield) (rd : F -> F) blur (s : ssim F) f (x : tensor F) l w,
  (forall k, 1 <= k <= Z.of_nat (length l) -> rd (fofZ k) = fofZ k) -> (forall j, In j l -> rd_ssim_den rd blur s f x x j <> f0) ->
  rd_mean rd (at_ (rd_ssim_full rd blur s f x x)) l w -> w = f1.
Proof. exact det_score. Qed.
Print Assumptions C154_score.
(** Sixteenths keep integers. A mean that multiplied by a rounded 1/3 would give 15/16 for three ones.
    The sum of 1/3 and 1/3 is 5/8. *)
Example C154_mean_ex : (forall k, sixteenth (fofZ k) = fofZ k) /\ rd_mean sixteenth (fun _ => f1) [5; 6; 7] (qz 1) /\
  sixteenth (fmul (qz 3) (sixteenth (fdiv f1 (qz 3)))) = qq 15 16 /\ rd_sum sixteenth (fun _ => qq 1 3) [5; 6] (qq 5 8).
Proof. exact mean_ex. Qed.
(** Rounding down to sixteenths: the map of the images of C51, computed. An image with itself gives ones; exchanging the images
    changes nothing; the values are not the exact ones, and two lie outside [-1, 1]. *)
Example C154_ex : sixteenth f1 = f1 /\ (forall j, valid [2; 2; 2] j -> rd_ssim_den sixteenth blur51 (s51 None true) (qq 6 5) x51 x51 j <> f0) /\
  show (Ok (rd_ssim_full sixteenth blur51 (s51 None true) (qq 6 5) x51 x51)) = Some ([2; 2; 2], repeat (1 # 1)%Q 8) /\
  show (Ok (rd_ssim_full sixteenth blur51 (s51 None true) (qq 6 5) x51 y51)) = show (Ok (rd_ssim_full sixteenth blur51 (s51 None true) (qq 6 5) y51 x51)) /\
  show (Ok (rd_ssim_full sixteenth blur51 (s51 None true) (qq 6 5) x51 y51)) = Some ([2; 2; 2], [7 # 8; 7 # 8; 7 # 8; 15 # 16; -19 # 16; -19 # 16; -1 # 1; -1 # 1]%Q) /\
  show (Ok (rd_ssim_full (fun v => v) blur51 (s51 None true) (qq 6 5) x51 y51)) =
    Some ([2; 2; 2], [88871 # 96733; 108511 # 117993; 1070395 # 1153703; 1834283 # 1934439; -11 # 16; -11 # 16; -27328 # 56829; -27328 # 56829]%Q) /\
  shp (blur51 x51) = shp (blur51 y51) /\ shp (blur51 (rd_prod sixteenth x51 y51)) = shp (blur51 x51).
Proof. exact det_ex. Qed.
(** The hypothesis of C154_symmetric on the blur. *)
Example C154_blur_ex : forall u v, shp u = shp x51 -> teq u v -> teq (blur51 u) (blur51 v).
Proof. exact blur51_teq. Qed.
(** Arithmetic that flushes numbers below a hundredth to 0 (e = 1), with an exact blur. *)
Example C154_flush_ex : (forall v, rounds (qz 1) v (flush v)) /\ (forall v, flush (fmul two (flush v)) = fmul two (flush v)) /\ flush f1 = f1 /\ flush (qq 1 200) = qz 0 /\
  (forall z, shp z = shp x51 -> fl_forward (qz 1) 20 garbage (ss_blur (s51 None true)) z (AxSeq [1; 2]) (blur51 z)) /\
  scale_factor (s51 None true) [1; 2] = Ok (fdiv (fofZ 6) (fofZ 5)).
Proof. exact flush_ex. Qed.
(** The hypotheses of C154_score, for one channel of that image. *)
Example C154_score_ex : let l := [[0; 0; 0]; [0; 0; 1]; [0; 1; 0]; [0; 1; 1]] in
  (forall j, In j l -> rd_ssim_den sixteenth blur51 (s51 None true) (qq 6 5) x51 x51 j <> f0) /\
  rd_mean sixteenth (at_ (rd_ssim_full sixteenth blur51 (s51 None true) (qq 6 5) x51 x51)) l (qz 1).
Proof. exact score_ex. Qed.
(** Numerator and denominator at one pixel, with and without a covariance factor; the product of two pixels. *)
Example C154_pixel_ex : let num f := rd_num sixteenth (qq 5 3) (qq 4 3) f (qq 7 3) (qq 5 3) (qq 9 2) in
  let den f := rd_den sixteenth (qq 5 3) (qq 4 3) f (qq 7 3) (qq 5 3) (qq 15 2) (qq 10 3) in
  num (qq 6 5) = qq 525 16 /\ den (qq 6 5) = qq 421 8 /\ num (qz 1) = qq 63 2 /\ den (qz 1) = qq 765 16 /\
  show (Ok (rd_prod sixteenth (mkT [1] (fun _ => qq 5 3)) (mkT [1] (fun _ => qq 7 3)))) = Some ([1], [31 # 8]%Q).
Proof. exact det_pixel_ex. Qed.
