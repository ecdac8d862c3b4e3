(** C153: rounding error of SSIM.

    Vocabulary (RoundSsimModel.v, RoundSsim.v; PropsSsim.v, PropsRound.v, PropsRoundMse.v):
    - [fl_ssim_forward e fuel junk s x y cax rax score full]: score and full are what SSIM.forward may give in floating-point
      arithmetic: every operation of the blurs, of the formula and of the mean, K1 ** 2, K2 ** 2 and the factor n / (n - 1)
      may err relatively, by at most e;
    - [fl_ssim_full]: the map alone; [rounded e full w]: w is the tensor full, every entry rounded;
    - [fl_ssim_at]: the formula at one pixel, from blurred images and products;
    - [copying_padder n pd]: no padder, or one in mode replicate, circular, periodize, symmetric, reflect or constant zero on each of n axes;
    - [bounded B x]: no pixel exceeds B in absolute value; [roundings kers]: the kernels' lengths plus one, added up;
    - [lum_size K1 B] = 2 B^2 + K1^2; [cs_size K2 f B] = 4 f B^2 + K2^2; [ssim_floor K1 K2] = K1^2 K2^2, below which no exact
      denominator lies; [ssim_delta e K1 K2 f B N] = ((1 + e)^(4 N + 10) - 1) lum_size cs_size, the error of numerator and denominator;
    - [ssim_factor] = (floor + delta) / (floor - delta) * (1 + e). *)
From Coq Require Import QArith Qcanon.
From Verif Require Import ExampleUtil PropsSsim SsimRefute RoundSsim RoundSsimEx.
Open Scope Z_scope.

(** Every pixel of the map, and every score, if the error of the denominator stays below the least possible denominator: the map
    errs by at most ssim_factor - 1, the score by the roundings of the mean more. The k of a score is the number of pixels of the map
    that belong to it, before cropping. *)
Theorem C153_rounding : forall (F : ofield) e fuel junk (s : ssim F) (x y score' full' : tensor F) cax rax al rl kers pd B,
  ssim_call fuel s x y cax rax al rl kers pd -> window F kers -> copying_padder (length al) pd ->
  ss_K1 s <> f0 -> ss_K2 s <> f0 -> fle f0 e -> bounded B x -> bounded B y ->
  let n := zprod (map klen kers) in
  let f := if ss_sample s then fdiv (fofZ n) (fofZ (n - 1)) else f1 in
  flt (ssim_delta e (ss_K1 s) (ss_K2 s) f B (roundings kers)) (ssim_floor (ss_K1 s) (ss_K2 s)) ->
  fl_ssim_forward e fuel junk s x y cax rax score' full' ->
  let c := ssim_factor e (ss_K1 s) (ss_K2 s) f B (roundings kers) in
  exists score full, snd (ssim_forward (sep_forward fuel junk) x y cax rax s) = Ok (score, full) /\ shp full' = shp full /\ shp score' = shp score /\
    (forall j, valid (shp full) j -> fle (fabs (fsub (at_ full' j) (at_ full j))) (fsub c f1)) /\
    (forall j k, valid (shp score) j -> Z.of_nat k = zprod (map (fun a => nth a (shp full) 0) (reduced (ndim x) rl)) ->
       fle (fabs (fsub (at_ score' j) (at_ score j))) (fsub (fmul c (fpow (fadd f1 e) (k + 1))) f1)).
Proof. exact ssim_rounding. Qed.
Print Assumptions C153_rounding.
(** One pixel: from blurs in error by N roundings, of numbers w1, w2, c11, c22, c12 that are the moments of two variables. *)
Theorem C153_pixel : forall (F : ofield) e K1 K2 f B N (m1 m2 b11 b22 b12 v w1 w2 c11 c22 c12 : F), fle f0 e -> fle f0 f -> K1 <> f0 -> K2 <> f0 ->
  flt (ssim_delta e K1 K2 f B N) (ssim_floor K1 K2) ->
  errs F (fpow (fadd f1 e) N) B m1 w1 -> errs F (fpow (fadd f1 e) N) B m2 w2 ->
  errs F (fpow (fadd f1 e) (N + 1)) (fmul B B) b11 c11 -> errs F (fpow (fadd f1 e) (N + 1)) (fmul B B) b22 c22 -> errs F (fpow (fadd f1 e) (N + 1)) (fmul B B) b12 c12 ->
  fle (fmul (fsub w1 w2) (fsub w1 w2)) (fsub (fadd c11 c22) (fmul two c12)) -> fle (fmul (fadd w1 w2) (fadd w1 w2)) (fadd (fadd c11 c22) (fmul two c12)) ->
  fl_ssim_at e K1 K2 f m1 m2 b11 b22 b12 v ->
  errs F (ssim_factor e K1 K2 f B N) f1 v (ssim_at K1 K2 f w1 w2 c11 c22 c12).
Proof. exact pixel_err. Qed.
Print Assumptions C153_pixel.
(** A pixel with an error of a hundredth in every operation. *)
Example C153_pixel_ex : let e := qq 1 100 in let K := qz 100 in
  flt (ssim_delta e K K (qz 2) (qz 1) 1) (ssim_floor K K) /\
  errs QcF (fpow (fadd f1 e) 1) (qz 1) (qq 101 200) (qq 1 2) /\ errs QcF (fpow (fadd f1 e) 1) (qz 1) (qq 99 400) (qq 1 4) /\
  errs QcF (fpow (fadd f1 e) 2) (qz 1) (qq 101 200) (qq 1 2) /\ errs QcF (fpow (fadd f1 e) 2) (qz 1) (qq 99 400) (qq 1 4) /\ errs QcF (fpow (fadd f1 e) 2) (qz 1) (qq 101 800) (qq 1 8) /\
  fl_ssim_at e K K (qz 2) (qq 101 200) (qq 99 400) (qq 101 200) (qq 99 400) (qq 101 800)
    (qq 13056300707335242099870354878878400 12421337206711711891892996863367991).
Proof. exact pixel_ex. Qed.
(** The exact result is one of the possible ones, for any e. *)
Theorem C153_exact : forall (F : ofield) e fuel junk (s : ssim F) (x y score full : tensor F) cax rax al rl kers pd,
  ssim_call fuel s x y cax rax al rl kers pd -> fle f0 e ->
  snd (ssim_forward (sep_forward fuel junk) x y cax rax s) = Ok (score, full) -> fl_ssim_forward e fuel junk s x y cax rax score full.
Proof. exact ssim_exact. Qed.
Print Assumptions C153_exact.
(** So is any rounding of the exact map. *)
Theorem C153_last : forall (F : ofield) e fuel junk (s : ssim F) (x y score full w : tensor F) cax rax al rl kers pd,
  ssim_call fuel s x y cax rax al rl kers pd -> fle f0 e ->
  snd (ssim_forward (sep_forward fuel junk) x y cax rax s) = Ok (score, full) -> rounded e full w -> fl_ssim_full e fuel junk s x y (map Z.of_nat al) w.
Proof. exact ssim_last. Qed.
Print Assumptions C153_last.
(** So is any rounding of the products x * x, y * y and x * y, with whatever the rounded formula makes of it. *)
Theorem C153_products : forall (F : ofield) e fuel junk (s : ssim F) (x y y11 y22 y12 mu1 mu2 b11 b22 b12 w : tensor F) f axes,
  fle f0 e -> shp y = shp x -> scale_factor s axes = Ok f ->
  rounded e (prodt x x) y11 -> rounded e (prodt y y) y22 -> rounded e (prodt x y) y12 ->
  let run z r := snd (sep_forward fuel junk (ss_blur s) z (AxSeq axes)) = Ok r in
  run x mu1 -> run y mu2 -> run y11 b11 -> run y22 b22 -> run y12 b12 -> shp w = shp mu1 ->
  (forall j, valid (shp w) j -> fl_ssim_at e (ss_K1 s) (ss_K2 s) f (at_ mu1 j) (at_ mu2 j) (at_ b11 j) (at_ b22 j) (at_ b12 j) (at_ w j)) ->
  fl_ssim_full e fuel junk s x y axes w.
Proof. exact ssim_products. Qed.
Print Assumptions C153_products.
(** Images whose shapes differ have no score in either arithmetic. *)
Theorem C153_shapes : forall (F : ofield) e fuel junk (s : ssim F) (x y : tensor F) cax rax, shp x <> shp y ->
  snd (ssim_forward (sep_forward fuel junk) x y cax rax s) = Err AssertionError /\ forall score full, ~ fl_ssim_forward e fuel junk s x y cax rax score full.
Proof. exact ssim_shapes. Qed.
Print Assumptions C153_shapes.

Lemma bounded_all (B : QcF) (x : tensor QcF) : forallb (fun i => fleb (fabs (at_ x i)) B) (tindices (shp x)) = true -> bounded B x.
Proof. intros H i V. rewrite forallb_forall in H. apply H. now apply In_tindices. Qed.
(** Double precision: e = 2^-53. *)
Definition u53 : QcF := qq 1 9007199254740992.
Example C153_ex : forall pd, pd = None \/ pd = Some repl ->
  ssim_call 20 (s51 pd true) x51 y51 ax1 ax1 [1%nat; 2%nat] [1%nat; 2%nat] kers51 pd /\ window QcF kers51 /\ copying_padder 2 pd /\
  ss_K1 (s51 pd true) <> f0 /\ ss_K2 (s51 pd true) <> f0 /\ bounded (qz 9) x51 /\ bounded (qz 9) y51 /\
  zprod (map klen kers51) = 6 /\ roundings kers51 = 7%nat /\ fle f0 u53 /\
  flt (ssim_delta u53 (qq 1 2) (qq 1 3) (qq 6 5) (qz 9) 7) (ssim_floor (qq 1 2) (qq 1 3)) /\
  fle (fsub (ssim_factor u53 (qq 1 2) (qq 1 3) (qq 6 5) (qz 9) 7) f1) (qq 3 100000000) /\
  (forall score full, run x51 y51 (s51 pd true) = Ok (score, full) -> fl_ssim_forward u53 20 garbage (s51 pd true) x51 y51 ax1 ax1 score full /\
     rounded (qq 1 2) full (tmap (fun v => fmul v (qq 3 2)) full)).
Proof.
  intros pd Hp.
  assert (C : ssim_call 20 (s51 pd true) x51 y51 ax1 ax1 [1%nat; 2%nat] [1%nat; 2%nat] kers51 pd) by (destruct Hp as [-> | ->]; apply call51; [now left|right; exists repl; split; auto; exists MReplicate; split; auto; exact I]).
  split; [exact C|]. split; [intros k [<-|[<-|[]]]; [apply windowA|apply windowB]; now left|].
  split; [destruct Hp as [-> | ->]; [exact I|exists [MReplicate; MReplicate], [(qz 7, qz 8); (qz 7, qz 8)], [(qz 0, qz 10); (qz 0, qz 10)]; repeat split; try reflexivity; nats]|].
  split; [discriminate|]. split; [discriminate|].
  split; [apply bounded_all; vm_compute; reflexivity|]. split; [apply bounded_all; vm_compute; reflexivity|].
  split; [reflexivity|]. split; [reflexivity|]. split; [vm_compute; reflexivity|]. split; [vm_compute; reflexivity|]. split; [vm_compute; reflexivity|].
  intros score full R. split; [eapply C153_exact; [exact C|vm_compute; reflexivity|exact R]|]. split; [reflexivity|]. intros j _. apply half_rounds.
Qed.
Example C153_products_ex : rounded (qq 1 2) (prodt x51 y51) (tmap (fun v => fmul v (qq 3 2)) (prodt x51 y51)) /\
  scale_factor (s51 None true) [1; 2] = Ok (fdiv (fofZ 6) (fofZ 5)) /\ shp x51 <> shp (ofz [1] [1]) /\
  show (snd (sep_forward 20 garbage (ss_blur (s51 None true)) (tmap (fun v => fmul v (qq 3 2)) (prodt x51 y51)) (AxSeq [1; 2]))) = Some ([2; 2; 2], [81 # 2; 48 # 1; 423 # 8; 519 # 8; 0 # 1; 0 # 1; 3 # 16; 3 # 16]%Q).
Proof. split; [split; [reflexivity|intros j _; apply half_rounds]|]. split; [reflexivity|]. split; [discriminate|]. vm_compute; reflexivity. Qed.
(** The condition on K1 and K2 is needed. Flat images, 10 and 11, arithmetic with an error of a tenth: the squares 100 and 121
    and the product 110 become 90, 121 and 121. The exact SSIM is 221/222; the computed one is below -2. *)
Theorem C153_cancellation_differs : rounds (qq 1 10) (fmul (qz 10) (qz 10)) (qz 90) /\ rounds (qq 1 10) (fmul (qz 11) (qz 11)) (qz 121) /\
  rounds (qq 1 10) (fmul (qz 10) (qz 11)) (qz 121) /\
  ssim_at (F := QcF) (qz 1) (qz 1) (qz 1) (qz 10) (qz 11) (qz 100) (qz 121) (qz 110) = qq 221 222 /\
  fl_ssim_at (F := QcF) (qq 1 10) (qz 1) (qz 1) (qz 1) (qz 10) (qz 11) (qz 90) (qz 121) (qz 121) (fdiv (qz (-23 * 221)) (qz (9 * 222))) /\
  flt (fdiv (qz (-23 * 221)) (qz (9 * 222))) (qz (-2)).
Proof. exact cancellation. Qed.
Print Assumptions C153_cancellation_differs.
