(** Model of the noise functions of torchimage/random.py and of
    torchimage/metrics/hdrvdp/pixels_per_degree.py over the real numbers. *)
From Coq Require Import Reals.
From Verif Require Export MiscModel RField.
Open Scope R_scope.

(** The draws of one call: [torch.poisson(rate)] draws for every index a natural number that depends on the
    rate there, [torch.randn(shape)] a real number for every index. *)
Definition poisson_draw := list Z -> R -> nat.
Definition normal_draw := list Z -> R.

(** [torch.poisson(rate)]; a negative rate raises a RuntimeError. *)
Definition tpoisson (draw : poisson_draw) (rate : tensor RF) : res (tensor RF) :=
  if tany (tmap (fun r : RF => negb (R_leb 0 r)) rate) then Err RuntimeError
  else Ok (mkT (A := RF) (shp rate) (fun i => INR (draw i (at_ rate i)))).
(** [torch.randn(shape)] *)
Definition trandn (draw : normal_draw) (s : list Z) : tensor RF := mkT (A := RF) s draw.
(** [sigma_2 ** 0.5] with [sigma_2 = sigma ** 2] *)
Definition spread (sigma : R) : R := let sigma_2 := sigma ^ 2 in sqrt sigma_2.

(** random.py:21-52 [add_poisson_gauss_noise].  With k = 0 the rates are inf or nan; the model raises a
    ZeroDivisionError instead. *)
Definition add_poisson_gauss_noise (pois : poisson_draw) (normal : normal_draw) (x : tensor RF) (k sigma : R) : res (tensor RF) :=
  if Req_EM_T k 0 then Err ZeroDivisionError else
  poisson_noise <- tpoisson pois (tmap (A := RF) (B := RF) (fun v => v / k) x) ;;
  let poisson_noise := tmap (A := RF) (B := RF) (fun v => v * k) poisson_noise in
  let gaussian_noise := tmap (A := RF) (B := RF) (fun v => v * spread sigma) (trandn normal (shp x)) in
  tmap2 (A := RF) (B := RF) (C := RF) Rplus poisson_noise gaussian_noise.

(** random.py:55-60 [add_gauss_noise] *)
Definition add_gauss_noise (normal : normal_draw) (x : tensor RF) (sigma : R) : res (tensor RF) :=
  let gaussian_noise := tmap (A := RF) (B := RF) (fun v => v * spread sigma) (trandn normal (shp x)) in
  tmap2 (A := RF) (B := RF) (C := RF) Rplus gaussian_noise x.

(** pixels_per_degree.py:4-33.  A zero divisor raises a ZeroDivisionError as in Python. *)
Definition pixels_per_degree (display_diagonal_mm height_pix width_pix viewing_distance_m : R) : res R :=
  if Req_EM_T height_pix 0 then Err ZeroDivisionError else
  let ar := width_pix / height_pix in
  let height_mm := sqrt (display_diagonal_mm ^ 2 / (1 + ar ^ 2)) in
  if Req_EM_T (viewing_distance_m * 1000) 0 then Err ZeroDivisionError else
  let height_rad := 2 * atan ((1 / 2) * height_mm / (viewing_distance_m * 1000)) in
  let height_deg := height_rad * 180 / PI in
  if Req_EM_T height_deg 0 then Err ZeroDivisionError else
  Ok (height_pix / height_deg).
