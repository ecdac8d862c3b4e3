(** C141: laws of BayerConv2d (torchimage/cfa/bayer_conv/bayer_conv_2d.py).

    Vocabulary (CfaModel.v, CfaPropLemmas.v, BayerConvLaws.v; see also C62 in PropsCfa.v):
    - [bayer_forward junk M x s]: BayerConv2d.forward of the image x with sensor alignment s; junk is the content of
      torch.empty; M has bc_in input channels, bc_out output channels, kernels of size bc_k, weights bc_w and
      perhaps biases, one convolution per class of pixels (red, blue, green in red rows, green in blue rows);
    - [letter_at sa i j]: letter of the pattern at pixel (i, j), which repeats with period 2;
    - [combined pre C h w c d x y v]: v = c x + d y at every pixel;
    - [combined_net c d M1 M2 M3]: weights and biases of M3 are c times those of M1 plus d times those of M2, where
      a missing bias counts as 0 ([bias_at]);
    - [inside k h w i j]: the k x k window of pixel (i, j) lies inside an image of h rows and w columns;
    - [colour_blind M]: the four convolutions have the same weights and biases;
    - [same_sizes M M']: the same numbers of channels and the same kernel size;
    - [turn_pos]: exchanges the two green classes. *)
From Coq Require Import Ascii String QArith Qcanon.
From Verif Require Import ExampleUtil PropsCfa PropsBayer2 BayerConvLaws.
Import List. Import ListNotations.
Local Notation length := List.length.
Open Scope string_scope.
Open Scope list_scope.
Open Scope Z_scope.

(** Affine in the image; linear if there is no bias. *)
Theorem C141_image : forall (F : ofield) pre C m n (M : bayer_conv F) x1 x2 x3 c d s sa j1 j2 j3 y1 y2,
  nonneg pre -> 0 <= m -> 0 <= n -> shp x1 = pre ++ [C; 2 * m; 2 * n] -> shp x2 = shp x1 -> shp x3 = shp x1 ->
  1 <= bc_k M -> 0 <= bc_out M -> In sa patterns -> case_variant s sa ->
  combined F pre C (2 * m) (2 * n) c d x1 x2 x3 ->
  bayer_forward j1 M x1 s = Ok y1 -> bayer_forward j2 M x2 s = Ok y2 ->
  exists y3, bayer_forward j3 M x3 s = Ok y3 /\ shp y3 = shp y1 /\
    forall p o i j q, valid pre p -> 0 <= o < bc_out M -> 0 <= i < 2 * m -> 0 <= j < 2 * n -> in_class sa i j q ->
      at_ y3 (p ++ [o; i; j]) =
      fadd (fadd (fmul c (at_ y1 (p ++ [o; i; j]))) (fmul d (at_ y2 (p ++ [o; i; j]))))
           (fmul (fsub (fsub f1 c) d) (bias_at F M q o)).
Proof. exact bayer_image. Qed.
Print Assumptions C141_image.
(** Linear in weights and biases. *)
Theorem C141_parameters : forall (F : ofield) pre C m n (M1 M2 M3 : bayer_conv F) x c d s sa j1 j2 j3 y1 y2,
  nonneg pre -> 0 <= m -> 0 <= n -> shp x = pre ++ [C; 2 * m; 2 * n] ->
  1 <= bc_k M1 -> 0 <= bc_out M1 -> In sa patterns -> case_variant s sa -> combined_net F c d M1 M2 M3 ->
  bayer_forward j1 M1 x s = Ok y1 -> bayer_forward j2 M2 x s = Ok y2 ->
  exists y3, bayer_forward j3 M3 x s = Ok y3 /\ shp y3 = shp y1 /\
    forall p o i j, valid pre p -> 0 <= o < bc_out M1 -> 0 <= i < 2 * m -> 0 <= j < 2 * n ->
      at_ y3 (p ++ [o; i; j]) = fadd (fmul c (at_ y1 (p ++ [o; i; j]))) (fmul d (at_ y2 (p ++ [o; i; j]))).
Proof. exact bayer_params. Qed.
Print Assumptions C141_parameters.
(** The value at a pixel whose window lies inside the image depends only on the pixels of the window (r = c = 0),
    and moves along with them: the alignment is to be shifted with the image. *)
Theorem C141_shift : forall (F : ofield) pre C m n m' n' (M : bayer_conv F) x x' s sa s' sa' r c junk junk' y y',
  nonneg pre -> 0 <= m -> 0 <= n -> 0 <= m' -> 0 <= n' ->
  shp x = pre ++ [C; 2 * m; 2 * n] -> shp x' = pre ++ [C; 2 * m'; 2 * n'] ->
  1 <= bc_k M -> 0 <= bc_out M -> In sa patterns -> case_variant s sa -> In sa' patterns -> case_variant s' sa' ->
  (forall i j, letter_at sa' i j = letter_at sa (i + r) (j + c)) ->
  bayer_forward junk M x s = Ok y -> bayer_forward junk' M x' s' = Ok y' ->
  forall p i j, valid pre p -> inside (bc_k M) (2 * m') (2 * n') i j -> inside (bc_k M) (2 * m) (2 * n) (i + r) (j + c) ->
  (forall ch a b, 0 <= ch < C -> i - bc_k M / 2 <= a < i - bc_k M / 2 + bc_k M -> j - bc_k M / 2 <= b < j - bc_k M / 2 + bc_k M ->
     at_ x' (p ++ [ch; a; b]) = at_ x (p ++ [ch; a + r; b + c])) ->
  forall o, 0 <= o < bc_out M -> at_ y' (p ++ [o; i; j]) = at_ y (p ++ [o; i + r; j + c]).
Proof. exact bayer_shift. Qed.
Print Assumptions C141_shift.
(** If the four convolutions agree, the alignment is irrelevant. *)
Theorem C141_alignment : forall (F : ofield) pre C m n (M : bayer_conv F) x s sa s' sa' junk junk' y,
  nonneg pre -> 0 <= m -> 0 <= n -> shp x = pre ++ [C; 2 * m; 2 * n] -> 1 <= bc_k M -> 0 <= bc_out M ->
  In sa patterns -> case_variant s sa -> In sa' patterns -> case_variant s' sa' -> colour_blind F M ->
  bayer_forward junk M x s = Ok y ->
  exists y', bayer_forward junk' M x s' = Ok y' /\ shp y' = shp y /\
    forall p o i j, valid pre p -> 0 <= o < bc_out M -> 0 <= i < 2 * m -> 0 <= j < 2 * n ->
      at_ y' (p ++ [o; i; j]) = at_ y (p ++ [o; i; j]).
Proof. exact bayer_blind. Qed.
Print Assumptions C141_alignment.
(** Mirrored images, kernels of odd size. *)
Theorem C141_columns : forall (F : ofield) pre C m n (M M' : bayer_conv F) x x' s sa s' sa' junk junk' y,
  nonneg pre -> 0 <= m -> 0 <= n -> shp x = pre ++ [C; 2 * m; 2 * n] -> shp x' = shp x -> 1 <= bc_k M -> 0 <= bc_out M ->
  In sa patterns -> case_variant s sa -> In sa' patterns -> case_variant s' sa' ->
  (forall i j, letter_at sa' i j = letter_at sa i (j + 1)) -> bc_k M mod 2 = 1 -> same_sizes F M M' ->
  (forall q o ch a b, 0 <= o < bc_out M -> 0 <= ch < C -> 0 <= a < bc_k M -> 0 <= b < bc_k M ->
     bc_w M' q o ch a b = bc_w M q o ch a (bc_k M - 1 - b)) ->
  (forall q o, 0 <= o < bc_out M -> bias_at F M' q o = bias_at F M q o) ->
  (forall p ch i j, valid pre p -> 0 <= ch < C -> 0 <= i < 2 * m -> 0 <= j < 2 * n ->
     at_ x' (p ++ [ch; i; j]) = at_ x (p ++ [ch; i; 2 * n - 1 - j])) ->
  bayer_forward junk M x s = Ok y ->
  exists y', bayer_forward junk' M' x' s' = Ok y' /\ shp y' = shp y /\
    forall p o i j, valid pre p -> 0 <= o < bc_out M -> 0 <= i < 2 * m -> 0 <= j < 2 * n ->
      at_ y' (p ++ [o; i; j]) = at_ y (p ++ [o; i; 2 * n - 1 - j]).
Proof. exact bayer_mirror_cols. Qed.
Print Assumptions C141_columns.
Theorem C141_rows : forall (F : ofield) pre C m n (M M' : bayer_conv F) x x' s sa s' sa' junk junk' y,
  nonneg pre -> 0 <= m -> 0 <= n -> shp x = pre ++ [C; 2 * m; 2 * n] -> shp x' = shp x -> 1 <= bc_k M -> 0 <= bc_out M ->
  In sa patterns -> case_variant s sa -> In sa' patterns -> case_variant s' sa' ->
  (forall i j, letter_at sa' i j = letter_at sa (i + 1) j) -> bc_k M mod 2 = 1 -> same_sizes F M M' ->
  (forall q o ch a b, 0 <= o < bc_out M -> 0 <= ch < C -> 0 <= a < bc_k M -> 0 <= b < bc_k M ->
     bc_w M' q o ch a b = bc_w M q o ch (bc_k M - 1 - a) b) ->
  (forall q o, 0 <= o < bc_out M -> bias_at F M' q o = bias_at F M q o) ->
  (forall p ch i j, valid pre p -> 0 <= ch < C -> 0 <= i < 2 * m -> 0 <= j < 2 * n ->
     at_ x' (p ++ [ch; i; j]) = at_ x (p ++ [ch; 2 * m - 1 - i; j])) ->
  bayer_forward junk M x s = Ok y ->
  exists y', bayer_forward junk' M' x' s' = Ok y' /\ shp y' = shp y /\
    forall p o i j, valid pre p -> 0 <= o < bc_out M -> 0 <= i < 2 * m -> 0 <= j < 2 * n ->
      at_ y' (p ++ [o; i; j]) = at_ y (p ++ [o; 2 * m - 1 - i; j]).
Proof. exact bayer_mirror_rows. Qed.
Print Assumptions C141_rows.
(** Transposed images, kernels of any size. *)
Theorem C141_transpose : forall (F : ofield) pre C m n (M M' : bayer_conv F) x x' s sa s' sa' junk junk' y,
  nonneg pre -> 0 <= m -> 0 <= n -> shp x = pre ++ [C; 2 * m; 2 * n] -> shp x' = pre ++ [C; 2 * n; 2 * m] ->
  1 <= bc_k M -> 0 <= bc_out M ->
  In sa patterns -> case_variant s sa -> In sa' patterns -> case_variant s' sa' ->
  (forall i j, letter_at sa' i j = letter_at sa j i) -> same_sizes F M M' ->
  (forall q o ch a b, 0 <= o < bc_out M -> 0 <= ch < C -> 0 <= a < bc_k M -> 0 <= b < bc_k M ->
     bc_w M' q o ch a b = bc_w M (turn_pos q) o ch b a) ->
  (forall q o, 0 <= o < bc_out M -> bias_at F M' q o = bias_at F M (turn_pos q) o) ->
  (forall p ch i j, valid pre p -> 0 <= ch < C -> 0 <= i < 2 * n -> 0 <= j < 2 * m ->
     at_ x' (p ++ [ch; i; j]) = at_ x (p ++ [ch; j; i])) ->
  bayer_forward junk M x s = Ok y ->
  exists y', bayer_forward junk' M' x' s' = Ok y' /\ shp y' = pre ++ [bc_out M; 2 * n; 2 * m] /\
    forall p o i j, valid pre p -> 0 <= o < bc_out M -> 0 <= i < 2 * n -> 0 <= j < 2 * m ->
      at_ y' (p ++ [o; i; j]) = at_ y (p ++ [o; j; i]).
Proof. exact bayer_transpose. Qed.
Print Assumptions C141_transpose.

(** *** Examples *)
Definition shifted44 := ofz [1; 4; 4] [2; 3; 4; 50; 6; 7; 8; 60; 10; 11; 12; 70; 14; 15; 16; 80].
Definition mirrored44 := ofz [1; 4; 4] [4; 3; 2; 1; 8; 7; 6; 5; 12; 11; 10; 9; 16; 15; 14; 13].
Definition net3c : bayer_conv QcF :=
  mkBC 1 1 3 (fun p _ _ a b => qz (10 * a + (2 - b) + pos_color p)) (Some (fun p _ => qz (pos_color p))).
Definition net3t : bayer_conv QcF :=
  mkBC 1 1 3 (fun p _ _ a b => qz (10 * b + a + pos_color p)) (Some (fun p _ => qz (pos_color p))).
Definition net2c : bayer_conv QcF :=
  mkBC 1 2 2 (fun p o _ a b => qz (10 * a + (1 - b) + pos_color p + 100 * o)) None.
Definition net3d : bayer_conv QcF :=
  mkBC 1 1 3 (fun p _ _ a b => fadd (fmul (qz 2) (qz (10 * a + b + pos_color p))) (fmul (qz (-3)) (qz (10 * a + (2 - b) + pos_color p))))
    (Some (fun p _ => fsub (fmul (qz 2) (qz (pos_color p))) (fmul (qz 3) (qz (pos_color p))))).
Definition blind3 : bayer_conv QcF := mkBC 1 1 3 (fun _ _ _ a b => qz (10 * a + b)) None.
Definition lin44 (c d : QcF) (x y : tensor QcF) : tensor QcF := mkT [1; 4; 4] (fun i => fadd (fmul c (at_ x i)) (fmul d (at_ y i))).
Definition cell (i j : Z) (r : option (list Z * list Q)) := option_map (fun r => nth (Z.to_nat (4 * i + j)) (snd r) 0%Q) r.

Ltac computed := repeat (match goal with |- _ /\ _ => split; [vm_compute; reflexivity|] end); vm_compute; reflexivity.

Example C141_image_example : shp x44 = [] ++ [1; 2 * 2; 2 * 2] /\ case_variant "rgGB" "RGGB" /\
  combined QcF [] 1 (2 * 2) (2 * 2) (qz 2) (qz (-3)) x44 mirrored44 (lin44 (qz 2) (qz (-3)) x44 mirrored44) /\
  in_class "RGGB" 1 1 PB /\
  cell 1 1 (show (bayer_forward garbage net3 x44 "rgGB")) = Some 950%Q /\
  cell 1 1 (show (bayer_forward garbage net3 mirrored44 "rgGB")) = Some 1055%Q /\
  this (bias_at QcF net3 PB 0) = 2%Q /\
  cell 1 1 (show (bayer_forward garbage net3 (lin44 (qz 2) (qz (-3)) x44 mirrored44) "rgGB"))
    = Some (inject_Z (2 * 950 - 3 * 1055 + (1 - 2 + 3) * 2)).
Proof.
  split; [reflexivity|]. split; [apply upper_variant; [now apply patterns_letters; pat|reflexivity]|]. split; [intros p ch i j _ _ _ _; reflexivity|].
  split; [reflexivity|]. computed.
Qed.
Example C141_parameters_example : combined_net QcF (qz 2) (qz (-3)) net3 net3c net3d /\
  cell 1 1 (show (bayer_forward garbage net3c x44 "RGGB")) = Some 938%Q /\
  cell 1 1 (show (bayer_forward garbage net3d x44 "RGGB")) = Some (inject_Z (2 * 950 - 3 * 938)).
Proof.
  split; [|computed].
  do 6 (split; [reflexivity|]). split; [reflexivity|].
  intros q o Ho. apply Qc_is_canon. destruct q; vm_compute; reflexivity.
Qed.
(** The image moved one column to the left: the alignment "GRBG" is "RGGB" moved; with "RGGB" the value differs. *)
Example C141_shift_example : (forall i j, letter_at "GRBG" i j = letter_at "RGGB" (i + 0) (j + 1)) /\
  inside 3 (2 * 2) (2 * 2) 1 1 /\ inside 3 (2 * 2) (2 * 2) (1 + 0) (1 + 1) /\
  (forall i j, 0 <= i < 3 -> 0 <= j < 3 -> at_ shifted44 ([] ++ [0; i; j]) = at_ x44 ([] ++ [0; i + 0; j + 1])) /\
  cell 1 1 (show (bayer_forward garbage net3 shifted44 "GRBG")) = Some 1003%Q /\
  cell 1 2 (show (bayer_forward garbage net3 x44 "RGGB")) = Some 1003%Q /\
  cell 1 1 (show (bayer_forward garbage net3 shifted44 "RGGB")) = Some 1067%Q.
Proof.
  split. { intros i j. rewrite Z.add_0_r. revert i j. letters (fun i _ : Z => i) (fun _ j : Z => j + 1). }
  split; [unfold inside; cbn; lia|]. split; [unfold inside; cbn; lia|]. split; [cells|]. computed.
Qed.
Example C141_alignment_example : colour_blind QcF blind3 /\
  show (bayer_forward garbage blind3 x44 "RGGB") = show (bayer_forward garbage blind3 x44 "GBRG") /\
  cell 1 1 (show (bayer_forward garbage blind3 x44 "GBRG")) = Some (inject_Z (1*0+2*1+3*2+5*10+6*11+7*12+9*20+10*21+11*22)).
Proof. split; [split; reflexivity|computed]. Qed.
Example C141_columns_example : (forall i j, letter_at "GRBG" i j = letter_at "RGGB" i (j + 1)) /\ same_sizes QcF net3 net3c /\
  (forall i j, 0 <= i < 2 * 2 -> 0 <= j < 2 * 2 -> at_ mirrored44 [0; i; j] = at_ x44 [0; i; 2 * 2 - 1 - j]) /\
  show (bayer_forward garbage net3c mirrored44 "GRBG") = show (y <- bayer_forward garbage net3 x44 "RGGB" ;; Ok (tflip 2 y)).
Proof.
  split; [letters (fun i _ : Z => i) (fun _ j : Z => j + 1)|]. split; [repeat split|]. split; [cells|]. vm_compute; reflexivity.
Qed.
(** Kernels of even size have their centre off the middle: mirroring image and kernels does not mirror the result. *)
Lemma even_columns : bc_k net2 = 2 /\ same_sizes QcF net2 net2c /\
  (forall q o ch a b, bc_w net2c q o ch a b = bc_w net2 q o ch a (2 - 1 - b)) /\
  (forall i j, 0 <= i < 2 * 2 -> 0 <= j < 2 * 2 -> at_ mirrored44 [0; i; j] = at_ x44 [0; i; 2 * 2 - 1 - j]) /\
  show (bayer_forward garbage net2c mirrored44 "GRBG") <> show (y <- bayer_forward garbage net2 x44 "RGGB" ;; Ok (tflip 2 y)).
Proof.
  split; [reflexivity|]. split; [repeat split|]. split; [reflexivity|]. split; [cells|]. vm_compute; discriminate.
Qed.
Theorem C141_even_differs : exists (M M' : bayer_conv QcF) x x', bc_k M = 2 /\ same_sizes QcF M M' /\
  (forall q o ch a b, bc_w M' q o ch a b = bc_w M q o ch a (2 - 1 - b)) /\
  (forall i j, 0 <= i < 2 * 2 -> 0 <= j < 2 * 2 -> at_ x' [0; i; j] = at_ x [0; i; 2 * 2 - 1 - j]) /\
  show (bayer_forward garbage M' x' "GRBG") <> show (y <- bayer_forward garbage M x "RGGB" ;; Ok (tflip 2 y)).
Proof. exact (ex_intro _ net2 (ex_intro _ net2c (ex_intro _ x44 (ex_intro _ mirrored44 even_columns)))). Qed.
Print Assumptions C141_even_differs.
Example C141_transpose_example : (forall i j, letter_at "GBRG" i j = letter_at "GRBG" j i) /\ same_sizes QcF net3 net3t /\
  show (bayer_forward garbage net3t (ofz [1; 4; 4] [1; 5; 9; 13; 2; 6; 10; 14; 3; 7; 11; 15; 4; 8; 12; 16]) "GBRG") =
  show (y <- bayer_forward garbage net3 x44 "GRBG" ;; Ok (mkT [1; 4; 4] (fun i => at_ y [nth 0 i 0; nth 2 i 0; nth 1 i 0]))).
Proof. split; [letters (fun _ j : Z => j) (fun i _ : Z => i)|]. split; [repeat split|]. vm_compute; reflexivity. Qed.
