(** C55-C63, C68, C69: Bayer formats, BayerConv2d and demosaicing.

    Vocabulary (CfaProofs.v, BayerConvProofs.v, DemosaicProofs.v, CfaPropLemmas.v):
    - [nonneg pre]: the batch sizes pre are nonnegative; [valid s i]: i is an index into the shape s;
    - [patterns]: the four Bayer patterns; [case_variant s sa]: s is sa with some letters in lower case;
    - [letter_at sa i j]: letter of the pattern at pixel (i, j), which repeats with period 2;
    - [names sa i j k]: that letter is channel k (0 red, 1 green, 2 blue);
    - [in_class sa i j q]: pixel (i, j) is R, B, G next to R in its row (PGR) or G next to B (PGB);
    - [reflect n t]: position t reflected into 0 .. n-1 without repeating the border;
    - [conv_at M x h w q p o i j]: sum of the weights of class q times the reflected input centred at
      (i, j), plus bias;
    - [pixel_unshuffle2 y]: torch's pixel_unshuffle with factor 2. *)
From Coq Require Import Ascii String QArith Qcanon.
From Verif Require Import ExampleUtil GradColor BayerSize CfaAccepts DemosaicChannels.
Import List. Import ListNotations.
Local Notation length := List.length.
Open Scope string_scope.
Open Scope list_scope.
Open Scope Z_scope.

Definition x44 := ofz [1; 4; 4] [1; 2; 3; 4; 5; 6; 7; 8; 9; 10; 11; 12; 13; 14; 15; 16].
Definition rgb22 := ofz [3; 2; 2] [1; 2; 3; 4; 5; 6; 7; 8; 9; 10; 11; 12].
Definition net1 : bayer_conv QcF := mkBC 1 1 1 (fun p _ _ _ _ => qz (pos_color p + 1)) None.
Definition net3 : bayer_conv QcF :=
  mkBC 1 1 3 (fun p _ _ a b => qz (10 * a + b + pos_color p)) (Some (fun p _ => qz (pos_color p))).
Definition net2 : bayer_conv QcF :=
  mkBC 1 2 2 (fun p o _ a b => qz (10 * a + b + pos_color p + 100 * o)) None.

Definition tscalar_img (s : list Z) (v : QcF) : tensor QcF := mkT s (fun _ => v).
Definition x33 := ofz [1; 3; 3] [1; 2; 3; 4; 5; 6; 7; 8; 9].
Lemma unbatched_unshuffle : exists (M : bayer_conv QcF) x y z, shp x = [1; 2; 2] /\
  bayer_forward garbage M x "RGGB" = Ok y /\ bayer_forward_unshuffle garbage M x "RGGB" = Ok z /\
  shp y = [1; 2; 2] /\ shp (pixel_unshuffle2 y) = [4; 1; 1] /\ shp z = [1; 4; 1; 1].
Proof.
  exists net1, (ofz [1; 2; 2] [1; 2; 3; 4]). eexists. eexists. split; [reflexivity|]. split; [reflexivity|]. split; [reflexivity|].
  repeat split; reflexivity.
Qed.
Lemma odd_broadcast : exists (M : bayer_conv QcF) x, shp x = [1; 3; 3] /\ bc_k M = 1 /\ show (bayer_forward garbage M x "RGGB") = Some ([1; 3; 3], zq [1; 4; 1; 8; 15; 8; 1; 4; 1]).
Proof. exists net1, x33. split; [reflexivity|]. split; [reflexivity|]. vm_compute. reflexivity. Qed.
Ltac pat := vm_compute; tauto.
Ltac nn := repeat constructor; lia.

(** * C55: 1-channel and 4-channel formats *)
Theorem C55_layout : forall (F : ofield) pre m n (x : tensor F),
  nonneg pre -> 0 <= m -> 0 <= n -> shp x = pre ++ [1; 2 * m; 2 * n] ->
  exists y, bayer_1c_to_4c x = Ok y /\ shp y = pre ++ [4; m; n] /\
    forall p r c i j, valid pre p -> r = 0 \/ r = 1 -> c = 0 \/ c = 1 -> 0 <= i < m -> 0 <= j < n ->
      at_ y (p ++ [2 * r + c; i; j]) = at_ x (p ++ [0; 2 * i + r; 2 * j + c]).
Proof. exact one_to_four. Qed.
Print Assumptions C55_layout.
Theorem C55_roundtrip : forall (F : ofield) pre m n (x : tensor F) junk,
  nonneg pre -> 0 <= m -> 0 <= n -> shp x = pre ++ [1; 2 * m; 2 * n] ->
  exists y z, bayer_1c_to_4c x = Ok y /\ bayer_4c_to_1c junk y = Ok z /\ teq z x.
Proof. exact four_to_one_inv. Qed.
Print Assumptions C55_roundtrip.
Theorem C55_roundtrip_inv : forall (F : ofield) pre m n (x : tensor F) junk,
  nonneg pre -> 0 <= m -> 0 <= n -> shp x = pre ++ [4; m; n] ->
  exists y z, bayer_4c_to_1c junk x = Ok y /\ bayer_1c_to_4c y = Ok z /\ teq z x.
Proof. exact one_to_four_inv. Qed.
Print Assumptions C55_roundtrip_inv.
(** Every other shape is rejected. *)
Theorem C55_accepts : forall (F : ofield) (x : tensor F), nonneg (shp x) ->
  (exists y, bayer_1c_to_4c x = Ok y /\ exists pre m n, 0 <= m /\ 0 <= n /\ shp x = pre ++ [1; 2 * m; 2 * n]) \/
  (bayer_1c_to_4c x = Err AssertionError /\ forall pre m n, shp x <> pre ++ [1; 2 * m; 2 * n]).
Proof. exact one_to_four_accepts. Qed.
Print Assumptions C55_accepts.
Theorem C55_accepts_inv : forall (F : ofield) junk (x : tensor F), nonneg (shp x) ->
  (exists y, bayer_4c_to_1c junk x = Ok y /\ exists pre m n, 0 <= m /\ 0 <= n /\ shp x = pre ++ [4; m; n]) \/
  (bayer_4c_to_1c junk x = Err AssertionError /\ forall pre m n, shp x <> pre ++ [4; m; n]).
Proof. exact four_to_one_accepts. Qed.
Print Assumptions C55_accepts_inv.
Example C55_ex : nonneg [] /\ shp x44 = [] ++ [1; 2 * 2; 2 * 2] /\
  show (bayer_1c_to_4c x44) = Some ([4; 2; 2], zq [1; 3; 9; 11; 2; 4; 10; 12; 5; 7; 13; 15; 6; 8; 14; 16]) /\
  show (y <- bayer_1c_to_4c x44 ;; bayer_4c_to_1c garbage y) = show (Ok x44) /\
  bayer_1c_to_4c (ofz [1; 3; 4] []) = Err AssertionError /\ bayer_1c_to_4c (ofz [2; 4; 4] []) = Err AssertionError.
Proof. split; [nn|]. split; [reflexivity|]. split; [vm_compute; reflexivity|]. split; [vm_compute; reflexivity|]. split; reflexivity. Qed.
Example C55_ex_batch : nonneg [2] /\ shp (ofz [2; 4; 1; 1] [1; 2; 3; 4; 5; 6; 7; 8]) = [2] ++ [4; 1; 1] /\
  show (bayer_4c_to_1c garbage (ofz [2; 4; 1; 1] [1; 2; 3; 4; 5; 6; 7; 8])) = Some ([2; 1; 2; 2], zq [1; 2; 3; 4; 5; 6; 7; 8]).
Proof. split; [nn|]. split; [reflexivity|]. vm_compute; reflexivity. Qed.

(** * C56: mosaicking *)
Theorem C56_agree : forall (F : ofield) pre m n (x : tensor F) s sa junk,
  nonneg pre -> 0 <= m -> 0 <= n -> shp x = pre ++ [3; 2 * m; 2 * n] -> In sa patterns -> case_variant s sa ->
  exists y1 y4 w, rgb_to_1c_bayer junk x s = Ok y1 /\ rgb_to_4c_bayer x s = Ok y4 /\ bayer_1c_to_4c y1 = Ok w /\ teq w y4 /\
    shp y1 = pre ++ [1; 2 * m; 2 * n] /\ shp y4 = pre ++ [4; m; n] /\
    forall p i j k, valid pre p -> 0 <= i < 2 * m -> 0 <= j < 2 * n -> names sa i j k ->
      at_ y1 (p ++ [0; i; j]) = at_ x (p ++ [k; i; j]) /\
      at_ y4 (p ++ [2 * (i mod 2) + j mod 2; i / 2; j / 2]) = at_ x (p ++ [k; i; j]).
Proof. exact rgb_bayer_agree. Qed.
Print Assumptions C56_agree.
(** [accepts P f] (CfaAccepts.v): f succeeds exactly on the images whose last three sizes satisfy P with a known
    alignment; every other call is an AssertionError. *)
Theorem C56_accepts_1c : forall (F : ofield) junk, accepts (fun c h w => c = 3 /\ h mod 2 = 0 /\ w mod 2 = 0) (fun (x : tensor F) s => rgb_to_1c_bayer junk x s).
Proof. exact rgb_1c_accepts. Qed.
Print Assumptions C56_accepts_1c.
Theorem C56_accepts_4c : forall F : ofield, accepts (fun c h w => c = 3 /\ h mod 2 = 0 /\ w mod 2 = 0) (fun (x : tensor F) s => rgb_to_4c_bayer x s).
Proof. exact rgb_4c_accepts. Qed.
Print Assumptions C56_accepts_4c.
Example C56_accepts_ex : nonneg (shp (ofz [2; 4; 2] [])) /\ rgb_to_4c_bayer (ofz [2; 4; 2] []) "RGGB" = Err AssertionError /\
  rgb_to_1c_bayer garbage (ofz [3; 4; 3] []) "RGGB" = Err AssertionError /\ rgb_to_1c_bayer garbage (ofz [3; 4; 2] []) "RGBG" = Err AssertionError /\
  (exists y, rgb_to_1c_bayer garbage (ofz [3; 4; 2] []) "rggb" = Ok y) /\ bayer_4c_to_1c garbage (ofz [5; 4; 2] []) = Err AssertionError.
Proof. split; [nn|]. split; [reflexivity|]. split; [reflexivity|]. split; [reflexivity|]. split; [eexists; reflexivity|reflexivity]. Qed.
Example C56_ex : shp rgb22 = [] ++ [3; 2 * 1; 2 * 1] /\ In "GRBG" patterns /\ case_variant "gRbg" "GRBG" /\
  names "GRBG" 0 1 0 /\ names "GRBG" 1 0 2 /\
  show (rgb_to_1c_bayer garbage rgb22 "gRbg") = Some ([1; 2; 2], zq [5; 2; 11; 8]) /\
  show (rgb_to_4c_bayer rgb22 "gRbg") = Some ([4; 1; 1], zq [5; 2; 11; 8]).
Proof.
  split; [reflexivity|]. split; [pat|]. split; [apply upper_variant; [now apply patterns_letters; pat|reflexivity]|].
  split; [left; split; reflexivity|]. split; [right; right; split; reflexivity|]. split; vm_compute; reflexivity.
Qed.

(** * C57: pattern names *)
Theorem C57_accepts : forall s,
  (exists sa, In sa patterns /\ case_variant s sa /\ check_sensor_alignment s = Ok sa)
  \/ ((forall sa, In sa patterns -> ~ case_variant s sa) /\ check_sensor_alignment s = Err AssertionError).
Proof. exact check_sensor_alignment_spec. Qed.
Print Assumptions C57_accepts.
Theorem C57_result : forall s sa, In sa patterns -> case_variant s sa -> check_sensor_alignment s = Ok sa.
Proof. exact check_sensor_alignment_ok. Qed.
Print Assumptions C57_result.
Example C57_ex : In "RGGB" patterns /\ case_variant "rGgB" "RGGB" /\ check_sensor_alignment "rGgB" = Ok "RGGB" /\
  check_sensor_alignment "RGBG" = Err AssertionError /\ check_sensor_alignment "RGG" = Err AssertionError.
Proof.
  split; [pat|]. split; [apply upper_variant; [now apply patterns_letters; pat|reflexivity]|]. repeat split; reflexivity.
Qed.

(** * C58: position classes *)
Theorem C58_positions : forall sa, In sa patterns ->
  exists f, get_sensor_beg_index sa = Ok f /\
    (forall p, (fst (f p) = 0 \/ fst (f p) = 1) /\ (snd (f p) = 0 \/ snd (f p) = 1)) /\
    (forall p, String.get (Z.to_nat (2 * fst (f p) + snd (f p))) sa = Some (letter p)) /\
    fst (f PGR) = fst (f PR) /\ fst (f PGB) = fst (f PB) /\
    (forall p q, f p = f q -> p = q) /\
    (forall r c, r = 0 \/ r = 1 -> c = 0 \/ c = 1 -> exists p, f p = (r, c)).
Proof. exact beg_index_spec. Qed.
Print Assumptions C58_positions.
(** The classes of the pixels, read off the letters alone, are those of the model. *)
Theorem C58_classes : forall sa f i j q, In sa patterns -> get_sensor_beg_index sa = Ok f ->
  in_class sa i j q <-> f q = (i mod 2, j mod 2).
Proof. exact in_class_beg. Qed.
Print Assumptions C58_classes.
Theorem C58_partition : forall sa i j, In sa patterns ->
  exists q, in_class sa i j q /\ forall q', in_class sa i j q' -> q' = q.
Proof. exact in_class_total. Qed.
Print Assumptions C58_partition.
Example C58_ex : In "GBRG" patterns /\ in_class "GBRG" 3 5 PGR /\ in_class "GBRG" 0 4 PGB /\
  (f <- get_sensor_beg_index "GBRG" ;; Ok [f PR; f PB; f PGR; f PGB]) = Ok [(1, 0); (0, 1); (1, 1); (0, 0)].
Proof. split; [pat|]. repeat split; reflexivity. Qed.

(** * C59: down-sampling *)
Theorem C59_downsample : forall (F : ofield) pre m n (x : tensor F) s sa,
  nonneg pre -> 0 <= m -> 0 <= n -> shp x = pre ++ [1; 2 * m; 2 * n] -> In sa patterns -> case_variant s sa ->
  exists y, downsample_1c_bayer_to_rgb x s = Ok y /\ shp y = pre ++ [3; m; n] /\
    forall p i j ir jr ig jg ig' jg' ib jb, valid pre p -> 0 <= i < m -> 0 <= j < n ->
      (* four pixels of block (i, j): red, green, the other green, blue *)
      ir / 2 = i -> jr / 2 = j -> ig / 2 = i -> jg / 2 = j -> ig' / 2 = i -> jg' / 2 = j -> ib / 2 = i -> jb / 2 = j ->
      letter_at sa ir jr = Some "R"%char -> letter_at sa ig jg = Some "G"%char -> letter_at sa ig' jg' = Some "G"%char ->
      letter_at sa ib jb = Some "B"%char -> (ig, jg) <> (ig', jg') ->
      at_ y (p ++ [0; i; j]) = at_ x (p ++ [0; ir; jr]) /\
      at_ y (p ++ [1; i; j]) = fdiv (fadd (at_ x (p ++ [0; ig; jg])) (at_ x (p ++ [0; ig'; jg']))) (fofZ 2) /\
      at_ y (p ++ [2; i; j]) = at_ x (p ++ [0; ib; jb]).
Proof. exact downsample_1c. Qed.
Print Assumptions C59_downsample.
Theorem C59_accepts_1c : forall F : ofield, accepts (fun c h w => c = 1 /\ h mod 2 = 0 /\ w mod 2 = 0) (fun (x : tensor F) s => downsample_1c_bayer_to_rgb x s).
Proof. exact down_1c_accepts. Qed.
Print Assumptions C59_accepts_1c.
Theorem C59_accepts_4c : forall F : ofield, accepts (fun c _ _ => c = 4) (fun (x : tensor F) s => downsample_4c_bayer_to_rgb x s).
Proof. exact down_4c_accepts. Qed.
Print Assumptions C59_accepts_4c.
Example C59_accepts_ex : downsample_4c_bayer_to_rgb (ofz [3; 4; 2] []) "RGGB" = Err AssertionError /\ downsample_4c_bayer_to_rgb (ofz [4; 4; 2] []) "RGG" = Err AssertionError /\
  (exists y, downsample_4c_bayer_to_rgb (ofz [4; 3; 5] []) "bggr" = Ok y) /\ downsample_1c_bayer_to_rgb (ofz [1; 4; 3] []) "RGGB" = Err AssertionError.
Proof. split; [reflexivity|]. split; [reflexivity|]. split; [eexists; reflexivity|reflexivity]. Qed.
Example C59_ex : shp x44 = [] ++ [1; 2 * 2; 2 * 2] /\ letter_at "BGGR" 3 1 = Some "R"%char /\ letter_at "BGGR" 2 0 = Some "B"%char /\
  letter_at "BGGR" 2 1 = Some "G"%char /\ letter_at "BGGR" 3 0 = Some "G"%char /\ (2, 1) <> (3, 0) /\
  show (downsample_1c_bayer_to_rgb x44 "BGGR") =
    Some ([3; 2; 2], (zq [6; 8; 14; 16] ++ [7 # 2; 11 # 2; 23 # 2; 27 # 2]%Q ++ zq [1; 3; 9; 11])%list).
Proof. repeat split; try reflexivity; try discriminate. Qed.

(** * C60: demosaicing keeps the measured samples, for any interpolation network *)
Theorem C60_keeps : forall (F : ofield) pre m n (M : bayer_conv F) x s sa cl j1 j2 j3 z,
  nonneg pre -> 0 <= m -> 0 <= n -> shp x = pre ++ [1; 2 * m; 2 * n] -> bc_in M = 1 -> bc_out M = 2 -> 1 <= bc_k M ->
  In sa patterns -> case_variant s sa -> demosaic_with M j1 j2 x s cl = Ok z ->
  shp z = pre ++ [3; 2 * m; 2 * n] /\
  (exists w, rgb_to_1c_bayer j3 z s = Ok w /\ teq w (tmap (fclamp f0 cl) x)) /\
  forall p k i j q, valid pre p -> 0 <= k < 3 -> 0 <= i < 2 * m -> 0 <= j < 2 * n -> in_class sa i j q ->
    (names sa i j k -> at_ z (p ++ [k; i; j]) = fclamp f0 cl (at_ x (p ++ [0; i; j]))) /\
    (~ names sa i j k -> at_ z (p ++ [k; i; j]) =
       fclamp f0 cl (conv_at F M x (2 * m) (2 * n) q p (if k <? pos_color q then k else k - 1) i j)).
Proof. exact demosaic_keeps. Qed.
Print Assumptions C60_keeps.
(** Exactly when a result is returned. *)
Theorem C60_defined : forall (F : ofield) pre m n (M : bayer_conv F) x s sa cl j1 j2,
  nonneg pre -> 0 <= m -> 0 <= n -> shp x = pre ++ [1; 2 * m; 2 * n] -> bc_in M = 1 -> bc_out M = 2 -> 1 <= bc_k M ->
  In sa patterns -> case_variant s sa ->
  (exists z, demosaic_with M j1 j2 x s cl = Ok z) <->
  (length pre <= 1)%nat /\ bc_k M / 2 < 2 * m /\ bc_k M / 2 < 2 * n /\ 1 <= m /\ 1 <= n.
Proof. exact demosaic_defined. Qed.
Print Assumptions C60_defined.
Theorem C60_buffer : forall (F : ofield) pre m n (M : bayer_conv F) x s sa cl j1 j2 j1' j2' z,
  nonneg pre -> 0 <= m -> 0 <= n -> shp x = pre ++ [1; 2 * m; 2 * n] -> bc_in M = 1 -> bc_out M = 2 -> 1 <= bc_k M ->
  In sa patterns -> case_variant s sa -> demosaic_with M j1 j2 x s cl = Ok z ->
  exists z', demosaic_with M j1' j2' x s cl = Ok z' /\ teq z z'.
Proof. exact demosaic_junk. Qed.
Print Assumptions C60_buffer.
Definition m44 := ofz [1; 4; 4] [10; 20; 30; 40; 50; 60; 70; 80; 15; 25; 35; 45; 55; 65; 75; 85].
Example C60_ex : shp m44 = [] ++ [1; 2 * 2; 2 * 2] /\ bc_in (gradient_corrected_interpolator (F := QcF)) = 1 /\
  bc_out (gradient_corrected_interpolator (F := QcF)) = 2 /\ (length (@nil Z) <= 1)%nat /\ 5 / 2 < 2 * 2 /\
  (z <- demosaic garbage garbage m44 "RGGB" (qz 60) ;; Ok (shp z)) = Ok [3; 4; 4] /\
  show (z <- demosaic garbage garbage m44 "RGGB" (qz 60) ;; rgb_to_1c_bayer garbage z "RGGB") =
    Some ([1; 4; 4], zq [10; 20; 30; 40; 50; 60; 60; 60; 15; 25; 35; 45; 55; 60; 60; 60]).
Proof. repeat split; try reflexivity; try (cbn; lia). Qed.
(** The last step alone, for every number of channels: the mosaic must have one channel and the interpolation at least two (further ones are ignored). *)
Theorem C60_last_step : forall (F : ofield) pre m n, nonneg pre -> 0 <= m -> 0 <= n -> forall s sa, In sa patterns -> case_variant s sa ->
  forall junk (x y : tensor F) Cx Cy, 0 <= Cx -> 0 <= Cy -> shp x = pre ++ [Cx; 2 * m; 2 * n] -> shp y = pre ++ [Cy; 2 * m; 2 * n] ->
  (Cx <> 1 -> last_step_demosaic junk x y s = Err RuntimeError) /\
  (Cx = 1 -> Cy < 2 -> last_step_demosaic junk x y s = Err IndexError) /\
  (Cx = 1 -> 2 <= Cy -> exists z, last_step_demosaic junk x y s = Ok z /\ shp z = pre ++ [3; 2 * m; 2 * n] /\
    forall p k i j, valid pre p -> 0 <= k < 3 -> 0 <= i < 2 * m -> 0 <= j < 2 * n ->
      (names sa i j k -> at_ z (p ++ [k; i; j]) = at_ x (p ++ [0; i; j])) /\
      (forall c, names sa i j c -> k < c -> at_ z (p ++ [k; i; j]) = at_ y (p ++ [k; i; j])) /\
      (forall c, names sa i j c -> c < k -> at_ z (p ++ [k; i; j]) = at_ y (p ++ [k - 1; i; j]))).
Proof. exact @last_step_named. Qed.
Print Assumptions C60_last_step.
Theorem C60_mismatch : forall (F : ofield) pre s sa, In sa patterns -> case_variant s sa ->
  forall junk (x y : tensor F) pre' Cx Cy h w h' w', shp x = pre ++ [Cx; h; w] -> shp y = pre' ++ [Cy; h'; w'] ->
  (pre, h, w) <> (pre', h', w') -> last_step_demosaic junk x y s = Err AssertionError.
Proof. exact @last_step_mismatch. Qed.
Print Assumptions C60_mismatch.
Example C60_last_step_ex :
  show (last_step_demosaic garbage (ofz [1; 2; 2] [1; 2; 3; 4]) (ofz [2; 2; 2] [10; 20; 30; 40; 50; 60; 70; 80]) "RGGB") = Some ([3; 2; 2], zq [1; 20; 30; 40; 10; 2; 3; 80; 50; 60; 70; 4]) /\
  show (last_step_demosaic garbage (ofz [1; 2; 2] [1; 2; 3; 4]) (ofz [3; 2; 2] [10; 20; 30; 40; 50; 60; 70; 80; 9; 9; 9; 9]) "bggr") = Some ([3; 2; 2], zq [10; 20; 30; 4; 50; 2; 3; 40; 1; 60; 70; 80]) /\
  last_step_demosaic garbage (ofz [1; 2; 2] [1; 2; 3; 4]) (ofz [1; 2; 2] [10; 20; 30; 40]) "RGGB" = Err IndexError /\
  last_step_demosaic garbage (ofz [2; 2; 2] [1; 2; 3; 4]) (ofz [2; 2; 2] [10; 20; 30; 40]) "RGGB" = Err RuntimeError /\
  last_step_demosaic garbage (ofz [1; 2; 2] [1; 2; 3; 4]) (ofz [2; 2; 4] []) "RGGB" = Err AssertionError.
Proof. split; [|split; [|split; [|split]]]; vm_compute; reflexivity. Qed.
(** A mosaic with two batch axes raises: torch's reflection padding takes 3 or 4 axes. *)
Theorem C60_batch_refuted : exists (x : tensor QcF), shp x = [1; 1; 1; 4; 4] /\
  demosaic garbage garbage x "RGGB" (qz 255) = Err RuntimeError.
Proof. exact (ex_intro _ (ofz [1; 1; 1; 4; 4] []) (conj eq_refl eq_refl)). Qed.
Print Assumptions C60_batch_refuted.

(** * C61: flat and affine images *)
Theorem C61_constant_partial : forall (F : ofield) pre m n, nonneg pre -> (length pre <= 1)%nat -> 2 <= m -> 2 <= n ->
  forall s sa cl (img : tensor F), In sa patterns -> case_variant s sa -> shp img = pre ++ [3; 2 * m; 2 * n] ->
  forall j0 j1 j2 v, (forall i, valid (shp img) i -> at_ img i = v) -> fle f0 v -> fle v cl ->
  exists x z, rgb_to_1c_bayer j0 img s = Ok x /\ demosaic j1 j2 x s cl = Ok z /\ teq z img.
Proof. exact demosaic_const. Qed.
Print Assumptions C61_constant_partial.
Theorem C61_affine_partial : forall (F : ofield) pre m n, nonneg pre -> (length pre <= 1)%nat -> 2 <= m -> 2 <= n ->
  forall s sa cl (img : tensor F), In sa patterns -> case_variant s sa -> shp img = pre ++ [3; 2 * m; 2 * n] ->
  forall j0 j1 j2 (al be ga : list Z -> F),
  (forall p ch i j, valid pre p -> 0 <= ch < 3 -> 0 <= i < 2 * m -> 0 <= j < 2 * n ->
     at_ img (p ++ [ch; i; j]) = fadd (fadd (al p) (fmul (be p) (fofZ i))) (fmul (ga p) (fofZ j))) ->
  exists x z, rgb_to_1c_bayer j0 img s = Ok x /\ demosaic j1 j2 x s cl = Ok z /\ shp z = shp img /\
    forall p ch i j, valid pre p -> 0 <= ch < 3 -> 2 <= i < 2 * m - 2 -> 2 <= j < 2 * n - 2 ->
      fle f0 (at_ img (p ++ [ch; i; j])) -> fle (at_ img (p ++ [ch; i; j])) cl ->
      at_ z (p ++ [ch; i; j]) = at_ img (p ++ [ch; i; j]).
Proof. exact demosaic_affine. Qed.
Print Assumptions C61_affine_partial.
(** Images of height or width 2 raise: the 5x5 filter needs more than 2 pixels to reflect. *)
Theorem C61_small_refuted : exists (x : tensor QcF), shp x = [1; 2; 6] /\
  demosaic garbage garbage x "RGGB" (qz 255) = Err RuntimeError.
Proof. exact (ex_intro _ (ofz [1; 2; 6] []) (conj eq_refl eq_refl)). Qed.
Print Assumptions C61_small_refuted.
Theorem C61_small : forall (F : ofield) pre h w (x : tensor F) s sa cl j1 j2, nonneg pre -> shp x = pre ++ [1; h; w] ->
  In sa patterns -> case_variant s sa -> h <= 2 \/ w <= 2 -> forall z, demosaic j1 j2 x s cl <> Ok z.
Proof. exact demosaic_small. Qed.
Print Assumptions C61_small.

(** * C69: exact per channel *)
Theorem C69_constant : forall (F : ofield) pre m n, nonneg pre -> (length pre <= 1)%nat -> 2 <= m -> 2 <= n ->
  forall s sa cl (img : tensor F), In sa patterns -> case_variant s sa -> shp img = pre ++ [3; 2 * m; 2 * n] ->
  forall j0 j1 j2 (v : list Z -> Z -> F),
  (forall p ch i j, valid pre p -> 0 <= ch < 3 -> 0 <= i < 2 * m -> 0 <= j < 2 * n ->
     at_ img (p ++ [ch; i; j]) = v p ch /\ fle f0 (v p ch) /\ fle (v p ch) cl) ->
  exists x z, rgb_to_1c_bayer j0 img s = Ok x /\ demosaic j1 j2 x s cl = Ok z /\ teq z img.
Proof. exact demosaic_colour_const. Qed.
Print Assumptions C69_constant.
Theorem C69_affine : forall (F : ofield) pre m n, nonneg pre -> (length pre <= 1)%nat -> 2 <= m -> 2 <= n ->
  forall s sa cl (img : tensor F), In sa patterns -> case_variant s sa -> shp img = pre ++ [3; 2 * m; 2 * n] ->
  forall j0 j1 j2 (al be ga : list Z -> Z -> F),
  (forall p ch i j, valid pre p -> 0 <= ch < 3 -> 0 <= i < 2 * m -> 0 <= j < 2 * n ->
     at_ img (p ++ [ch; i; j]) = fadd (fadd (al p ch) (fmul (be p ch) (fofZ i))) (fmul (ga p ch) (fofZ j))) ->
  exists x z, rgb_to_1c_bayer j0 img s = Ok x /\ demosaic j1 j2 x s cl = Ok z /\ shp z = shp img /\
    forall p ch i j, valid pre p -> 0 <= ch < 3 -> 2 <= i < 2 * m - 2 -> 2 <= j < 2 * n - 2 ->
      fle f0 (at_ img (p ++ [ch; i; j])) -> fle (at_ img (p ++ [ch; i; j])) cl ->
      at_ z (p ++ [ch; i; j]) = at_ img (p ++ [ch; i; j]).
Proof. exact demosaic_colour_affine. Qed.
Print Assumptions C69_affine.
(** A coloured image, constant, and one with a different slope in each channel. *)
Definition flat_rgb : tensor QcF := mkT [3; 4; 4] (fun i => qz (10 * (1 + nth 0 i 0))).
Definition slope_rgb : tensor QcF := mkT [3; 6; 6] (fun i => qz (let c := nth 0 i 0 in 10 + 20 * c + (c + 1) * nth 1 i 0 + 3 * (2 - c) * nth 2 i 0)).
Example C69_ex_constant : shp flat_rgb = [] ++ [3; 2 * 2; 2 * 2] /\
  show (x <- rgb_to_1c_bayer garbage flat_rgb "GBRG" ;; demosaic garbage garbage x "GBRG" (qz 255)) = show (Ok flat_rgb).
Proof. split; [reflexivity|]. vm_compute. reflexivity. Qed.
Example C69_ex_affine : shp slope_rgb = [] ++ [3; 2 * 3; 2 * 3] /\
  (let crop t := t <- t ;; tgetx t [ISl sfull; ISl (srng 2 4); ISl (srng 2 4)] in
   show (crop (x <- rgb_to_1c_bayer garbage slope_rgb "GBRG" ;; demosaic garbage garbage x "GBRG" (qz 255))) = show (crop (Ok slope_rgb))
   /\ show (crop (Ok slope_rgb)) = Some ([3; 2; 2], zq [24; 30; 25; 31; 40; 43; 42; 45; 56; 56; 59; 59])).
Proof. split; [reflexivity|]. split; vm_compute; reflexivity. Qed.
(** Gray instances: the hypotheses of C61 hold, and the result is the image. *)
Definition gray_ramp : tensor QcF := mkT [3; 6; 6] (fun i => qz (10 + 4 * nth 1 i 0 + 3 * nth 2 i 0)).
Example C61_ex : (forall i, valid [3; 4; 4] i -> at_ (tscalar_img [3; 4; 4] (qz 7)) i = qz 7) /\
  show (x <- rgb_to_1c_bayer garbage (tscalar_img [3; 4; 4] (qz 7)) "RGGB" ;; demosaic garbage garbage x "RGGB" (qz 255))
    = show (Ok (tscalar_img [3; 4; 4] (qz 7))) /\
  (let crop t := t <- t ;; tgetx t [ISl sfull; ISl (srng 2 4); ISl (srng 2 4)] in
   show (crop (x <- rgb_to_1c_bayer garbage gray_ramp "RGGB" ;; demosaic garbage garbage x "RGGB" (qz 255))) = show (crop (Ok gray_ramp))).
Proof. split; [reflexivity|]. split; vm_compute; reflexivity. Qed.

(** * C62: BayerConv2d, any kernel size, odd or even *)
Theorem C62_values : forall (F : ofield) pre C m n (M : bayer_conv F) x s sa junk y,
  nonneg pre -> 0 <= m -> 0 <= n -> shp x = pre ++ [C; 2 * m; 2 * n] -> 1 <= bc_k M -> 0 <= bc_out M ->
  In sa patterns -> case_variant s sa -> bayer_forward junk M x s = Ok y ->
  shp y = pre ++ [bc_out M; 2 * m; 2 * n] /\
  forall p o i j q, valid pre p -> 0 <= o < bc_out M -> 0 <= i < 2 * m -> 0 <= j < 2 * n -> in_class sa i j q ->
    at_ y (p ++ [o; i; j]) = conv_at F M x (2 * m) (2 * n) q p o i j.
Proof. exact bayer_conv_values. Qed.
Print Assumptions C62_values.
Theorem C62_defined : forall (F : ofield) pre C m n (M : bayer_conv F) x s sa junk,
  nonneg pre -> 0 <= m -> 0 <= n -> shp x = pre ++ [C; 2 * m; 2 * n] -> 1 <= bc_k M -> 0 <= bc_out M ->
  In sa patterns -> case_variant s sa ->
  (exists y, bayer_forward junk M x s = Ok y) <->
  bc_in M = C /\ (length pre <= 1)%nat /\ bc_k M / 2 < 2 * m /\ bc_k M / 2 < 2 * n /\ 1 <= m /\ 1 <= n.
Proof. exact bayer_conv_defined. Qed.
Print Assumptions C62_defined.
Example C62_ex : shp x44 = [] ++ [1; 2 * 2; 2 * 2] /\ bc_in net3 = 1 /\ bc_k net3 / 2 < 2 * 2 /\ in_class "RGGB" 1 2 PGB /\
  (y <- bayer_forward garbage net3 x44 "RGGB" ;; Ok (shp y)) = Ok [1; 4; 4] /\
  option_map (fun r => nth 6 (snd r) 0%Q) (show (bayer_forward garbage net3 x44 "RGGB"))
    = Some (inject_Z (1 + (1*2 + 2*3 + 3*4 + 11*6 + 12*7 + 13*8 + 21*10 + 22*11 + 23*12))).
Proof. repeat split; try reflexivity. Qed.
Example C62_ex_even : bc_k net2 = 2 /\
  option_map (fun r => nth 0 (snd r) 0%Q) (show (bayer_forward garbage net2 x44 "RGGB"))
    = Some (inject_Z (0*6 + 1*5 + 10*2 + 11*1)).
Proof. repeat split; try reflexivity. Qed.

(** * C63: forward_unshuffle, batched input *)
Theorem C63_partial : forall (F : ofield) B C m n (M : bayer_conv F) x s sa junk junk',
  0 <= B -> 0 <= m -> 0 <= n -> shp x = [B; C; 2 * m; 2 * n] -> 1 <= bc_k M -> 0 <= bc_out M ->
  In sa patterns -> case_variant s sa ->
  (forall y, bayer_forward junk M x s = Ok y ->
     exists z, bayer_forward_unshuffle junk' M x s = Ok z /\ teq z (pixel_unshuffle2 y)) /\
  (forall z, bayer_forward_unshuffle junk' M x s = Ok z -> exists y, bayer_forward junk M x s = Ok y).
Proof. exact unshuffle_values. Qed.
Print Assumptions C63_partial.
Example C63_ex : 
  show (y <- bayer_forward garbage net2 (ofz [1; 1; 4; 4] [1; 2; 3; 4; 5; 6; 7; 8; 9; 10; 11; 12; 13; 14; 15; 16]) "GBRG" ;; Ok (pixel_unshuffle2 y)) =
  show (bayer_forward_unshuffle garbage net2 (ofz [1; 1; 4; 4] [1; 2; 3; 4; 5; 6; 7; 8; 9; 10; 11; 12; 13; 14; 15; 16]) "GBRG") /\
  (y <- bayer_forward garbage net2 (ofz [1; 1; 4; 4] []) "GBRG" ;; Ok (shp y)) = Ok [1; 2; 4; 4].
Proof. split; vm_compute; reflexivity. Qed.
(** One image without a batch axis: forward keeps 3 axes, forward_unshuffle returns 4. *)
Theorem C63_unbatched_refuted : exists (M : bayer_conv QcF) x y z, shp x = [1; 2; 2] /\
  bayer_forward garbage M x "RGGB" = Ok y /\ bayer_forward_unshuffle garbage M x "RGGB" = Ok z /\
  shp y = [1; 2; 2] /\ shp (pixel_unshuffle2 y) = [4; 1; 1] /\ shp z = [1; 4; 1; 1].
Proof. exact unbatched_unshuffle. Qed.
Print Assumptions C63_unbatched_refuted.
(** In general it returns as many copies of pixel_unshuffle(forward(x)) as x has channels. *)
Theorem C63_unbatched : forall (F : ofield) C m n (M : bayer_conv F) x s sa junk junk' y,
  0 <= C -> 0 <= m -> 0 <= n -> shp x = [C; 2 * m; 2 * n] ->
  1 <= bc_k M -> 0 <= bc_out M -> In sa patterns -> case_variant s sa -> bayer_forward junk M x s = Ok y ->
  exists z, bayer_forward_unshuffle junk' M x s = Ok z /\ shp z = C :: shp (pixel_unshuffle2 y) /\
    forall b i, 0 <= b < C -> valid (shp (pixel_unshuffle2 y)) i -> at_ z (b :: i) = at_ (pixel_unshuffle2 y) i.
Proof. exact unbatched_copies. Qed.
Print Assumptions C63_unbatched.

(** * C68: odd sizes *)
Theorem C68_odd_partial : forall (F : ofield) pre C h w (M : bayer_conv F) x s sa junk,
  nonneg pre -> shp x = pre ++ [C; h; w] -> 0 <= bc_out M -> In sa patterns -> case_variant s sa ->
  (bc_k M) mod 2 = 1 -> 0 <= h -> 0 <= w -> (h mod 2 = 1 /\ 5 <= h) \/ (w mod 2 = 1 /\ 5 <= w) ->
  forall y, bayer_forward junk M x s <> Ok y.
Proof. exact odd_rejected. Qed.
Print Assumptions C68_odd_partial.
(** A 3x3 image passes: the single value of a class is broadcast over its pixels. *)
Theorem C68_odd_refuted : exists (M : bayer_conv QcF) x,
  shp x = [1; 3; 3] /\ bc_k M = 1 /\
  show (bayer_forward garbage M x "RGGB") = Some ([1; 3; 3], zq [1; 4; 1; 8; 15; 8; 1; 4; 1]).
Proof. exact odd_broadcast. Qed.
Print Assumptions C68_odd_refuted.
(** Exactly the sizes that are accepted by an odd kernel: even sides and sides of 3 larger than half the kernel. *)
Theorem C68_defined : forall (F : ofield) pre C h w (M : bayer_conv F) x s sa junk,
  nonneg pre -> shp x = pre ++ [C; h; w] -> 0 <= bc_out M -> In sa patterns -> case_variant s sa ->
  bc_k M mod 2 = 1 -> 1 <= bc_k M ->
  ((exists y, bayer_forward junk M x s = Ok y) <->
   bc_in M = C /\ (length pre <= 1)%nat /\
   (bc_k M / 2 < h /\ (h mod 2 = 0 /\ 2 <= h \/ h = 3)) /\ (bc_k M / 2 < w /\ (w mod 2 = 0 /\ 2 <= w \/ w = 3))).
Proof. exact forward_defined. Qed.
Print Assumptions C68_defined.
(** The value on all of them; along a side of 3 the last row repeats the first.  [shown_row 3 i] is i mod 2,
    [shown_row h i] is i otherwise. *)
Theorem C68_values : forall (F : ofield) pre C h w (M : bayer_conv F) x s sa junk,
  nonneg pre -> shp x = pre ++ [C; h; w] -> 0 <= bc_out M -> In sa patterns -> case_variant s sa ->
  bc_k M mod 2 = 1 -> 1 <= bc_k M -> bc_in M = C -> (length pre <= 1)%nat ->
  side_ok (bc_k M) h -> side_ok (bc_k M) w ->
  exists y, bayer_forward junk M x s = Ok y /\ shp y = pre ++ [bc_out M; h; w] /\
    forall p o i j q, valid pre p -> 0 <= o < bc_out M -> 0 <= i < h -> 0 <= j < w -> in_class sa i j q ->
      at_ y (p ++ [o; i; j]) = conv_at F M x h w q p o (shown_row h i) (shown_row w j).
Proof. exact forward_any. Qed.
Print Assumptions C68_values.
Example C68_values_ex : side_ok (bc_k net3) 3 /\ side_ok (bc_k net3) 4 /\
  (y <- bayer_forward garbage net3 (ofz [1; 3; 4] [1; 2; 3; 4; 5; 6; 7; 8; 9; 10; 11; 12]) "RGGB" ;; Ok (shp y)) = Ok [bc_out net3; 3; 4] /\
  shown_row 3 2 = 0 /\ shown_row 4 2 = 2.
Proof. split; [split; [reflexivity|now right]|]. split; [split; [reflexivity|left; split; [reflexivity|lia]]|]. repeat split. Qed.
Example C68_ex : nonneg [] /\ bc_k net3 mod 2 = 1 /\ (5 mod 2 = 1 /\ 5 <= 5) /\
  bayer_forward garbage net3 (ofz [1; 5; 4] []) "RGGB" = Err RuntimeError.
Proof. split; [nn|]. split; [reflexivity|]. split; [split; [reflexivity|lia]|reflexivity]. Qed.
