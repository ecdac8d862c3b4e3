(** C103, C104: symmetries of demosaicing, and its behaviour under sums, contrast and brightness.

    Vocabulary (CfaPropLemmas.v, BayerLaws.v; see also PropsCfa.v):
    - [letter_at sa i j]: letter of the pattern at pixel (i, j), which repeats with period 2;
    - [swap_letter]: R for B, B for R, G for G;
    - [demosaic j1 j2 x s cl]: the gradient-corrected demosaicing of the mosaic x with sensor alignment s,
      clamped to [0, cl]; j1, j2 are the contents of torch.empty;
    - [demosaic_raw]: the same before the clamp;
    - [mix pre h w c d e x y v]: v = c x + d y + e at every pixel of the one-channel mosaics. *)
From Coq Require Import Ascii String QArith Qcanon.
From Verif Require Import ExampleUtil BayerLaws.
Import List. Import ListNotations.
Local Notation length := List.length.
Open Scope string_scope.
Open Scope list_scope.
Open Scope Z_scope.

(** ** C103: demosaicing commutes with mirroring the columns or the rows, with transposing the image, and with
    exchanging red and blue, if the sensor alignment is changed accordingly. *)
Theorem C103_columns : forall (F : ofield) pre m n, nonneg pre -> 0 <= m -> 0 <= n ->
  forall s sa s' sa', In sa patterns -> case_variant s sa -> In sa' patterns -> case_variant s' sa' ->
  forall cl (x x' : tensor F) j1 j2 j1' j2', shp x = pre ++ [1; 2 * m; 2 * n] -> forall z, shp x' = shp x ->
  (forall p i j, valid pre p -> 0 <= i < 2 * m -> 0 <= j < 2 * n -> at_ x' (p ++ [0; i; j]) = at_ x (p ++ [0; i; 2 * n - 1 - j])) ->
  (forall i j, letter_at sa' i j = letter_at sa i (j + 1)) ->
  demosaic j1 j2 x s cl = Ok z ->
  exists z', demosaic j1' j2' x' s' cl = Ok z' /\ shp z' = shp z /\
    forall p k i j, valid pre p -> 0 <= k < 3 -> 0 <= i < 2 * m -> 0 <= j < 2 * n ->
      at_ z' (p ++ [k; i; j]) = at_ z (p ++ [k; i; 2 * n - 1 - j]).
Proof. exact demosaic_mirror_cols. Qed.
Print Assumptions C103_columns.
Theorem C103_rows : forall (F : ofield) pre m n, nonneg pre -> 0 <= m -> 0 <= n ->
  forall s sa s' sa', In sa patterns -> case_variant s sa -> In sa' patterns -> case_variant s' sa' ->
  forall cl (x x' : tensor F) j1 j2 j1' j2', shp x = pre ++ [1; 2 * m; 2 * n] -> forall z, shp x' = shp x ->
  (forall p i j, valid pre p -> 0 <= i < 2 * m -> 0 <= j < 2 * n -> at_ x' (p ++ [0; i; j]) = at_ x (p ++ [0; 2 * m - 1 - i; j])) ->
  (forall i j, letter_at sa' i j = letter_at sa (i + 1) j) ->
  demosaic j1 j2 x s cl = Ok z ->
  exists z', demosaic j1' j2' x' s' cl = Ok z' /\ shp z' = shp z /\
    forall p k i j, valid pre p -> 0 <= k < 3 -> 0 <= i < 2 * m -> 0 <= j < 2 * n ->
      at_ z' (p ++ [k; i; j]) = at_ z (p ++ [k; 2 * m - 1 - i; j]).
Proof. exact demosaic_mirror_rows. Qed.
Print Assumptions C103_rows.
Theorem C103_transpose : forall (F : ofield) pre m n, nonneg pre -> 0 <= m -> 0 <= n ->
  forall s sa s' sa', In sa patterns -> case_variant s sa -> In sa' patterns -> case_variant s' sa' ->
  forall cl (x x' : tensor F) j1 j2 j1' j2', shp x = pre ++ [1; 2 * m; 2 * n] -> forall z, shp x' = pre ++ [1; 2 * n; 2 * m] ->
  (forall p i j, valid pre p -> 0 <= i < 2 * n -> 0 <= j < 2 * m -> at_ x' (p ++ [0; i; j]) = at_ x (p ++ [0; j; i])) ->
  (forall i j, letter_at sa' i j = letter_at sa j i) ->
  demosaic j1 j2 x s cl = Ok z ->
  exists z', demosaic j1' j2' x' s' cl = Ok z' /\ shp z' = pre ++ [3; 2 * n; 2 * m] /\
    forall p k i j, valid pre p -> 0 <= k < 3 -> 0 <= i < 2 * n -> 0 <= j < 2 * m ->
      at_ z' (p ++ [k; i; j]) = at_ z (p ++ [k; j; i]).
Proof. exact demosaic_transpose. Qed.
Print Assumptions C103_transpose.
Theorem C103_colours : forall (F : ofield) pre m n, nonneg pre -> 0 <= m -> 0 <= n ->
  forall s sa s' sa', In sa patterns -> case_variant s sa -> In sa' patterns -> case_variant s' sa' ->
  forall cl (x : tensor F) j1 j2 j1' j2', shp x = pre ++ [1; 2 * m; 2 * n] -> forall z,
  (forall i j, letter_at sa' i j = option_map swap_letter (letter_at sa i j)) ->
  demosaic j1 j2 x s cl = Ok z ->
  exists z', demosaic j1' j2' x s' cl = Ok z' /\ shp z' = shp z /\
    forall p k i j, valid pre p -> 0 <= k < 3 -> 0 <= i < 2 * m -> 0 <= j < 2 * n ->
      at_ z' (p ++ [k; i; j]) = at_ z (p ++ [2 - k; i; j]).
Proof. exact demosaic_swap. Qed.
Print Assumptions C103_colours.

Definition m46 := ofz [1; 4; 6] [10; 25; 30; 41; 50; 63; 11; 29; 34; 40; 57; 68; 19; 20; 38; 47; 52; 60; 13; 22; 31; 48; 59; 61].
(** The same with the columns, with the rows read backwards, and transposed. *)
Definition m46c := ofz [1; 4; 6] [63; 50; 41; 30; 25; 10; 68; 57; 40; 34; 29; 11; 60; 52; 47; 38; 20; 19; 61; 59; 48; 31; 22; 13].
Definition m46r := ofz [1; 4; 6] [13; 22; 31; 48; 59; 61; 19; 20; 38; 47; 52; 60; 11; 29; 34; 40; 57; 68; 10; 25; 30; 41; 50; 63].
Definition m46t := ofz [1; 6; 4] [10; 11; 19; 13; 25; 29; 20; 22; 30; 34; 38; 31; 41; 40; 47; 48; 50; 57; 52; 59; 63; 68; 60; 61].
Lemma pattern_letters sa sa' (f g : Z -> Z -> Z) : In sa patterns -> In sa' patterns ->
  (forall i j, f i j mod 2 = f (i mod 2) (j mod 2) mod 2) -> (forall i j, g i j mod 2 = g (i mod 2) (j mod 2) mod 2) ->
  (forall i j, i = 0 \/ i = 1 -> j = 0 \/ j = 1 -> letter_at sa' i j = letter_at sa (f i j) (g i j)) ->
  forall i j, letter_at sa' i j = letter_at sa (f i j) (g i j).
Proof.
  intros H H' Hf Hg E i j. rewrite (letter_parity sa' i j (i mod 2) (j mod 2)) by (rewrite Z.mod_mod; lia).
  rewrite (letter_parity sa (f i j) (g i j) (f (i mod 2) (j mod 2)) (g (i mod 2) (j mod 2))) by auto. apply E; apply mod2.
Qed.
Lemma succ_mod2 i : (i + 1) mod 2 = (i mod 2 + 1) mod 2. Proof. now rewrite Zplus_mod_idemp_l. Qed.
Ltac cells := let i := fresh in let j := fresh in let Hi := fresh in let Hj := fresh in intros i j Hi Hj;
  assert (i = 0 \/ i = 1 \/ i = 2 \/ i = 3 \/ i = 4 \/ i = 5) as Ci by lia; assert (j = 0 \/ j = 1 \/ j = 2 \/ j = 3 \/ j = 4 \/ j = 5) as Cj by lia;
  destruct Ci as [->|[->|[->|[->|[->| ->]]]]], Cj as [->|[->|[->|[->|[->| ->]]]]]; try lia; reflexivity.
Ltac letters f g := match goal with |- forall i j, letter_at ?sa' i j = letter_at ?sa _ _ => apply (pattern_letters sa sa' f g) end;
  [vm_compute; tauto|vm_compute; tauto|intros; cbv beta; first [now rewrite Z.mod_mod by lia|apply succ_mod2]|
   intros; cbv beta; first [now rewrite Z.mod_mod by lia|apply succ_mod2]|intros i j [->| ->] [->| ->]; reflexivity].
Lemma alignment_matters : shp m46 = [1; 4; 6] /\ shp m46c = [1; 4; 6] /\
  (forall i j, 0 <= i < 2 * 2 -> 0 <= j < 2 * 3 -> at_ m46c [0; i; j] = at_ m46 [0; i; 2 * 3 - 1 - j]) /\
  show (demosaic garbage garbage m46c "RGGB" (qz 60)) <> show (z <- demosaic garbage garbage m46 "RGGB" (qz 60) ;; Ok (tflip 2 z)).
Proof. split; [reflexivity|]. split; [reflexivity|]. split; [cells|]. intros H. vm_compute in H. discriminate H. Qed.
(** The hypotheses hold for the four symmetries, and both sides of the conclusions are computed. *)
Example C103_ex_columns : In "RGGB" patterns /\ In "GRBG" patterns /\
  (forall i j, letter_at "GRBG" i j = letter_at "RGGB" i (j + 1)) /\
  (forall i j, 0 <= i < 2 * 2 -> 0 <= j < 2 * 3 -> at_ m46c [0; i; j] = at_ m46 [0; i; 2 * 3 - 1 - j]) /\
  show (demosaic garbage garbage m46c "grbg" (qz 60)) = show (z <- demosaic garbage garbage m46 "RGGB" (qz 60) ;; Ok (tflip 2 z)) /\
  option_map (fun r => firstn 5 (snd r)) (show (demosaic garbage garbage m46 "RGGB" (qz 60))) = Some [10; 149 # 8; 30; 151 # 4; 50]%Q.
Proof.
  split; [vm_compute; tauto|]. split; [vm_compute; tauto|]. split; [letters (fun i _ : Z => i) (fun _ j : Z => j + 1)|].
  split; [cells|]. split; vm_compute; reflexivity.
Qed.
Example C103_ex_rows : (forall i j, letter_at "GBRG" i j = letter_at "RGGB" (i + 1) j) /\
  (forall i j, 0 <= i < 2 * 2 -> 0 <= j < 2 * 3 -> at_ m46r [0; i; j] = at_ m46 [0; 2 * 2 - 1 - i; j]) /\
  show (demosaic garbage garbage m46r "GBRG" (qz 60)) = show (z <- demosaic garbage garbage m46 "RGGB" (qz 60) ;; Ok (tflip 1 z)).
Proof. split; [letters (fun i _ : Z => i + 1) (fun _ j : Z => j)|]. split; [cells|]. vm_compute; reflexivity. Qed.
Example C103_ex_transpose : (forall i j, letter_at "GBRG" i j = letter_at "GRBG" j i) /\ shp m46t = [] ++ [1; 2 * 3; 2 * 2] /\
  (forall i j, 0 <= i < 2 * 3 -> 0 <= j < 2 * 2 -> at_ m46t [0; i; j] = at_ m46 [0; j; i]) /\
  show (demosaic garbage garbage m46t "GBRG" (qz 60)) =
  show (z <- demosaic garbage garbage m46 "GRBG" (qz 60) ;; Ok (mkT [3; 6; 4] (fun i => at_ z [nth 0 i 0; nth 2 i 0; nth 1 i 0]))).
Proof. split; [letters (fun _ j : Z => j) (fun i _ : Z => i)|]. split; [reflexivity|]. split; [cells|]. vm_compute; reflexivity. Qed.
Example C103_ex_colours : (forall i j, letter_at "BGGR" i j = option_map swap_letter (letter_at "RGGB" i j)) /\
  show (demosaic garbage garbage m46 "BGGR" (qz 60)) =
  show (z <- demosaic garbage garbage m46 "RGGB" (qz 60) ;; Ok (mkT [3; 4; 6] (fun i => at_ z [2 - nth 0 i 0; nth 1 i 0; nth 2 i 0]))).
Proof.
  split; [|vm_compute; reflexivity]. intros i j. unfold letter_at. destruct (mod2 i) as [->| ->], (mod2 j) as [->| ->]; reflexivity.
Qed.
(** With the old alignment the mirror image is demosaiced differently. *)
Theorem C103_alignment_matters : exists (x x' : tensor QcF), shp x = [1; 4; 6] /\ shp x' = [1; 4; 6] /\
  (forall i j, 0 <= i < 2 * 2 -> 0 <= j < 2 * 3 -> at_ x' [0; i; j] = at_ x [0; i; 2 * 3 - 1 - j]) /\
  show (demosaic garbage garbage x' "RGGB" (qz 60)) <> show (z <- demosaic garbage garbage x "RGGB" (qz 60) ;; Ok (tflip 2 z)).
Proof. exact (ex_intro _ m46 (ex_intro _ m46c alignment_matters)). Qed.
Print Assumptions C103_alignment_matters.

(** ** C104: sums, contrast and brightness *)
Theorem C104_affine : forall (F : ofield) pre m n s sa c d e (x y v zx zy : tensor F) jx jx' jy jy' jv jv',
  nonneg pre -> 0 <= m -> 0 <= n -> In sa patterns -> case_variant s sa ->
  shp x = pre ++ [1; 2 * m; 2 * n] -> shp y = shp x -> shp v = shp x -> mix F pre (2 * m) (2 * n) c d e x y v ->
  demosaic_raw F jx jx' x s = Ok zx -> demosaic_raw F jy jy' y s = Ok zy ->
  exists zv, demosaic_raw F jv jv' v s = Ok zv /\ shp zv = pre ++ [3; 2 * m; 2 * n] /\
    forall i, valid (shp zv) i -> at_ zv i = fadd (fadd (fmul c (at_ zx i)) (fmul d (at_ zy i))) e.
Proof. exact raw_mix. Qed.
Print Assumptions C104_affine.
(** The clamp is all that is between [demosaic_raw] and [demosaic]. *)
Theorem C104_raw : forall (F : ofield) j1 j2 (x : tensor F) s cl,
  demosaic j1 j2 x s cl = (r <- demosaic_raw F j1 j2 x s ;; Ok (tmap (fclamp f0 cl) r)).
Proof. exact demosaic_of_raw. Qed.
Print Assumptions C104_raw.
Theorem C104_contrast : forall (F : ofield) pre m n s sa c cl (x v z : tensor F) jx jx' jv jv',
  nonneg pre -> 0 <= m -> 0 <= n -> In sa patterns -> case_variant s sa ->
  shp x = pre ++ [1; 2 * m; 2 * n] -> shp v = shp x -> fle f0 c -> fle f0 cl ->
  (forall i, valid (shp x) i -> at_ v i = fmul c (at_ x i)) ->
  demosaic jx jx' x s cl = Ok z ->
  exists z', demosaic jv jv' v s (fmul c cl) = Ok z' /\ shp z' = shp z /\ forall i, valid (shp z) i -> at_ z' i = fmul c (at_ z i).
Proof. exact demosaic_scaled. Qed.
Print Assumptions C104_contrast.
(** The photographic negative. *)
Theorem C104_negative : forall (F : ofield) pre m n s sa cl (x v z : tensor F) jx jx' jv jv',
  nonneg pre -> 0 <= m -> 0 <= n -> In sa patterns -> case_variant s sa ->
  shp x = pre ++ [1; 2 * m; 2 * n] -> shp v = shp x -> fle f0 cl ->
  (forall i, valid (shp x) i -> at_ v i = fsub cl (at_ x i)) ->
  demosaic jx jx' x s cl = Ok z ->
  exists z', demosaic jv jv' v s cl = Ok z' /\ shp z' = shp z /\ forall i, valid (shp z) i -> at_ z' i = fsub cl (at_ z i).
Proof. exact demosaic_negative. Qed.
Print Assumptions C104_negative.
Theorem C104_range : forall (F : ofield) s cl (x z : tensor F) jx jx', fle f0 cl -> demosaic jx jx' x s cl = Ok z ->
  forall i, fle f0 (at_ z i) /\ fle (at_ z i) cl.
Proof. exact demosaic_range. Qed.
Print Assumptions C104_range.
(** A pixel of the result depends only on the pixels of the mosaic at most two rows and columns away. *)
Theorem C104_local : forall (F : ofield) pre m n s sa cl (x v z z' : tensor F) jx jx' jv jv' p k i j,
  nonneg pre -> 0 <= m -> 0 <= n -> In sa patterns -> case_variant s sa ->
  shp x = pre ++ [1; 2 * m; 2 * n] -> shp v = shp x -> demosaic jx jx' x s cl = Ok z -> demosaic jv jv' v s cl = Ok z' ->
  valid pre p -> 0 <= k < 3 -> 0 <= i < 2 * m -> 0 <= j < 2 * n ->
  (forall i' j', 0 <= i' < 2 * m -> 0 <= j' < 2 * n -> Z.abs (i' - i) <= 2 -> Z.abs (j' - j) <= 2 ->
     at_ v (p ++ [0; i'; j']) = at_ x (p ++ [0; i'; j'])) ->
  at_ z' (p ++ [k; i; j]) = at_ z (p ++ [k; i; j]).
Proof. exact demosaic_local. Qed.
Print Assumptions C104_local.
Definition m46x2 : tensor QcF := tmap (fmul (qz 2)) m46.
Definition m46neg : tensor QcF := tmap (fsub (qz 60)) m46.
Example C104_ex : fle f0 (qz 2) /\ fle f0 (qz 60) /\
  show (demosaic garbage garbage m46x2 "RGGB" (qz 120)) = show (z <- demosaic garbage garbage m46 "RGGB" (qz 60) ;; Ok (tmap (fmul (qz 2)) z)) /\
  show (demosaic garbage garbage m46neg "RGGB" (qz 60)) = show (z <- demosaic garbage garbage m46 "RGGB" (qz 60) ;; Ok (tmap (fsub (qz 60)) z)) /\
  show (demosaic_raw QcF garbage garbage m46neg "RGGB") = show (z <- demosaic_raw QcF garbage garbage m46 "RGGB" ;; Ok (tmap (fsub (qz 60)) z)).
Proof.
  split; [reflexivity|]. split; [reflexivity|].
  repeat (match goal with |- _ /\ _ => split; [vm_compute; reflexivity|] end); vm_compute; reflexivity.
Qed.
Example C104_ex_mix : mix QcF [] (2 * 2) (2 * 3) (qz (-1)) (qz 0) (qz 60) m46 m46 m46neg.
Proof.
  intros p i j Vp Hi Hj. inversion Vp; subst. cbn [app]. unfold m46neg. cbn [tmap at_]. generalize (at_ m46 [0; i; j]). intros v.
  change (Qcminus (qz 60) v = Qcplus (Qcplus (Qcmult (qz (-1)) v) (Qcmult (qz 0) v)) (qz 60)).
  replace (qz (-1)) with (Qcopp (qz 1)) by (apply Qc_is_canon; reflexivity). change (qz 1) with 1%Qc. change (qz 0) with 0%Qc. ring.
Qed.
