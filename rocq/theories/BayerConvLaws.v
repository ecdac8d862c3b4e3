(** Laws of BayerConv2d (bayer_conv_2d.py:58-100): it is affine in the image and linear in its parameters; its
    values depend only on the pixels within the window; shifted, mirrored and transposed images. *)
From Coq Require Import Ascii String.
From Verif Require Export BayerLaws.
Import List. Import ListNotations.
Local Notation length := List.length.
Open Scope string_scope.
Open Scope list_scope.
Open Scope Z_scope.

Lemma class_shift sa sa' r c i j q :
  (forall i j, letter_at sa' i j = letter_at sa (i + r) (j + c)) -> in_class sa' i j q <-> in_class sa (i + r) (j + c) q.
Proof. intros E. unfold in_class. rewrite !E. replace (j + 1 + c) with (j + c + 1) by ring. reflexivity. Qed.

Section L.
Variable F : ofield.
Add Field Fbcl : (f_field F).
Notation T := (tensor F).

(** The bias added to channel o of the pixels of class q; nothing without a bias. *)
Definition bias_at (M : bayer_conv F) (q : pos) (o : Z) : F :=
  match bc_bias M with None => f0 | Some bs => bs q o end.
(** The sum of a window of the image with the weights of the class q. *)
Definition window_sum (M : bayer_conv F) (x : T) (h w : Z) (q : pos) (p : list Z) (o i j : Z) : F :=
  fsum (bc_in M) (fun ch => fsum (bc_k M) (fun a => fsum (bc_k M) (fun b =>
     fmul (bc_w M q o ch a b) (at_ x (p ++ [ch; reflect h (i + a - bc_k M / 2); reflect w (j + b - bc_k M / 2)]))))).
Lemma conv_at_window M x h w q p o i j : conv_at F M x h w q p o i j = fadd (window_sum M x h w q p o i j) (bias_at M q o).
Proof. unfold conv_at, window_sum, bias_at. cbv zeta. destruct (bc_bias M); [reflexivity|ring]. Qed.

(** v = c x + d y at every pixel. *)
Definition combined (pre : list Z) C h w (c d : F) (x y v : T) : Prop :=
  forall p ch i j, valid pre p -> 0 <= ch < C -> 0 <= i < h -> 0 <= j < w ->
    at_ v (p ++ [ch; i; j]) = fadd (fmul c (at_ x (p ++ [ch; i; j]))) (fmul d (at_ y (p ++ [ch; i; j]))).

Lemma bayer_image pre C m n (M : bayer_conv F) x1 x2 x3 c d s sa j1 j2 j3 y1 y2 :
  nonneg pre -> 0 <= m -> 0 <= n -> shp x1 = pre ++ [C; 2 * m; 2 * n] -> shp x2 = shp x1 -> shp x3 = shp x1 ->
  1 <= bc_k M -> 0 <= bc_out M -> In sa patterns -> case_variant s sa ->
  combined pre C (2 * m) (2 * n) c d x1 x2 x3 ->
  bayer_forward j1 M x1 s = Ok y1 -> bayer_forward j2 M x2 s = Ok y2 ->
  exists y3, bayer_forward j3 M x3 s = Ok y3 /\ shp y3 = shp y1 /\
    forall p o i j q, valid pre p -> 0 <= o < bc_out M -> 0 <= i < 2 * m -> 0 <= j < 2 * n -> in_class sa i j q ->
      at_ y3 (p ++ [o; i; j]) =
      fadd (fadd (fmul c (at_ y1 (p ++ [o; i; j]))) (fmul d (at_ y2 (p ++ [o; i; j]))))
           (fmul (fsub (fsub f1 c) d) (bias_at M q o)).
Proof.
  intros Hp Hm Hn S1 S2 S3 Hk Ho Hsa Hv H E1 E2. rewrite S1 in S2, S3.
  assert (D : exists y, bayer_forward j1 M x1 s = Ok y) by eauto.
  apply (bayer_conv_defined F pre C m n) with (sa := sa) in D; auto.
  pose proof (proj2 (bayer_conv_defined F pre C m n M x3 s sa j3 Hp Hm Hn S3 Hk Ho Hsa Hv) D) as [y3 E3].
  destruct D as (HC & _ & _ & _ & Hm1 & Hn1).
  destruct (bayer_conv_values F pre C m n M x1 s sa j1 y1) as [V1 W1]; auto.
  destruct (bayer_conv_values F pre C m n M x2 s sa j2 y2) as [V2 W2]; auto.
  destruct (bayer_conv_values F pre C m n M x3 s sa j3 y3) as [V3 W3]; auto.
  exists y3. split; auto. split; [congruence|]. intros p o i j q Vp Hoo Hi Hj Hq.
  rewrite (W1 p o i j q), (W2 p o i j q), (W3 p o i j q), !conv_at_window by auto.
  assert (A : window_sum M x3 (2 * m) (2 * n) q p o i j =
     fadd (fmul c (window_sum M x1 (2 * m) (2 * n) q p o i j)) (fmul d (window_sum M x2 (2 * m) (2 * n) q p o i j))).
  { unfold window_sum. rewrite HC. rewrite <- !fsum_mul, <- fsum_add. apply fsum_ext. intros ch Hch.
    rewrite <- !fsum_mul, <- fsum_add. apply fsum_ext. intros a Ha.
    rewrite <- !fsum_mul, <- fsum_add. apply fsum_ext. intros b Hb.
    rewrite H by (auto; apply reflect_in; lia). ring. }
  rewrite A. ring.
Qed.

(** Weights and biases of M3 are c times those of M1 plus d times those of M2. *)
Definition combined_net (c d : F) (M1 M2 M3 : bayer_conv F) : Prop :=
  bc_in M2 = bc_in M1 /\ bc_in M3 = bc_in M1 /\ bc_out M2 = bc_out M1 /\ bc_out M3 = bc_out M1 /\
  bc_k M2 = bc_k M1 /\ bc_k M3 = bc_k M1 /\
  (forall q o ch a b, 0 <= o < bc_out M1 -> 0 <= ch < bc_in M1 -> 0 <= a < bc_k M1 -> 0 <= b < bc_k M1 ->
     bc_w M3 q o ch a b = fadd (fmul c (bc_w M1 q o ch a b)) (fmul d (bc_w M2 q o ch a b))) /\
  (forall q o, 0 <= o < bc_out M1 -> bias_at M3 q o = fadd (fmul c (bias_at M1 q o)) (fmul d (bias_at M2 q o))).
Lemma bayer_params pre C m n (M1 M2 M3 : bayer_conv F) x c d s sa j1 j2 j3 y1 y2 :
  nonneg pre -> 0 <= m -> 0 <= n -> shp x = pre ++ [C; 2 * m; 2 * n] ->
  1 <= bc_k M1 -> 0 <= bc_out M1 -> In sa patterns -> case_variant s sa -> combined_net c d M1 M2 M3 ->
  bayer_forward j1 M1 x s = Ok y1 -> bayer_forward j2 M2 x s = Ok y2 ->
  exists y3, bayer_forward j3 M3 x s = Ok y3 /\ shp y3 = shp y1 /\
    forall p o i j, valid pre p -> 0 <= o < bc_out M1 -> 0 <= i < 2 * m -> 0 <= j < 2 * n ->
      at_ y3 (p ++ [o; i; j]) = fadd (fmul c (at_ y1 (p ++ [o; i; j]))) (fmul d (at_ y2 (p ++ [o; i; j]))).
Proof.
  intros Hp Hm Hn Sx Hk Ho Hsa Hv (I2 & I3 & O2 & O3 & K2 & K3 & HW & HB) E1 E2.
  assert (D : exists y, bayer_forward j1 M1 x s = Ok y) by eauto.
  apply (bayer_conv_defined F pre C m n) with (sa := sa) in D; auto.
  assert (D3 : exists y, bayer_forward j3 M3 x s = Ok y).
  { apply (bayer_conv_defined F pre C m n) with (sa := sa); auto; [lia|lia|]. now rewrite I3, K3. }
  destruct D3 as [y3 E3].
  destruct D as (HC & _ & _ & _ & Hm1 & Hn1).
  destruct (bayer_conv_values F pre C m n M1 x s sa j1 y1) as [V1 W1]; auto.
  destruct (bayer_conv_values F pre C m n M2 x s sa j2 y2) as [V2 W2]; auto; [lia|lia|].
  destruct (bayer_conv_values F pre C m n M3 x s sa j3 y3) as [V3 W3]; auto; [lia|lia|].
  exists y3. split; auto. split; [congruence|]. intros p o i j Vp Hoo Hi Hj.
  destruct (in_class_total sa i j Hsa) as (q & Hq & _).
  rewrite (W1 p o i j q), (W2 p o i j q), (W3 p o i j q), !conv_at_window by (auto; lia).
  rewrite HB by auto.
  assert (A : window_sum M3 x (2 * m) (2 * n) q p o i j =
     fadd (fmul c (window_sum M1 x (2 * m) (2 * n) q p o i j)) (fmul d (window_sum M2 x (2 * m) (2 * n) q p o i j))).
  { unfold window_sum. rewrite I2, I3, K2, K3. rewrite <- !fsum_mul, <- fsum_add. apply fsum_ext. intros ch Hch.
    rewrite <- !fsum_mul, <- fsum_add. apply fsum_ext. intros a Ha.
    rewrite <- !fsum_mul, <- fsum_add. apply fsum_ext. intros b Hb.
    rewrite HW by auto. ring. }
  rewrite A. ring.
Qed.

(** The pixel (i, j) has its whole window inside an image of h rows and w columns. *)
Definition inside (k h w i j : Z) : Prop :=
  0 <= i - k / 2 /\ i - k / 2 + k <= h /\ 0 <= j - k / 2 /\ j - k / 2 + k <= w.
Lemma bayer_shift pre C m n m' n' (M : bayer_conv F) x x' s sa s' sa' r c junk junk' y y' :
  nonneg pre -> 0 <= m -> 0 <= n -> 0 <= m' -> 0 <= n' ->
  shp x = pre ++ [C; 2 * m; 2 * n] -> shp x' = pre ++ [C; 2 * m'; 2 * n'] ->
  1 <= bc_k M -> 0 <= bc_out M -> In sa patterns -> case_variant s sa -> In sa' patterns -> case_variant s' sa' ->
  (forall i j, letter_at sa' i j = letter_at sa (i + r) (j + c)) ->
  bayer_forward junk M x s = Ok y -> bayer_forward junk' M x' s' = Ok y' ->
  forall p i j, valid pre p -> inside (bc_k M) (2 * m') (2 * n') i j -> inside (bc_k M) (2 * m) (2 * n) (i + r) (j + c) ->
  (forall ch a b, 0 <= ch < C -> i - bc_k M / 2 <= a < i - bc_k M / 2 + bc_k M -> j - bc_k M / 2 <= b < j - bc_k M / 2 + bc_k M ->
     at_ x' (p ++ [ch; a; b]) = at_ x (p ++ [ch; a + r; b + c])) ->
  forall o, 0 <= o < bc_out M -> at_ y' (p ++ [o; i; j]) = at_ y (p ++ [o; i + r; j + c]).
Proof.
  intros Hp Hm Hn Hm' Hn' Sx Sx' Hk Ho Hsa Hv Hsa' Hv' HL E E' p i j Vp N' N HX o Hoo.
  assert (D : exists y, bayer_forward junk M x s = Ok y) by eauto.
  apply (bayer_conv_defined F pre C m n) with (sa := sa) in D; auto. destruct D as (HC & _).
  destruct (bayer_conv_values F pre C m n M x s sa junk y) as [V W]; auto.
  destruct (bayer_conv_values F pre C m' n' M x' s' sa' junk' y') as [V' W']; auto.
  destruct (in_class_total sa' i j Hsa') as (q & Hq & _).
  assert (Hq2 : in_class sa (i + r) (j + c) q) by (apply (class_shift sa sa' r c); auto).
  pose proof (Z.div_pos (bc_k M) 2 ltac:(lia) ltac:(lia)) as K0.
  pose proof (Z.div_lt (bc_k M) 2 ltac:(lia) ltac:(lia)) as K1.
  unfold inside in N, N'.
  rewrite (W' p o i j q), (W p o (i + r) (j + c) q), !conv_at_window by (auto; lia). f_equal.
  unfold window_sum. rewrite HC. apply fsum_ext. intros ch Hch. apply fsum_ext. intros a Ha. apply fsum_ext. intros b Hb.
  rewrite !reflect_id by lia. f_equal. rewrite HX by lia. do 2 f_equal. f_equal. f_equal; [lia|f_equal; lia].
Qed.

(** Kernels that do not distinguish the classes. *)
Definition colour_blind (M : bayer_conv F) : Prop :=
  (forall q q' o ch a b, 0 <= o < bc_out M -> 0 <= ch < bc_in M -> 0 <= a < bc_k M -> 0 <= b < bc_k M ->
     bc_w M q o ch a b = bc_w M q' o ch a b) /\
  (forall q q' o, 0 <= o < bc_out M -> bias_at M q o = bias_at M q' o).
Lemma bayer_blind pre C m n (M : bayer_conv F) x s sa s' sa' junk junk' y :
  nonneg pre -> 0 <= m -> 0 <= n -> shp x = pre ++ [C; 2 * m; 2 * n] -> 1 <= bc_k M -> 0 <= bc_out M ->
  In sa patterns -> case_variant s sa -> In sa' patterns -> case_variant s' sa' -> colour_blind M ->
  bayer_forward junk M x s = Ok y ->
  exists y', bayer_forward junk' M x s' = Ok y' /\ shp y' = shp y /\
    forall p o i j, valid pre p -> 0 <= o < bc_out M -> 0 <= i < 2 * m -> 0 <= j < 2 * n ->
      at_ y' (p ++ [o; i; j]) = at_ y (p ++ [o; i; j]).
Proof.
  intros Hp Hm Hn Sx Hk Ho Hsa Hv Hsa' Hv' [HW HB] E.
  assert (D : exists y, bayer_forward junk M x s = Ok y) by eauto.
  apply (bayer_conv_defined F pre C m n) with (sa := sa) in D; auto.
  pose proof (proj2 (bayer_conv_defined F pre C m n M x s' sa' junk' Hp Hm Hn Sx Hk Ho Hsa' Hv') D) as [y' E'].
  destruct (bayer_conv_values F pre C m n M x s sa junk y) as [V W]; auto.
  destruct (bayer_conv_values F pre C m n M x s' sa' junk' y') as [V' W']; auto.
  exists y'. split; auto. split; [congruence|]. intros p o i j Vp Hoo Hi Hj.
  destruct (in_class_total sa i j Hsa) as (q & Hq & _). destruct (in_class_total sa' i j Hsa') as (q' & Hq' & _).
  rewrite (W p o i j q), (W' p o i j q'), !conv_at_window by auto. f_equal; auto.
  unfold window_sum. apply fsum_ext. intros ch Hch. apply fsum_ext. intros a Ha. apply fsum_ext. intros b Hb.
  f_equal. auto.
Qed.

(** Mirrored columns: the kernels of M' are those of M mirrored. *)
Definition same_sizes (M M' : bayer_conv F) : Prop := bc_in M' = bc_in M /\ bc_out M' = bc_out M /\ bc_k M' = bc_k M.
Lemma bayer_mirror_cols pre C m n (M M' : bayer_conv F) x x' s sa s' sa' junk junk' y :
  nonneg pre -> 0 <= m -> 0 <= n -> shp x = pre ++ [C; 2 * m; 2 * n] -> shp x' = shp x -> 1 <= bc_k M -> 0 <= bc_out M ->
  In sa patterns -> case_variant s sa -> In sa' patterns -> case_variant s' sa' ->
  (forall i j, letter_at sa' i j = letter_at sa i (j + 1)) -> bc_k M mod 2 = 1 -> same_sizes M M' ->
  (forall q o ch a b, 0 <= o < bc_out M -> 0 <= ch < C -> 0 <= a < bc_k M -> 0 <= b < bc_k M ->
     bc_w M' q o ch a b = bc_w M q o ch a (bc_k M - 1 - b)) ->
  (forall q o, 0 <= o < bc_out M -> bias_at M' q o = bias_at M q o) ->
  (forall p ch i j, valid pre p -> 0 <= ch < C -> 0 <= i < 2 * m -> 0 <= j < 2 * n ->
     at_ x' (p ++ [ch; i; j]) = at_ x (p ++ [ch; i; 2 * n - 1 - j])) ->
  bayer_forward junk M x s = Ok y ->
  exists y', bayer_forward junk' M' x' s' = Ok y' /\ shp y' = shp y /\
    forall p o i j, valid pre p -> 0 <= o < bc_out M -> 0 <= i < 2 * m -> 0 <= j < 2 * n ->
      at_ y' (p ++ [o; i; j]) = at_ y (p ++ [o; i; 2 * n - 1 - j]).
Proof.
  intros Hp Hm Hn Sx Sx' Hk Ho Hsa Hv Hsa' Hv' HL Hodd (I & O & K) HW HB HX E. rewrite Sx in Sx'.
  assert (D : exists y, bayer_forward junk M x s = Ok y) by eauto.
  apply (bayer_conv_defined F pre C m n) with (sa := sa) in D; auto.
  assert (D' : exists y, bayer_forward junk' M' x' s' = Ok y).
  { apply (bayer_conv_defined F pre C m n) with (sa := sa'); auto; [lia|lia|]. now rewrite I, K. }
  destruct D' as [y' E']. destruct D as (HC & _ & _ & _ & Hm1 & Hn1).
  destruct (bayer_conv_values F pre C m n M x s sa junk y) as [V W]; auto.
  destruct (bayer_conv_values F pre C m n M' x' s' sa' junk' y') as [V' W']; auto; [lia|lia|].
  exists y'. split; auto. split; [congruence|]. intros p o i j Vp Hoo Hi Hj.
  destruct (in_class_total sa' i j Hsa') as (q & Hq & _).
  assert (Hq2 : in_class sa i (2 * n - 1 - j) q) by (apply (class_mirror_cols sa sa' n i j q); auto).
  rewrite (W p o i (2 * n - 1 - j) q), (W' p o i j q), !conv_at_window by (auto; lia). f_equal; auto.
  pose proof (Z.div_mod (bc_k M) 2 ltac:(lia)) as DM. rewrite Hodd in DM.
  unfold window_sum. rewrite I, K, HC. apply fsum_ext. intros ch Hch. apply fsum_ext. intros a Ha.
  rewrite (fsum_rev F (bc_k M)) by lia. apply fsum_ext. intros b Hb.
  rewrite HW by lia. replace (bc_k M - 1 - (bc_k M - 1 - b)) with b by ring. f_equal.
  rewrite HX by (auto; apply reflect_in; lia). do 4 f_equal. f_equal. rewrite <- reflect_mirror by lia. f_equal. lia.
Qed.
Lemma bayer_mirror_rows pre C m n (M M' : bayer_conv F) x x' s sa s' sa' junk junk' y :
  nonneg pre -> 0 <= m -> 0 <= n -> shp x = pre ++ [C; 2 * m; 2 * n] -> shp x' = shp x -> 1 <= bc_k M -> 0 <= bc_out M ->
  In sa patterns -> case_variant s sa -> In sa' patterns -> case_variant s' sa' ->
  (forall i j, letter_at sa' i j = letter_at sa (i + 1) j) -> bc_k M mod 2 = 1 -> same_sizes M M' ->
  (forall q o ch a b, 0 <= o < bc_out M -> 0 <= ch < C -> 0 <= a < bc_k M -> 0 <= b < bc_k M ->
     bc_w M' q o ch a b = bc_w M q o ch (bc_k M - 1 - a) b) ->
  (forall q o, 0 <= o < bc_out M -> bias_at M' q o = bias_at M q o) ->
  (forall p ch i j, valid pre p -> 0 <= ch < C -> 0 <= i < 2 * m -> 0 <= j < 2 * n ->
     at_ x' (p ++ [ch; i; j]) = at_ x (p ++ [ch; 2 * m - 1 - i; j])) ->
  bayer_forward junk M x s = Ok y ->
  exists y', bayer_forward junk' M' x' s' = Ok y' /\ shp y' = shp y /\
    forall p o i j, valid pre p -> 0 <= o < bc_out M -> 0 <= i < 2 * m -> 0 <= j < 2 * n ->
      at_ y' (p ++ [o; i; j]) = at_ y (p ++ [o; 2 * m - 1 - i; j]).
Proof.
  intros Hp Hm Hn Sx Sx' Hk Ho Hsa Hv Hsa' Hv' HL Hodd (I & O & K) HW HB HX E. rewrite Sx in Sx'.
  assert (D : exists y, bayer_forward junk M x s = Ok y) by eauto.
  apply (bayer_conv_defined F pre C m n) with (sa := sa) in D; auto.
  assert (D' : exists y, bayer_forward junk' M' x' s' = Ok y).
  { apply (bayer_conv_defined F pre C m n) with (sa := sa'); auto; [lia|lia|]. now rewrite I, K. }
  destruct D' as [y' E']. destruct D as (HC & _ & _ & _ & Hm1 & Hn1).
  destruct (bayer_conv_values F pre C m n M x s sa junk y) as [V W]; auto.
  destruct (bayer_conv_values F pre C m n M' x' s' sa' junk' y') as [V' W']; auto; [lia|lia|].
  exists y'. split; auto. split; [congruence|]. intros p o i j Vp Hoo Hi Hj.
  destruct (in_class_total sa' i j Hsa') as (q & Hq & _).
  assert (Hq2 : in_class sa (2 * m - 1 - i) j q) by (apply (class_mirror_rows sa sa' m i j q); auto).
  rewrite (W p o (2 * m - 1 - i) j q), (W' p o i j q), !conv_at_window by (auto; lia). f_equal; auto.
  pose proof (Z.div_mod (bc_k M) 2 ltac:(lia)) as DM. rewrite Hodd in DM.
  unfold window_sum. rewrite I, K, HC. apply fsum_ext. intros ch Hch.
  rewrite (fsum_rev F (bc_k M)) by lia. apply fsum_ext. intros a Ha. apply fsum_ext. intros b Hb.
  rewrite HW by lia. replace (bc_k M - 1 - (bc_k M - 1 - a)) with a by ring. f_equal.
  rewrite HX by (auto; apply reflect_in; lia). do 3 f_equal. f_equal. rewrite <- reflect_mirror by lia. f_equal. lia.
Qed.
(** Transposed image: the kernels are transposed, those of the two green classes also exchanged ([turn_pos]). *)
Lemma bayer_transpose pre C m n (M M' : bayer_conv F) x x' s sa s' sa' junk junk' y :
  nonneg pre -> 0 <= m -> 0 <= n -> shp x = pre ++ [C; 2 * m; 2 * n] -> shp x' = pre ++ [C; 2 * n; 2 * m] ->
  1 <= bc_k M -> 0 <= bc_out M ->
  In sa patterns -> case_variant s sa -> In sa' patterns -> case_variant s' sa' ->
  (forall i j, letter_at sa' i j = letter_at sa j i) -> same_sizes M M' ->
  (forall q o ch a b, 0 <= o < bc_out M -> 0 <= ch < C -> 0 <= a < bc_k M -> 0 <= b < bc_k M ->
     bc_w M' q o ch a b = bc_w M (turn_pos q) o ch b a) ->
  (forall q o, 0 <= o < bc_out M -> bias_at M' q o = bias_at M (turn_pos q) o) ->
  (forall p ch i j, valid pre p -> 0 <= ch < C -> 0 <= i < 2 * n -> 0 <= j < 2 * m ->
     at_ x' (p ++ [ch; i; j]) = at_ x (p ++ [ch; j; i])) ->
  bayer_forward junk M x s = Ok y ->
  exists y', bayer_forward junk' M' x' s' = Ok y' /\ shp y' = pre ++ [bc_out M; 2 * n; 2 * m] /\
    forall p o i j, valid pre p -> 0 <= o < bc_out M -> 0 <= i < 2 * n -> 0 <= j < 2 * m ->
      at_ y' (p ++ [o; i; j]) = at_ y (p ++ [o; j; i]).
Proof.
  intros Hp Hm Hn Sx Sx' Hk Ho Hsa Hv Hsa' Hv' HL (I & O & K) HW HB HX E.
  assert (D : exists y, bayer_forward junk M x s = Ok y) by eauto.
  apply (bayer_conv_defined F pre C m n) with (sa := sa) in D; auto.
  assert (D' : exists y, bayer_forward junk' M' x' s' = Ok y).
  { apply (bayer_conv_defined F pre C n m) with (sa := sa'); auto; [lia|lia|]. rewrite I, K. tauto. }
  destruct D' as [y' E']. destruct D as (HC & _ & _ & _ & Hm1 & Hn1).
  destruct (bayer_conv_values F pre C m n M x s sa junk y) as [V W]; auto.
  destruct (bayer_conv_values F pre C n m M' x' s' sa' junk' y') as [V' W']; auto; [lia|lia|].
  exists y'. split; auto. split; [congruence|]. intros p o i j Vp Hoo Hi Hj.
  destruct (in_class_total sa' i j Hsa') as (q & Hq & _).
  assert (Hq2 : in_class sa j i (turn_pos q)) by (apply (class_turn sa sa' i j q); auto).
  rewrite (W p o j i (turn_pos q)), (W' p o i j q), !conv_at_window by (auto; lia). f_equal; auto.
  unfold window_sum. rewrite I, K, HC. apply fsum_ext. intros ch Hch.
  rewrite fsum_swap. apply fsum_ext. intros a Ha. apply fsum_ext. intros b Hb.
  rewrite HW by lia. f_equal. now rewrite HX by (auto; apply reflect_in; lia).
Qed.
End L.
