(** BayerConv2d and demosaicing of a tile. *)
From Coq Require Import Ascii String.
From Verif Require Export BayerLaws BayerSize.
Import List. Import ListNotations.
Local Notation length := List.length.
Open Scope list_scope.
Open Scope Z_scope.

(** x' is the block of x with the rows u, u + 1, ... and the columns v, v + 1, ... *)
Definition image_tile {F : ofield} (pre : list Z) (C h w u v : Z) (x x' : tensor F) : Prop :=
  forall p c i j, valid pre p -> 0 <= c < C -> 0 <= i < h -> 0 <= j < w ->
    at_ x' (p ++ [c; i; j]) = at_ x (p ++ [c; i + u; j + v]).
(** The pattern seen in a tile. *)
Definition tile_pattern (sa sa' : string) (u v : Z) : Prop := forall i j, letter_at sa' i j = letter_at sa (i + u) (j + v).

Section TilesBayer.
Variable F : ofield.
Notation T := (tensor F).

Lemma tile_class sa sa' u v i j q : tile_pattern sa sa' u v -> in_class sa' i j q <-> in_class sa (i + u) (j + v) q.
Proof.
  intros E. unfold in_class. rewrite !E. replace (j + 1 + v) with (j + v + 1) by lia. reflexivity.
Qed.
Lemma tile_names sa sa' u v i j k : tile_pattern sa sa' u v -> names sa' i j k <-> names sa (i + u) (j + v) k.
Proof. intros E. unfold names. rewrite !E. reflexivity. Qed.

(** Whole windows inside the tile. *)
Lemma tile_conv pre C m n m' n' u v (M : bayer_conv F) (x x' : T) q p o i j :
  bc_in M = C -> 0 <= u -> 0 <= v -> 2 * m' + u <= 2 * m -> 2 * n' + v <= 2 * n -> image_tile pre C (2 * m') (2 * n') u v x x' -> valid pre p ->
  bc_k M / 2 <= i -> i + bc_k M - 1 - bc_k M / 2 < 2 * m' -> bc_k M / 2 <= j -> j + bc_k M - 1 - bc_k M / 2 < 2 * n' ->
  conv_at F M x' (2 * m') (2 * n') q p o i j = conv_at F M x (2 * m) (2 * n) q p o (i + u) (j + v).
Proof.
  intros HC Hu Hv Hm Hn HT Vp I1 I2 J1 J2. unfold conv_at.
  set (k := bc_k M) in *.
  assert (E : fsum (bc_in M) (fun ch => fsum k (fun a => fsum k (fun b =>
     fmul (bc_w M q o ch a b) (at_ x' (p ++ [ch; reflect (2 * m') (i + a - k / 2); reflect (2 * n') (j + b - k / 2)]))))) =
     fsum (bc_in M) (fun ch => fsum k (fun a => fsum k (fun b =>
     fmul (bc_w M q o ch a b) (at_ x (p ++ [ch; reflect (2 * m) (i + u + a - k / 2); reflect (2 * n) (j + v + b - k / 2)])))))).
  { apply fsum_ext. intros ch Hc. apply fsum_ext. intros a Ha. apply fsum_ext. intros b Hb. f_equal.
    rewrite !reflect_id by lia. rewrite HT by (auto; lia).
    replace (i + u + a - k / 2) with (i + a - k / 2 + u) by lia. now replace (j + v + b - k / 2) with (j + b - k / 2 + v) by lia. }
  cbv zeta. rewrite E. reflexivity.
Qed.

Theorem bayer_tile pre C m n m' n' u v (M : bayer_conv F) (x x' : T) s sa s' sa' junk junk' y y' :
  nonneg pre -> 0 <= m -> 0 <= n -> 0 <= m' -> 0 <= n' -> 0 <= u -> 0 <= v -> 2 * m' + u <= 2 * m -> 2 * n' + v <= 2 * n ->
  shp x = pre ++ [C; 2 * m; 2 * n] -> shp x' = pre ++ [C; 2 * m'; 2 * n'] -> 1 <= bc_k M -> 0 <= bc_out M ->
  In sa patterns -> case_variant s sa -> In sa' patterns -> case_variant s' sa' ->
  image_tile pre C (2 * m') (2 * n') u v x x' -> tile_pattern sa sa' u v ->
  bayer_forward junk M x s = Ok y -> bayer_forward junk' M x' s' = Ok y' ->
  forall p o i j, valid pre p -> 0 <= o < bc_out M ->
    bc_k M / 2 <= i -> i + bc_k M - 1 - bc_k M / 2 < 2 * m' -> bc_k M / 2 <= j -> j + bc_k M - 1 - bc_k M / 2 < 2 * n' ->
    at_ y' (p ++ [o; i; j]) = at_ y (p ++ [o; i + u; j + v]).
Proof.
  intros Hp Hm Hn Hm' Hn' Hu Hv Bm Bn Hs Hs' Hk Ho Hsa Hc Hsa' Hc' HT TP Y Y' p o i j Vp Po I1 I2 J1 J2.
  destruct (bayer_conv_values F pre C m n M x s sa junk y) as [_ V]; auto.
  destruct (bayer_conv_values F pre C m' n' M x' s' sa' junk' y') as [_ V']; auto.
  assert (D : bc_in M = C).
  { destruct (proj1 (bayer_conv_defined F pre C m n M x s sa junk Hp Hm Hn Hs Hk Ho Hsa Hc)) as [D _]; eauto. }
  assert (0 <= bc_k M / 2) by (apply Z.div_pos; lia).
  assert (bc_k M / 2 <= bc_k M - 1) by (pose proof (Z.div_mod (bc_k M) 2); pose proof (Z.mod_pos_bound (bc_k M) 2); lia).
  destruct (in_class_total sa' i j Hsa') as (q & Hq & _).
  rewrite (V' p o i j q) by (auto; lia). rewrite (V p o (i + u) (j + v) q) by (auto; try lia; now apply (tile_class sa sa')).
  eapply tile_conv; eauto.
Qed.

Theorem demosaic_tile pre m n m' n' u v (M : bayer_conv F) (x x' : T) s sa s' sa' cl j1 j2 j1' j2' z z' :
  nonneg pre -> 0 <= m -> 0 <= n -> 0 <= m' -> 0 <= n' -> 0 <= u -> 0 <= v -> 2 * m' + u <= 2 * m -> 2 * n' + v <= 2 * n ->
  shp x = pre ++ [1; 2 * m; 2 * n] -> shp x' = pre ++ [1; 2 * m'; 2 * n'] -> bc_in M = 1 -> bc_out M = 2 -> 1 <= bc_k M ->
  In sa patterns -> case_variant s sa -> In sa' patterns -> case_variant s' sa' ->
  image_tile pre 1 (2 * m') (2 * n') u v x x' -> tile_pattern sa sa' u v ->
  demosaic_with M j1 j2 x s cl = Ok z -> demosaic_with M j1' j2' x' s' cl = Ok z' ->
  forall p k i j, valid pre p -> 0 <= k < 3 ->
    bc_k M / 2 <= i -> i + bc_k M - 1 - bc_k M / 2 < 2 * m' -> bc_k M / 2 <= j -> j + bc_k M - 1 - bc_k M / 2 < 2 * n' ->
    at_ z' (p ++ [k; i; j]) = at_ z (p ++ [k; i + u; j + v]).
Proof.
  intros Hp Hm Hn Hm' Hn' Hu Hv Bm Bn Hs Hs' Hi Ho Hk Hsa Hc Hsa' Hc' HT TP Y Y' p k i j Vp Po I1 I2 J1 J2.
  destruct (demosaic_keeps F pre m n M x s sa cl j1 j2 (fun _ => f0) z) as [_ [_ V]]; auto.
  destruct (demosaic_keeps F pre m' n' M x' s' sa' cl j1' j2' (fun _ => f0) z') as [_ [_ V']]; auto.
  assert (0 <= bc_k M / 2) by (apply Z.div_pos; lia).
  assert (bc_k M / 2 <= bc_k M - 1) by (pose proof (Z.div_mod (bc_k M) 2); pose proof (Z.mod_pos_bound (bc_k M) 2); lia).
  destruct (in_class_total sa' i j Hsa') as (q & Hq & _).
  destruct (V' p k i j q) as [A' B']; auto; try lia.
  destruct (V p k (i + u) (j + v) q) as [A B]; auto; try lia; [now apply (tile_class sa sa')|].
  assert (D : names sa' i j k \/ ~ names sa' i j k).
  { unfold names. destruct (letter_at sa' i j) as [c|]; [|right; intros [[_ H1]|[[_ H1]|[_ H1]]]; discriminate].
    destruct (ascii_dec c "R"%char), (ascii_dec c "G"%char), (ascii_dec c "B"%char), (Z.eq_dec k 0), (Z.eq_dec k 1), (Z.eq_dec k 2);
      subst; try lia; auto; right; intros [[? ?]|[[? ?]|[? ?]]]; try congruence; try lia. }
  destruct D as [D|D].
  - rewrite (A' D). rewrite A by now apply (tile_names sa sa'). f_equal. apply HT; auto; lia.
  - rewrite (B' D). rewrite B by (intros G; apply D; now apply (tile_names sa sa') in G). f_equal. eapply tile_conv; eauto.
Qed.
End TilesBayer.
