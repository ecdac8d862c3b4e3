(** Statements of the Bayer properties in terms of the letters of the pattern. *)
From Coq Require Import Ascii String.
From Verif Require Export GradProofs.
Import List. Import ListNotations.
Local Notation length := List.length.
Open Scope string_scope.
Open Scope list_scope.
Open Scope Z_scope.

(** Letter of the pattern at pixel (i, j). *)
Definition letter_at (sa : string) (i j : Z) : option ascii := String.get (Z.to_nat (2 * (i mod 2) + j mod 2)) sa.
(** The pattern names channel k (0 red, 1 green, 2 blue) at pixel (i, j). *)
Definition names (sa : string) (i j k : Z) : Prop :=
  (k = 0 /\ letter_at sa i j = Some "R"%char) \/ (k = 1 /\ letter_at sa i j = Some "G"%char) \/ (k = 2 /\ letter_at sa i j = Some "B"%char).
(** Position class of pixel (i, j): its colour, and for green the colour next to it in the row. *)
Definition in_class (sa : string) (i j : Z) (q : pos) : Prop :=
  match q with
  | PR => letter_at sa i j = Some "R"%char
  | PB => letter_at sa i j = Some "B"%char
  | PGR => letter_at sa i j = Some "G"%char /\ letter_at sa i (j + 1) = Some "R"%char
  | PGB => letter_at sa i j = Some "G"%char /\ letter_at sa i (j + 1) = Some "B"%char
  end.

Lemma names_chan sa i j k : In sa patterns -> names sa i j k <-> chan sa (2 * (i mod 2) + j mod 2) = k.
Proof.
  intros Hsa. unfold names, letter_at, chan.
  destruct Hsa as [<-|[<-|[<-|[<-|[]]]]]; destruct (mod2 i) as [->| ->], (mod2 j) as [->| ->]; vm_compute; intuition congruence.
Qed.
Lemma mod2_succ j : (j + 1) mod 2 = 1 - j mod 2.
Proof. pose proof (mod2 j). pose proof (Z.div_mod j 2). symmetry. apply Z.mod_unique with (q := j / 2 + j mod 2); lia. Qed.
Lemma in_class_beg sa f i j q : In sa patterns -> get_sensor_beg_index sa = Ok f -> in_class sa i j q <-> f q = (i mod 2, j mod 2).
Proof.
  intros Hsa Ef. unfold in_class, letter_at. rewrite mod2_succ.
  destruct Hsa as [<-|[<-|[<-|[<-|[]]]]]; injection Ef as <-; destruct (mod2 i) as [->| ->], (mod2 j) as [->| ->], q; vm_compute;
    split; intros; repeat match goal with H : _ /\ _ |- _ => destruct H end; try congruence; auto.
Qed.
Lemma in_class_total sa i j : In sa patterns -> exists q, in_class sa i j q /\ forall q', in_class sa i j q' -> q' = q.
Proof.
  intros Hsa. destruct (beg_index_spec sa Hsa) as (f & Ef & _ & _ & _ & _ & Hf5 & Hf6).
  destruct (Hf6 (i mod 2) (j mod 2) (mod2 i) (mod2 j)) as [q Hq]. exists q. split.
  - now apply (in_class_beg sa f).
  - intros q' H. apply (in_class_beg sa f) in H; auto. apply Hf5. congruence.
Qed.

Section P.
Variable F : ofield.
Notation T := (tensor F).

Lemma one_to_four pre m n (x : T) :
  nonneg pre -> 0 <= m -> 0 <= n -> shp x = pre ++ [1; 2 * m; 2 * n] ->
  exists y, bayer_1c_to_4c x = Ok y /\ shp y = pre ++ [4; m; n] /\
    forall p r c i j, valid pre p -> r = 0 \/ r = 1 -> c = 0 \/ c = 1 -> 0 <= i < m -> 0 <= j < n ->
      at_ y (p ++ [2 * r + c; i; j]) = at_ x (p ++ [0; 2 * i + r; 2 * j + c]).
Proof. intros. now apply bayer_1c_to_4c_spec. Qed.

Lemma four_to_one_inv pre m n (x : T) junk :
  nonneg pre -> 0 <= m -> 0 <= n -> shp x = pre ++ [1; 2 * m; 2 * n] ->
  exists y z, bayer_1c_to_4c x = Ok y /\ bayer_4c_to_1c junk y = Ok z /\ teq z x.
Proof.
  intros Hp Hm Hn Hs. destruct (bayer_1c_to_4c_spec pre m n Hp Hm Hn x Hs) as (y & Ey & Sy & Vy).
  destruct (bayer_4c_to_1c_spec pre m n Hp Hm Hn junk y Sy) as (z & Ez & Sz & Vz).
  exists y, z. split; auto. split; auto. split; [congruence|]. rewrite Sz. intros w Vw.
  apply valid_app_inv in Vw as (p & i3 & -> & Vp & Vi). apply valid3 in Vi as (ch & i & j & -> & Hch & Hi & Hj).
  replace ch with 0 by lia. rewrite Vz by auto. destruct (div2 m i Hi) as [Di Ei]. destruct (div2 n j Hj) as [Dj Ej].
  rewrite Vy by (auto using mod2). now rewrite <- Ei, <- Ej.
Qed.
Lemma one_to_four_inv pre m n (x : T) junk :
  nonneg pre -> 0 <= m -> 0 <= n -> shp x = pre ++ [4; m; n] ->
  exists y z, bayer_4c_to_1c junk x = Ok y /\ bayer_1c_to_4c y = Ok z /\ teq z x.
Proof.
  intros Hp Hm Hn Hs. destruct (bayer_4c_to_1c_spec pre m n Hp Hm Hn junk x Hs) as (y & Ey & Sy & Vy).
  destruct (bayer_1c_to_4c_spec pre m n Hp Hm Hn y Sy) as (z & Ez & Sz & Vz).
  exists y, z. split; auto. split; auto. split; [congruence|]. rewrite Sz. intros w Vw.
  apply valid_app_inv in Vw as (p & i3 & -> & Vp & Vi). apply valid3 in Vi as (ch & i & j & -> & Hch & Hi & Hj).
  assert (Mr : ch / 2 = 0 \/ ch / 2 = 1). { assert (0 <= ch / 2 < 2); [split; [apply Z.div_pos|apply Z.div_lt_upper_bound]; lia|lia]. }
  rewrite (Z.div_mod ch 2) at 1 by lia. rewrite Vz by (auto using mod2).
  pose proof (mod2 ch) as Mc.
  rewrite Vy by (auto; lia).
  rewrite !(Z.add_comm (2 * _)). rewrite !(Z.mul_comm 2). rewrite !Z.mod_add, !Z.div_add by lia.
  replace ((ch / 2) mod 2) with (ch / 2) by (symmetry; apply Z.mod_small; lia).
  replace ((ch mod 2) mod 2) with (ch mod 2) by (symmetry; apply Z.mod_small; lia).
  replace (ch / 2 / 2) with 0 by (symmetry; apply Z.div_small; lia). replace (ch mod 2 / 2) with 0 by (symmetry; apply Z.div_small; lia).
  cbn [Z.add]. f_equal. f_equal. f_equal. pose proof (Z.div_mod ch 2). lia.
Qed.

(** bayer_1c_to_4c rejects everything else with an AssertionError *)
Lemma split3 (s : list Z) : 3 <= Z.of_nat (length s) -> exists pre a b c, s = pre ++ [a; b; c].
Proof.
  intros H. rewrite <- (firstn_skipn (length s - 3) s). assert (L : length (skipn (length s - 3) s) = 3%nat) by (rewrite skipn_length; lia).
  destruct (skipn _ s) as [|a [|b [|c [|? ?]]]]; simpl in L; try lia. eauto.
Qed.
Lemma app3_inj (p p' : list Z) a b c a' b' c' : p ++ [a; b; c] = p' ++ [a'; b'; c'] -> a = a' /\ b = b' /\ c = c'.
Proof. intros H. apply (f_equal (@rev Z)) in H. rewrite !rev_app_distr in H. simpl in H. injection H as -> -> -> _. auto. Qed.
Lemma one_to_four_accepts (x : T) : nonneg (shp x) ->
  (exists y, bayer_1c_to_4c x = Ok y /\ exists pre m n, 0 <= m /\ 0 <= n /\ shp x = pre ++ [1; 2 * m; 2 * n]) \/
  (bayer_1c_to_4c x = Err AssertionError /\ forall pre m n, shp x <> pre ++ [1; 2 * m; 2 * n]).
Proof.
  intros H. destruct (Z.leb_spec 3 (Z.of_nat (length (shp x)))) as [L|L].
  - destruct (split3 _ L) as (pre & a & b & c & Hs). pose proof H as H'. rewrite Hs in H'. apply Forall_app in H' as [Hp Hl].
    inv Hl. inv H3. inv H5. clear H6.
    destruct (Z.eq_dec a 1) as [->|Na]; [destruct (mod2 b) as [Mb|Mb]; [destruct (mod2 c) as [Mc|Mc]|]|].
    + assert (Eb : b = 2 * (b / 2)) by (pose proof (Z.div_mod b 2); lia). assert (Ec : c = 2 * (c / 2)) by (pose proof (Z.div_mod c 2); lia).
      assert (0 <= b / 2) by (apply Z.div_pos; lia). assert (0 <= c / 2) by (apply Z.div_pos; lia).
      left. rewrite Eb, Ec in Hs. destruct (bayer_1c_to_4c_spec pre (b / 2) (c / 2) Hp ltac:(auto) ltac:(auto) x Hs) as (y & E & _).
      exists y. split; auto. exists pre, (b / 2), (c / 2). auto.
    + right. split.
      * unfold bayer_1c_to_4c, check_1c_bayer. destruct (dim_last3 x _ _ _ _ Hs) as (-> & -> & ->).
        rewrite (ndim3 x _ _ _ _ Hs), nd3. cbn [assertb bind]. rewrite Z.eqb_refl. cbn [assertb bind]. now rewrite Mc, andb_comm.
      * intros pre' m n E. rewrite E in Hs. apply app3_inj in Hs as (Q1 & Q2 & Q3).
        rewrite <- Q3, Z.mul_comm, Z.mod_mul in Mc; lia.
    + right. split.
      * unfold bayer_1c_to_4c, check_1c_bayer. destruct (dim_last3 x _ _ _ _ Hs) as (-> & -> & ->).
        rewrite (ndim3 x _ _ _ _ Hs), nd3. cbn [assertb bind]. rewrite Z.eqb_refl. cbn [assertb bind]. rewrite Mb.
        destruct (mod2 c) as [-> | ->]; reflexivity.
      * intros pre' m n E. rewrite E in Hs. apply app3_inj in Hs as (Q1 & Q2 & Q3).
        rewrite <- Q2, Z.mul_comm, Z.mod_mul in Mb; lia.
    + right. split.
      * unfold bayer_1c_to_4c, check_1c_bayer. destruct (dim_last3 x _ _ _ _ Hs) as (-> & -> & ->).
        rewrite (ndim3 x _ _ _ _ Hs), nd3. cbn [assertb bind]. apply Z.eqb_neq in Na. rewrite Na. reflexivity.
      * intros pre' m n E. rewrite E in Hs. apply app3_inj in Hs as (Q1 & Q2 & Q3). congruence.
  - right. split.
    + unfold bayer_1c_to_4c, check_1c_bayer. unfold ndim. apply Z.leb_gt in L. rewrite L. reflexivity.
    + intros pre m n E. rewrite E, app_length in L. simpl in L. lia.
Qed.

Lemma rgb_bayer_agree pre m n (x : T) s sa junk :
  nonneg pre -> 0 <= m -> 0 <= n -> shp x = pre ++ [3; 2 * m; 2 * n] -> In sa patterns -> case_variant s sa ->
  exists y1 y4 w, rgb_to_1c_bayer junk x s = Ok y1 /\ rgb_to_4c_bayer x s = Ok y4 /\ bayer_1c_to_4c y1 = Ok w /\ teq w y4 /\
    shp y1 = pre ++ [1; 2 * m; 2 * n] /\ shp y4 = pre ++ [4; m; n] /\
    forall p i j k, valid pre p -> 0 <= i < 2 * m -> 0 <= j < 2 * n -> names sa i j k ->
      at_ y1 (p ++ [0; i; j]) = at_ x (p ++ [k; i; j]) /\
      at_ y4 (p ++ [2 * (i mod 2) + j mod 2; i / 2; j / 2]) = at_ x (p ++ [k; i; j]).
Proof.
  intros Hp Hm Hn Hs Hsa Hv.
  destruct (rgb_to_1c_spec pre m n Hp Hm Hn junk x s sa Hs Hsa Hv) as (y1 & E1 & S1 & V1).
  destruct (rgb_to_4c_spec pre m n Hp Hm Hn x s sa Hs Hsa Hv) as (y4 & E4 & S4 & V4).
  destruct (bayer_1c_to_4c_spec pre m n Hp Hm Hn y1 S1) as (w & Ew & Sw & Vw).
  exists y1, y4, w. split; auto. split; auto. split; auto. split; [|split; auto; split; auto].
  - split; [congruence|]. rewrite Sw. intros i Vi.
    apply valid_app_inv in Vi as (p & i3 & -> & Vp & Vi). apply valid3 in Vi as (ch & i & j & -> & Hch & Hi & Hj).
    assert (Mr : ch / 2 = 0 \/ ch / 2 = 1). { assert (0 <= ch / 2 < 2); [split; [apply Z.div_pos|apply Z.div_lt_upper_bound]; lia|lia]. }
    pose proof (mod2 ch) as Mc.
    assert (Ec : ch = 2 * (ch / 2) + ch mod 2) by (apply Z.div_mod; lia). rewrite Ec at 1 2. rewrite Vw, V4, V1 by (auto; lia).
    f_equal. f_equal. f_equal. f_equal. rewrite !(Z.add_comm (2 * _)), !(Z.mul_comm 2), !Z.mod_add by lia.
    rewrite !(Z.mod_small (ch / 2)), !(Z.mod_small (ch mod 2)) by lia. lia.
  - intros p i j k Vp Hi Hj Hk. apply names_chan in Hk; auto. split.
    + rewrite V1 by auto. now rewrite Hk.
    + destruct (div2 m i Hi) as [Di Ei]. destruct (div2 n j Hj) as [Dj Ej]. rewrite V4 by auto using mod2. now rewrite Hk, <- Ei, <- Ej.
Qed.

Lemma downsample_1c pre m n (x : T) s sa :
  nonneg pre -> 0 <= m -> 0 <= n -> shp x = pre ++ [1; 2 * m; 2 * n] -> In sa patterns -> case_variant s sa ->
  exists y, downsample_1c_bayer_to_rgb x s = Ok y /\ shp y = pre ++ [3; m; n] /\
    forall p i j ir jr ig jg ig' jg' ib jb, valid pre p -> 0 <= i < m -> 0 <= j < n ->
      (** the four pixels of block (i, j), in the order red, green, other green, blue *)
      ir / 2 = i -> jr / 2 = j -> ig / 2 = i -> jg / 2 = j -> ig' / 2 = i -> jg' / 2 = j -> ib / 2 = i -> jb / 2 = j ->
      letter_at sa ir jr = Some "R"%char -> letter_at sa ig jg = Some "G"%char -> letter_at sa ig' jg' = Some "G"%char ->
      letter_at sa ib jb = Some "B"%char -> (ig, jg) <> (ig', jg') ->
      at_ y (p ++ [0; i; j]) = at_ x (p ++ [0; ir; jr]) /\
      at_ y (p ++ [1; i; j]) = fdiv (fadd (at_ x (p ++ [0; ig; jg])) (at_ x (p ++ [0; ig'; jg']))) (fofZ 2) /\
      at_ y (p ++ [2; i; j]) = at_ x (p ++ [0; ib; jb]).
Proof.
  intros Hp Hm Hn Hs Hsa Hv. unfold downsample_1c_bayer_to_rgb.
  destruct (bayer_1c_to_4c_spec pre m n Hp Hm Hn x Hs) as (u & -> & Su & Vu). cbn [bind].
  assert (Q : exists qr qg qg' qb, 0 <= qr < 4 /\ 0 <= qg < 4 /\ 0 <= qg' < 4 /\ 0 <= qb < 4 /\ qg <> qg' /\
    chan sa qr = 0 /\ chan sa qg = 1 /\ chan sa qg' = 1 /\ chan sa qb = 2).
  { destruct Hsa as [<-|[<-|[<-|[<-|[]]]]]; [exists 2, 0, 3, 1|exists 1, 0, 3, 2|exists 3, 1, 2, 0|exists 0, 1, 2, 3]; repeat split; try reflexivity; try discriminate; lia. }
  destruct Q as (qr0 & qg0 & qg0' & qb0 & A1 & A2 & A3 & A4 & A5 & A6 & A7 & A8 & A9).
  destruct (downsample_4c_spec pre m n Hp Hm Hn u s sa qr0 qg0 qg0' qb0) as (y & Ey & Sy & _); auto.
  exists y. split; auto. split; auto. intros p i j ir jr ig jg ig' jg' ib jb Vp Hi Hj R1 R2 G1 G2 G3 G4 B1 B2 LR LG LG' LB Ne.
  assert (L : forall a b k, names sa a b k -> 0 <= 2 * (a mod 2) + b mod 2 < 4 /\ chan sa (2 * (a mod 2) + b mod 2) = k).
  { intros a b k H. apply names_chan in H; auto. split; auto. pose proof (mod2 a). pose proof (mod2 b). lia. }
  destruct (L ir jr 0) as [C1 D1]; [unfold names; auto|]. destruct (L ig jg 1) as [C2 D2]; [unfold names; auto|].
  destruct (L ig' jg' 1) as [C3 D3]; [unfold names; auto|]. destruct (L ib jb 2) as [C4 D4]; [unfold names; auto|].
  assert (Nq : 2 * (ig mod 2) + jg mod 2 <> 2 * (ig' mod 2) + jg' mod 2).
  { intros E. apply Ne. pose proof (mod2 ig). pose proof (mod2 jg). pose proof (mod2 ig'). pose proof (mod2 jg').
    pose proof (Z.div_mod ig 2). pose proof (Z.div_mod jg 2). pose proof (Z.div_mod ig' 2). pose proof (Z.div_mod jg' 2). f_equal; lia. }
  destruct (downsample_4c_spec pre m n Hp Hm Hn u s sa _ _ _ _ Su Hsa Hv C1 C2 C3 C4 Nq D1 D2 D3 D4) as (y' & Ey' & _ & Vy).
  rewrite Ey in Ey'. injection Ey' as <-. destruct (Vy p i j Vp Hi Hj) as (-> & -> & ->).
  assert (W : forall a b, a / 2 = i -> b / 2 = j -> at_ u (p ++ [2 * (a mod 2) + b mod 2; i; j]) = at_ x (p ++ [0; a; b])).
  { intros a b Ha Hb. rewrite Vu by auto using mod2. f_equal. f_equal. f_equal. pose proof (Z.div_mod a 2). pose proof (Z.div_mod b 2). f_equal; [lia|]. f_equal. lia. }
  rewrite !W by auto. auto.
Qed.

(** ** BayerConv2d *)
Definition conv_at (M : bayer_conv F) (x : T) (h w : Z) (q : pos) (p : list Z) (o i j : Z) : F :=
  let k := bc_k M in
  let v := fsum (bc_in M) (fun ch => fsum k (fun a => fsum k (fun b =>
     fmul (bc_w M q o ch a b) (at_ x (p ++ [ch; reflect h (i + a - k / 2); reflect w (j + b - k / 2)]))))) in
  match bc_bias M with None => v | Some bs => fadd v (bs q o) end.

Lemma bayer_conv_values pre C m n (M : bayer_conv F) x s sa junk y :
  nonneg pre -> 0 <= m -> 0 <= n -> shp x = pre ++ [C; 2 * m; 2 * n] -> 1 <= bc_k M -> 0 <= bc_out M ->
  In sa patterns -> case_variant s sa -> bayer_forward junk M x s = Ok y ->
  shp y = pre ++ [bc_out M; 2 * m; 2 * n] /\
  forall p o i j q, valid pre p -> 0 <= o < bc_out M -> 0 <= i < 2 * m -> 0 <= j < 2 * n -> in_class sa i j q ->
    at_ y (p ++ [o; i; j]) = conv_at M x (2 * m) (2 * n) q p o i j.
Proof.
  intros Hp Hm Hn Hs Hk Ho Hsa Hv Hy.
  destruct (bayer_forward_ok pre C m n M x s sa Hs Hk Hsa Hv junk y Hy) as (A1 & A2 & A3 & A4 & A5 & A6).
  destruct (bayer_forward_spec pre C m n Hp Hm Hn M x s sa Hs Hk Hsa Hv junk) as (y' & Ey & Sy & Vy); auto.
  rewrite Hy in Ey. injection Ey as <-. split; auto. intros p o i j q Vp Hoo Hi Hj Hq.
  destruct (beg_index_spec sa Hsa) as (f & Ef & _). rewrite (Vy f Ef q) by (auto; now apply (in_class_beg sa f)).
  unfold conv_at. rewrite A1. reflexivity.
Qed.
Lemma bayer_conv_defined pre C m n (M : bayer_conv F) x s sa junk :
  nonneg pre -> 0 <= m -> 0 <= n -> shp x = pre ++ [C; 2 * m; 2 * n] -> 1 <= bc_k M -> 0 <= bc_out M ->
  In sa patterns -> case_variant s sa ->
  (exists y, bayer_forward junk M x s = Ok y) <->
  bc_in M = C /\ (length pre <= 1)%nat /\ bc_k M / 2 < 2 * m /\ bc_k M / 2 < 2 * n /\ 1 <= m /\ 1 <= n.
Proof.
  intros Hp Hm Hn Hs Hk Ho Hsa Hv. split.
  - intros [y Hy]. eapply bayer_forward_ok; eauto.
  - intros (A1 & A2 & A3 & A4 & A5 & A6).
    destruct (bayer_forward_spec pre C m n Hp Hm Hn M x s sa Hs Hk Hsa Hv junk) as (y' & Ey & _); eauto.
Qed.

Lemma unshuffle_values B C m n (M : bayer_conv F) x s sa junk junk' :
  0 <= B -> 0 <= m -> 0 <= n -> shp x = [B; C; 2 * m; 2 * n] -> 1 <= bc_k M -> 0 <= bc_out M ->
  In sa patterns -> case_variant s sa ->
  (forall y, bayer_forward junk M x s = Ok y ->
     exists z, bayer_forward_unshuffle junk' M x s = Ok z /\ teq z (pixel_unshuffle2 y)) /\
  (forall z, bayer_forward_unshuffle junk' M x s = Ok z -> exists y, bayer_forward junk M x s = Ok y).
Proof. intros. apply (unshuffle_forward B C m n) with (sa := sa); auto. Qed.

(** ** demosaicing with any one-to-two-channel network *)
Lemma demosaic_keeps pre m n (M : bayer_conv F) x s sa cl j1 j2 j3 z :
  nonneg pre -> 0 <= m -> 0 <= n -> shp x = pre ++ [1; 2 * m; 2 * n] -> bc_in M = 1 -> bc_out M = 2 -> 1 <= bc_k M ->
  In sa patterns -> case_variant s sa -> demosaic_with M j1 j2 x s cl = Ok z ->
  shp z = pre ++ [3; 2 * m; 2 * n] /\
  (exists w, rgb_to_1c_bayer j3 z s = Ok w /\ teq w (tmap (fclamp f0 cl) x)) /\
  forall p k i j q, valid pre p -> 0 <= k < 3 -> 0 <= i < 2 * m -> 0 <= j < 2 * n -> in_class sa i j q ->
    (names sa i j k -> at_ z (p ++ [k; i; j]) = fclamp f0 cl (at_ x (p ++ [0; i; j]))) /\
    (~ names sa i j k -> at_ z (p ++ [k; i; j]) =
       fclamp f0 cl (conv_at M x (2 * m) (2 * n) q p (if k <? pos_color q then k else k - 1) i j)).
Proof.
  intros Hp Hm Hn Hs Hin Hout Hk Hsa Hv Hz.
  destruct (demosaic_spec pre m n Hp Hm Hn s sa Hsa Hv M x cl Hin Hout Hk Hs j1 j2 z Hz) as [Sz Vz].
  split; auto. split; [apply (demosaic_remosaic pre m n Hp Hm Hn s sa Hsa Hv M x cl Hin Hout Hk Hs j1 j2 j3 z Hz)|].
  intros p k i j q Vp Hkk Hi Hj Hq. destruct (beg_index_spec sa Hsa) as (f & Ef & _).
  assert (Hq' : f q = (i mod 2, j mod 2)) by now apply (in_class_beg sa f).
  rewrite (Vz f Ef q) by auto. cbv zeta. rewrite names_chan by auto.
  rewrite (pos_color_chan sa Hsa f Ef q), Hq'. cbn [fst snd]. split.
  - intros ->. now rewrite Z.eqb_refl.
  - intros Nk. replace (k =? _) with false by (symmetry; apply Z.eqb_neq; congruence).
    unfold conv_at. rewrite Hin. reflexivity.
Qed.
Lemma demosaic_defined pre m n (M : bayer_conv F) x s sa cl j1 j2 :
  nonneg pre -> 0 <= m -> 0 <= n -> shp x = pre ++ [1; 2 * m; 2 * n] -> bc_in M = 1 -> bc_out M = 2 -> 1 <= bc_k M ->
  In sa patterns -> case_variant s sa ->
  (exists z, demosaic_with M j1 j2 x s cl = Ok z) <->
  (length pre <= 1)%nat /\ bc_k M / 2 < 2 * m /\ bc_k M / 2 < 2 * n /\ 1 <= m /\ 1 <= n.
Proof.
  intros Hp Hm Hn Hs Hin Hout Hk Hsa Hv. split.
  - intros [z Hz]. apply (demosaic_ok_inv pre m n Hp Hm Hn s sa Hsa Hv M x cl Hin Hout Hk Hs j1 j2 z Hz).
  - intros (A1 & A2 & A3 & A4 & A5). apply (demosaic_ok pre m n Hp Hm Hn s sa Hsa Hv M x cl Hin Hout Hk Hs j1 j2); auto.
Qed.
Lemma demosaic_junk pre m n (M : bayer_conv F) x s sa cl j1 j2 j1' j2' z :
  nonneg pre -> 0 <= m -> 0 <= n -> shp x = pre ++ [1; 2 * m; 2 * n] -> bc_in M = 1 -> bc_out M = 2 -> 1 <= bc_k M ->
  In sa patterns -> case_variant s sa -> demosaic_with M j1 j2 x s cl = Ok z ->
  exists z', demosaic_with M j1' j2' x s cl = Ok z' /\ teq z z'.
Proof.
  intros Hp Hm Hn Hs Hin Hout Hk Hsa Hv Hz.
  destruct (proj2 (demosaic_defined pre m n M x s sa cl j1' j2' Hp Hm Hn Hs Hin Hout Hk Hsa Hv)) as [z' Hz'].
  { apply (proj1 (demosaic_defined pre m n M x s sa cl j1 j2 Hp Hm Hn Hs Hin Hout Hk Hsa Hv)). eauto. }
  exists z'. split; auto.
  destruct (demosaic_spec pre m n Hp Hm Hn s sa Hsa Hv M x cl Hin Hout Hk Hs j1 j2 z Hz) as [Sz Vz].
  destruct (demosaic_spec pre m n Hp Hm Hn s sa Hsa Hv M x cl Hin Hout Hk Hs j1' j2' z' Hz') as [Sz' Vz'].
  split; [congruence|]. rewrite Sz. intros i Vi.
  apply valid_app_inv in Vi as (p & i3 & -> & Vp & Vi). apply valid3 in Vi as (ch & i & j & -> & Hch & Hi & Hj).
  destruct (beg_index_spec sa Hsa) as (f & Ef & _ & _ & _ & _ & _ & Hf6).
  destruct (Hf6 (i mod 2) (j mod 2) (mod2 i) (mod2 j)) as [q Hq].
  now rewrite (Vz f Ef q), (Vz' f Ef q) by auto.
Qed.
End P.
