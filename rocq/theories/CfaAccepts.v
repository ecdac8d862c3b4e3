(** Which images and sensor alignments the Bayer conversions accept (C55, C56, C59). *)
From Coq Require Import String.
From Verif Require Export CfaPropLemmas.
Open Scope list_scope.
Open Scope Z_scope.

(** f succeeds exactly on the images whose last three sizes satisfy [P] with a known alignment; every other
    call is an AssertionError. *)
Definition accepts {F : ofield} (P : Z -> Z -> Z -> Prop) (f : tensor F -> string -> res (tensor F)) : Prop :=
  forall x s, nonneg (shp x) ->
  (exists y, f x s = Ok y) /\ (exists pre c h w, shp x = pre ++ [c; h; w] /\ P c h w) /\ (exists sa, In sa patterns /\ case_variant s sa) \/
  f x s = Err AssertionError /\ ((forall pre c h w, shp x = pre ++ [c; h; w] -> ~ P c h w) \/ forall sa, In sa patterns -> ~ case_variant s sa).

Section CA.
Variable F : ofield.
Notation T := (tensor F).

Lemma check_4c_cases (x : T) :
  (check_4c_bayer x = Ok tt /\ exists pre h w, shp x = pre ++ [4; h; w]) \/
  (check_4c_bayer x = Err AssertionError /\ forall pre h w, shp x <> pre ++ [4; h; w]).
Proof.
  destruct (Z.leb_spec 3 (Z.of_nat (length (shp x)))) as [L|L].
  - destruct (split3 _ L) as (pre & a & b & c & Hs). unfold check_4c_bayer. destruct (dim_last3 x _ _ _ _ Hs) as (-> & _ & _).
    rewrite (ndim3 x _ _ _ _ Hs), nd3. cbn [assertb bind]. destruct (Z.eqb_spec a 4) as [->|Na].
    + left. split; auto. exists pre, b, c. auto.
    + right. split; auto. intros pre' h w E. rewrite E in Hs. apply app3_inj in Hs as (Q1 & _). congruence.
  - right. split.
    + unfold check_4c_bayer, ndim. apply Z.leb_gt in L. rewrite L. reflexivity.
    + intros pre h w E. rewrite E, app_length in L. simpl in L. lia.
Qed.
Lemma check_rgb_cases (x : T) :
  (check_rgb x = Ok tt /\ exists pre h w, shp x = pre ++ [3; h; w]) \/
  (check_rgb x = Err AssertionError /\ forall pre h w, shp x <> pre ++ [3; h; w]).
Proof.
  destruct (Z.leb_spec 3 (Z.of_nat (length (shp x)))) as [L|L].
  - destruct (split3 _ L) as (pre & a & b & c & Hs). unfold check_rgb. destruct (dim_last3 x _ _ _ _ Hs) as (-> & _ & _).
    rewrite (ndim3 x _ _ _ _ Hs), nd3. cbn [assertb bind]. destruct (Z.eqb_spec a 3) as [->|Na].
    + left. split; auto. exists pre, b, c. auto.
    + right. split; auto. intros pre' h w E. rewrite E in Hs. apply app3_inj in Hs as (Q1 & _). congruence.
  - right. split.
    + unfold check_rgb, ndim. apply Z.leb_gt in L. rewrite L. reflexivity.
    + intros pre h w E. rewrite E, app_length in L. simpl in L. lia.
Qed.
Lemma nonneg3 pre a b c : nonneg (pre ++ [a; b; c]) -> nonneg pre /\ 0 <= a /\ 0 <= b /\ 0 <= c.
Proof. intros H. apply Forall_app in H as [Hp Hl]. inv Hl. inv H2. inv H4. auto. Qed.

Theorem four_to_one_accepts junk (x : T) : nonneg (shp x) ->
  (exists y, bayer_4c_to_1c junk x = Ok y /\ exists pre m n, 0 <= m /\ 0 <= n /\ shp x = pre ++ [4; m; n]) \/
  (bayer_4c_to_1c junk x = Err AssertionError /\ forall pre m n, shp x <> pre ++ [4; m; n]).
Proof.
  intros H. destruct (check_4c_cases x) as [[E [pre [h [w Hs]]]]|[E N]].
  - left. rewrite Hs in H. apply nonneg3 in H as (Hp & _ & Hh & Hw).
    destruct (bayer_4c_to_1c_spec pre h w Hp Hh Hw junk x Hs) as (y & Ey & _). exists y. split; auto. exists pre, h, w. auto.
  - right. split; auto. unfold bayer_4c_to_1c. now rewrite E.
Qed.
Definition even_rgb c h w := c = 3 /\ h mod 2 = 0 /\ w mod 2 = 0.
Lemma even_half v : v mod 2 = 0 -> v = 2 * (v / 2).
Proof. intros M. pose proof (Z.div_mod v 2). lia. Qed.
Lemma rgb_fails (f : T -> string -> res T) : 
  (forall x s, f x s = (_ <- check_rgb x ;; sa <- check_sensor_alignment s ;; h <- dim_last x 2 ;; w <- dim_last x 1 ;;
     _ <- assertb ((h mod 2 =? w mod 2) && (w mod 2 =? 0)) ;; f x s)) ->
  (forall pre m n x s sa, nonneg pre -> 0 <= m -> 0 <= n -> shp x = pre ++ [3; 2 * m; 2 * n] -> In sa patterns -> case_variant s sa -> exists y, f x s = Ok y) ->
  accepts even_rgb f.
Proof.
  intros G K x s H. destruct (check_rgb_cases x) as [[E [pre [h [w Hs]]]]|[E N]].
  2:{ right. split; [rewrite G, E; reflexivity|]. left. intros pre c h w Hs [-> _]. eapply N; eauto. }
  destruct (check_sensor_alignment_spec s) as [(sa & Hsa & Hv & Ea)|[Na Ea]].
  2:{ right. split; auto. rewrite G, E. cbn [bind]. rewrite Ea. reflexivity. }
  rewrite Hs in H. apply nonneg3 in H as (Hp & _ & Hh & Hw).
  assert (D : h mod 2 = 0 /\ w mod 2 = 0 \/ ((h mod 2 =? w mod 2) && (w mod 2 =? 0) = false)).
  { destruct (mod2 h) as [-> | ->], (mod2 w) as [-> | ->]; auto. }
  destruct D as [[M1 M2]|D].
  - left. rewrite (even_half h), (even_half w) in Hs by auto. split; [|split].
    + apply (K pre (h / 2) (w / 2) x s sa); auto; apply Z.div_pos; lia.
    + exists pre, 3, (2 * (h / 2)), (2 * (w / 2)). split; auto. rewrite <- !even_half by auto. unfold even_rgb. auto.
    + eauto.
  - right. split.
    + rewrite G, E. cbn [bind]. rewrite Ea. cbn [bind]. destruct (dim_last3 x _ _ _ _ Hs) as (_ & -> & ->). cbn [bind]. rewrite D. reflexivity.
    + left. intros pre' c h' w' Hs' [_ [M1 M2]]. rewrite Hs' in Hs. apply app3_inj in Hs as (_ & -> & ->). now rewrite M1, M2 in D.
Qed.
Theorem rgb_1c_accepts junk : accepts even_rgb (fun (x : T) s => rgb_to_1c_bayer junk x s).
Proof.
  apply rgb_fails.
  - intros x s. unfold rgb_to_1c_bayer. destruct (check_rgb x); [|reflexivity]. cbn [bind]. destruct (check_sensor_alignment s); [|reflexivity]. cbn [bind].
    destruct (dim_last x 2) as [h|]; [|reflexivity]. cbn [bind]. destruct (dim_last x 1) as [w|]; [|reflexivity]. cbn [bind]. destruct (assertb _); reflexivity.
  - intros pre m n x s sa Hp Hm Hn Hs Hsa Hv. destruct (rgb_to_1c_spec pre m n Hp Hm Hn junk x s sa Hs Hsa Hv) as (y & Ey & _). eauto.
Qed.
Theorem rgb_4c_accepts : accepts even_rgb (fun (x : T) s => rgb_to_4c_bayer x s).
Proof.
  apply rgb_fails.
  - intros x s. unfold rgb_to_4c_bayer. destruct (check_rgb x); [|reflexivity]. cbn [bind]. destruct (check_sensor_alignment s); [|reflexivity]. cbn [bind].
    destruct (dim_last x 2) as [h|]; [|reflexivity]. cbn [bind]. destruct (dim_last x 1) as [w|]; [|reflexivity]. cbn [bind]. destruct (assertb _); reflexivity.
  - intros pre m n x s sa Hp Hm Hn Hs Hsa Hv. destruct (rgb_to_4c_spec pre m n Hp Hm Hn x s sa Hs Hsa Hv) as (y & Ey & _). eauto.
Qed.
Lemma pattern_channels sa : In sa patterns -> exists qr qg qg' qb, 0 <= qr < 4 /\ 0 <= qg < 4 /\ 0 <= qg' < 4 /\ 0 <= qb < 4 /\ qg <> qg' /\
  chan sa qr = 0 /\ chan sa qg = 1 /\ chan sa qg' = 1 /\ chan sa qb = 2.
Proof.
  intros [<-|[<-|[<-|[<-|[]]]]].
  - exists 2, 0, 3, 1. vm_compute. intuition congruence.
  - exists 1, 0, 3, 2. vm_compute. intuition congruence.
  - exists 3, 1, 2, 0. vm_compute. intuition congruence.
  - exists 0, 1, 2, 3. vm_compute. intuition congruence.
Qed.
Lemma down_4c_ok (x : T) pre m n s sa : nonneg pre -> 0 <= m -> 0 <= n -> shp x = pre ++ [4; m; n] -> In sa patterns -> case_variant s sa ->
  exists y, downsample_4c_bayer_to_rgb x s = Ok y.
Proof.
  intros Hp Hm Hn Hs Hsa Hv. destruct (pattern_channels sa Hsa) as (qr & qg & qg' & qb & C1 & C2 & C3 & C4 & Nq & D1 & D2 & D3 & D4).
  destruct (downsample_4c_spec pre m n Hp Hm Hn x s sa qr qg qg' qb) as (y & Ey & _); eauto.
Qed.
Theorem down_4c_accepts : accepts (fun c _ _ => c = 4) (fun (x : T) s => downsample_4c_bayer_to_rgb x s).
Proof.
  intros x s H. destruct (check_sensor_alignment_spec s) as [(sa & Hsa & Hv & Ea)|[Na Ea]].
  2:{ right. split; auto. unfold downsample_4c_bayer_to_rgb. now rewrite Ea. }
  destruct (check_4c_cases x) as [[E [pre [h [w Hs]]]]|[E N]].
  - left. rewrite Hs in H. apply nonneg3 in H as (Hp & _ & Hh & Hw). split; [eapply (down_4c_ok x pre h w s sa); eauto|]. split; [exists pre, 4, h, w; auto|eauto].
  - right. split; [unfold downsample_4c_bayer_to_rgb; rewrite Ea; cbn [bind]; now rewrite E|]. left. intros pre c h w Hs ->. eapply N; eauto.
Qed.
Theorem down_1c_accepts : accepts (fun c h w => c = 1 /\ h mod 2 = 0 /\ w mod 2 = 0) (fun (x : T) s => downsample_1c_bayer_to_rgb x s).
Proof.
  intros x s H. unfold downsample_1c_bayer_to_rgb.
  destruct (one_to_four_accepts F x H) as [(y & Ey & pre & m & n & Hm & Hn & Hs)|[E N]].
  2:{ right. split; [now rewrite E|]. left. intros pre c h w Hs [-> [M1 M2]]. apply (N pre (h / 2) (w / 2)). now rewrite <- !even_half. }
  rewrite Ey. cbn [bind]. pose proof H as H'. rewrite Hs in H'. apply nonneg3 in H' as (Hp & _ & _ & _).
  destruct (one_to_four F pre m n x Hp Hm Hn Hs) as (y' & Ey' & Sy & _). rewrite Ey in Ey'. injection Ey' as <-.
  destruct (check_sensor_alignment_spec s) as [(sa & Hsa & Hv & Ea)|[Na Ea]].
  - left. split; [apply (down_4c_ok y pre m n s sa); auto|]. split; eauto. exists pre, 1, (2 * m), (2 * n). split; auto. split; auto.
    rewrite (Z.mul_comm 2 m), (Z.mul_comm 2 n), !Z.mod_mul by lia. auto.
  - right. split; auto. unfold downsample_4c_bayer_to_rgb. now rewrite Ea.
Qed.
End CA.
