(** The gradient-corrected kernels reproduce colour images whose channels are affine, one by one:
    the taps on the wanted colour sum to 1, the taps on any other colour sum to 0, and both are
    balanced about the centre. *)
From Coq Require Import Ascii String.
From Verif Require Export BayerOdd.
Import List. Import ListNotations.
Local Notation length := List.length.
Open Scope string_scope.
Open Scope list_scope.
Open Scope Z_scope.

(** Colour seen by tap (a, b) of a 5x5 filter centred on a pixel of class q. *)
Definition tap (q : pos) (a b : Z) : Z :=
  match q, Z.even a, Z.even b with
  | PR, true, true => 0 | PR, false, false => 2 | PR, _, _ => 1
  | PB, true, true => 2 | PB, false, false => 0 | PB, _, _ => 1
  | PGR, true, false => 0 | PGR, false, true => 2 | PGR, _, _ => 1
  | PGB, true, false => 2 | PGB, false, true => 0 | PGB, _, _ => 1
  end.
Definition masked (q : pos) (l : list (list Z)) (c a b : Z) : Z := if tap q a b =? c then kz l a b else 0.
Definition selects (q : pos) (l : list (list Z)) (c : Z) : Prop :=
  forall c', 0 <= c' < 3 ->
  zsum 5 (fun a => zsum 5 (fun b => masked q l c' a b)) = (if c' =? c then 16 else 0) /\
  zsum 5 (fun a => zsum 5 (fun b => masked q l c' a b * (a - 2))) = 0 /\
  zsum 5 (fun a => zsum 5 (fun b => masked q l c' a b * (b - 2))) = 0.
Lemma cases3 c : 0 <= c < 3 -> c = 0 \/ c = 1 \/ c = 2. Proof. lia. Qed.

Lemma mod2_even i : i mod 2 = if Z.even i then 0 else 1.
Proof. apply Zmod_even. Qed.
Lemma tap_chan sa f q i j a b : In sa patterns -> get_sensor_beg_index sa = Ok f -> f q = (i mod 2, j mod 2) ->
  chan sa (2 * ((i + a - 2) mod 2) + (j + b - 2) mod 2) = tap q a b.
Proof.
  intros Hsa Ef Hq.
  assert (P : forall u v, (u + v - 2) mod 2 = (if Z.even v then u mod 2 else 1 - u mod 2)).
  { intros. rewrite !mod2_even. rewrite Z.even_sub, Z.even_add. change (Z.even 2) with true. destruct (Z.even u), (Z.even v); reflexivity. }
  rewrite !P. clear P. unfold tap.
  destruct Hsa as [<-|[<-|[<-|[<-|[]]]]]; injection Ef as <-; destruct (mod2 i) as [Mi|Mi], (mod2 j) as [Mj|Mj]; rewrite Mi, Mj in Hq |- *;
    destruct q; try discriminate Hq; destruct (Z.even a), (Z.even b); reflexivity.
Qed.
Lemma reflect_mod2 n i : 2 <= n -> reflect n i mod 2 = i mod 2.
Proof.
  intros Hn. unfold reflect. replace (n =? 1) with false by (symmetry; apply Z.eqb_neq; lia). cbv zeta.
  assert (E : (i mod (2 * n - 2)) mod 2 = i mod 2).
  { pose proof (Z.div_mod i (2 * n - 2) ltac:(lia)) as D. rewrite D at 2.
    replace ((2 * n - 2) * (i / (2 * n - 2)) + i mod (2 * n - 2)) with (i mod (2 * n - 2) + ((n - 1) * (i / (2 * n - 2))) * 2) by ring.
    now rewrite Z.mod_add by lia. }
  destruct (_ <? _); auto. rewrite <- E. rewrite !mod2_even. rewrite !Z.even_sub, Z.even_mul. change (Z.even 2) with true. cbn [orb eqb].
  now destruct (Z.even (i mod _)).
Qed.

Section K.
Variable F : ofield.
Add Field Fk2 : (f_field F).
Open Scope F_scope.
Notation T := (tensor F).

Lemma wf_dict_selects q o : (0 <= o < 2)%Z ->
  let c := if (o =? 0)%Z then fst (pos_others q) else snd (pos_others q) in
  exists l, is_kernel F (wf_dict c q) l /\ selects q l c.
Proof.
  intros Ho. destruct (kernels F) as (K0 & K1 & K2 & K3). assert (o = 0 \/ o = 1)%Z as [->| ->] by lia; destruct q;
  [exists kz0|exists kz3|exists kz1|exists (tr5 kz1)|exists kz3|exists kz0|exists (tr5 kz1)|exists kz1];
  (split; [assumption|]); intros c' Hc'; apply cases3 in Hc'; destruct Hc' as [->|[->| ->]]; repeat split; reflexivity.
Qed.

(** a masked kernel applied to an affine function *)
Lemma affine_masked (k : Z -> Z -> Z) s (al be ga u v : F) :
  zsum 5 (fun a => zsum 5 (fun b => k a b)) = s ->
  zsum 5 (fun a => zsum 5 (fun b => k a b * (a - 2))%Z) = 0%Z ->
  zsum 5 (fun a => zsum 5 (fun b => k a b * (b - 2))%Z) = 0%Z ->
  fsum 5 (fun a => fsum 5 (fun b => q8 (k a b) * (al + be * (u + fofZ (a - 2)) + ga * (v + fofZ (b - 2)))))
  = q8 s * (al + be * u + ga * v).
Proof.
  intros B1 B2 B3. pose proof (n16 F) as N.
  transitivity (finv (fofZ 16) *
     ((al + be * u + ga * v) * fsum 5 (fun a => fsum 5 (fun b => fofZ (k a b)))
      + be * fsum 5 (fun a => fsum 5 (fun b => fofZ (k a b * (a - 2)) : F))
      + ga * fsum 5 (fun a => fsum 5 (fun b => fofZ (k a b * (b - 2)) : F)))).
  - repeat rewrite <- fsum_mul. rewrite <- !fsum_add, <- fsum_mul. apply fsum_ext; intros a Ha.
    repeat rewrite <- fsum_mul. rewrite <- !fsum_add, <- fsum_mul. apply fsum_ext; intros b Hb.
    unfold q8. rewrite !fofZ_mul. field. auto.
  - pose proof (fsum2_ofZ F 5 5 (fun a b => k a b)) as E1. pose proof (fsum2_ofZ F 5 5 (fun a b => k a b * (a - 2)))%Z as E2.
    pose proof (fsum2_ofZ F 5 5 (fun a b => k a b * (b - 2)))%Z as E3. cbv beta in E1, E2, E3.
    rewrite E1, E2, E3, B1, B2, B3. unfold q8. rewrite fofZ_0. field. auto.
Qed.

Lemma colour_kernel q w l c (al be ga : Z -> F) (u v : F) : (0 <= c < 3)%Z -> is_kernel F w l -> selects q l c ->
  fsum 5 (fun a => fsum 5 (fun b => mat_at w a b *
     (al (tap q a b) + be (tap q a b) * (u + fofZ (a - 2)) + ga (tap q a b) * (v + fofZ (b - 2)))))
  = al c + be c * u + ga c * v.
Proof.
  intros Hc K S.
  pose (t := fun c' => fsum 5 (fun a => fsum 5 (fun b => q8 (masked q l c' a b) * (al c' + be c' * (u + fofZ (a - 2)) + ga c' * (v + fofZ (b - 2)))))).
  transitivity (t 0%Z + t 1%Z + t 2%Z).
  - unfold t. rewrite <- !fsum_add. apply fsum_ext; intros a Ha. rewrite <- !fsum_add. apply fsum_ext; intros b Hb.
    rewrite K by auto. unfold masked. assert (Z0 : (q8 0 : F) = 0) by (unfold q8; rewrite fofZ_0; field; apply n16).
    assert (T3 : (tap q a b = 0 \/ tap q a b = 1 \/ tap q a b = 2)%Z) by (unfold tap; destruct q, (Z.even a), (Z.even b); auto).
    destruct T3 as [->|[->| ->]]; cbn [Z.eqb]; change (1 =? 0)%Z with false; change (2 =? 1)%Z with false; change (2 =? 0)%Z with false;
      rewrite ?Z0; cbn [Z.eqb Pos.eqb]; rewrite ?Z0; ring.
  - assert (E : forall c', (0 <= c' < 3)%Z -> t c' = q8 (if (c' =? c)%Z then 16 else 0) * (al c' + be c' * u + ga c' * v)).
    { intros c' Hc'. destruct (S c' Hc') as (S1 & S2 & S3). unfold t. now apply affine_masked. }
    rewrite !E by lia. assert (Z0 : (q8 0 : F) = 0) by (unfold q8; rewrite fofZ_0; field; apply n16).
    assert (Z1 : (q8 16 : F) = 1) by (unfold q8; field; apply n16).
    apply cases3 in Hc. destruct Hc as [->|[->| ->]]; cbn [Z.eqb Pos.eqb]; rewrite Z0, Z1; ring.
Qed.

Section Img.
Variables (pre : list Z) (m n : Z).
Hypothesis Hpre : nonneg pre.
Hypothesis Lpre : (length pre <= 1)%nat.
Hypothesis Hm : (2 <= m)%Z.
Hypothesis Hn : (2 <= n)%Z.
Variables (s sa : string) (cl : F) (img : T).
Hypothesis Hsa : In sa patterns.
Hypothesis Hv : case_variant s sa.
Hypothesis Hs : shp img = pre ++ [3; 2 * m; 2 * n]%Z.

Lemma colour_pixel j0 j1 j2 :
  exists x z, rgb_to_1c_bayer j0 img s = Ok x /\ demosaic j1 j2 x s cl = Ok z /\ shp z = shp img /\
    forall p ch i j (al be ga : Z -> F), valid pre p -> (0 <= ch < 3)%Z -> (0 <= i < 2 * m)%Z -> (0 <= j < 2 * n)%Z ->
      (forall c a b, (0 <= c < 3)%Z -> (0 <= a < 5)%Z -> (0 <= b < 5)%Z ->
         at_ img (p ++ [c; reflect (2 * m) (i + a - 2); reflect (2 * n) (j + b - 2)]%Z)
         = al c + be c * (fofZ i + fofZ (a - 2)) + ga c * (fofZ j + fofZ (b - 2))) ->
      fle 0 (at_ img (p ++ [ch; i; j])) -> fle (at_ img (p ++ [ch; i; j])) cl ->
      at_ z (p ++ [ch; i; j]) = at_ img (p ++ [ch; i; j]).
Proof using Hpre Lpre Hm Hn Hsa Hv Hs.
  assert (Hm' : (0 <= m)%Z) by lia. assert (Hn' : (0 <= n)%Z) by lia.
  destruct (rgb_to_1c_spec pre m n Hpre Hm' Hn' j0 img s sa Hs Hsa Hv) as (x & Ex & Sx & Vx).
  destruct (demosaic_ok pre m n Hpre Hm' Hn' s sa Hsa Hv gradient_corrected_interpolator x cl eq_refl eq_refl
              ltac:(cbn; lia) Sx j1 j2 Lpre ltac:(cbn [gradient_corrected_interpolator interpolator bc_k]; change (5 / 2)%Z with 2%Z; lia)
              ltac:(cbn [gradient_corrected_interpolator interpolator bc_k]; change (5 / 2)%Z with 2%Z; lia) ltac:(lia) ltac:(lia)) as [z Ez].
  destruct (demosaic_spec pre m n Hpre Hm' Hn' s sa Hsa Hv gradient_corrected_interpolator x cl eq_refl eq_refl
              ltac:(cbn; lia) Sx j1 j2 z Ez) as [Sz Vz].
  exists x, z. split; auto. split; auto. split; [congruence|].
  intros p ch i j al be ga Vp Hch Hi Hj Haff H0 H1.
  destruct (beg_index_spec sa Hsa) as (f & Ef & _ & _ & _ & _ & _ & Hf6).
  destruct (Hf6 (i mod 2)%Z (j mod 2)%Z (mod2 i) (mod2 j)) as [q Hq].
  rewrite (Vz f Ef q) by auto. cbv zeta.
  match goal with |- fclamp _ _ ?e = _ => assert (e = at_ img (p ++ [ch; i; j])) as -> end; [|now apply fclamp_id].
  destruct (Z.eqb_spec ch (pos_color q)) as [Eq|Nq].
  - rewrite Vx by auto. f_equal. f_equal. f_equal. rewrite Eq. rewrite (pos_color_chan sa Hsa f Ef q), Hq. reflexivity.
  - rewrite centred_grad.
    set (o := if (ch <? pos_color q)%Z then ch else (ch - 1)%Z).
    assert (Ho : (0 <= o < 2)%Z /\ (if (o =? 0)%Z then fst (pos_others q) else snd (pos_others q)) = ch).
    { unfold o. apply cases3 in Hch. destruct q; cbn [pos_color pos_others fst snd] in *; destruct Hch as [->|[->| ->]]; vm_compute; try (now contradiction Nq); repeat split; congruence. }
    destruct Ho as [Ho Eo]. destruct (wf_dict_selects q o Ho) as (l & K & S). cbv zeta in K, S. rewrite Eo in *.
    transitivity (al ch + be ch * fofZ i + ga ch * fofZ j).
    + rewrite <- (colour_kernel q (wf_dict ch q) l ch al be ga (fofZ i) (fofZ j) Hch K S).
      apply fsum_ext; intros a Ha. apply fsum_ext; intros b Hb. f_equal.
      rewrite Vx by (auto; apply reflect_in; lia). rewrite !reflect_mod2 by lia.
      rewrite (tap_chan sa f q i j a b Hsa Ef Hq).
      apply Haff; auto. unfold tap; destruct q, (Z.even a), (Z.even b); lia.
    + specialize (Haff ch 2%Z 2%Z Hch ltac:(lia) ltac:(lia)). rewrite !reflect_id in Haff by lia.
      replace (i + 2 - 2)%Z with i in Haff by lia. replace (j + 2 - 2)%Z with j in Haff by lia. rewrite Haff.
      change (fofZ (2 - 2)) with (0 : F). ring.
Qed.

(** one colour per image of the batch: exact everywhere *)
Lemma demosaic_colour_const j0 j1 j2 (v : list Z -> Z -> F) :
  (forall p ch i j, valid pre p -> (0 <= ch < 3)%Z -> (0 <= i < 2 * m)%Z -> (0 <= j < 2 * n)%Z ->
     at_ img (p ++ [ch; i; j]) = v p ch /\ fle 0 (v p ch) /\ fle (v p ch) cl) ->
  exists x z, rgb_to_1c_bayer j0 img s = Ok x /\ demosaic j1 j2 x s cl = Ok z /\ teq z img.
Proof using Hpre Lpre Hm Hn Hsa Hv Hs.
  intros G. destruct (colour_pixel j0 j1 j2) as (x & z & Ex & Ez & Sz & Vz).
  exists x, z. split; auto. split; auto. split; auto. rewrite Sz. intros w Vw. rewrite Hs in Vw.
  apply valid_app_inv in Vw as (p & i3 & -> & Vp & Vi). apply valid3 in Vi as (ch & i & j & -> & Hch & Hi & Hj).
  destruct (G p ch i j Vp Hch Hi Hj) as (E & L0 & L1).
  apply (Vz p ch i j (v p) (fun _ => 0) (fun _ => 0)); auto; try (rewrite E; auto).
  intros c a b Hc Ha Hb. rewrite (proj1 (G p c _ _ Vp Hc (reflect_in (2 * m) _ ltac:(lia)) (reflect_in (2 * n) _ ltac:(lia)))). ring.
Qed.

(** every channel affine: exact two pixels from the border *)
Lemma demosaic_colour_affine j0 j1 j2 (al be ga : list Z -> Z -> F) :
  (forall p ch i j, valid pre p -> (0 <= ch < 3)%Z -> (0 <= i < 2 * m)%Z -> (0 <= j < 2 * n)%Z ->
     at_ img (p ++ [ch; i; j]) = al p ch + be p ch * fofZ i + ga p ch * fofZ j) ->
  exists x z, rgb_to_1c_bayer j0 img s = Ok x /\ demosaic j1 j2 x s cl = Ok z /\ shp z = shp img /\
    forall p ch i j, valid pre p -> (0 <= ch < 3)%Z -> (2 <= i < 2 * m - 2)%Z -> (2 <= j < 2 * n - 2)%Z ->
      fle 0 (at_ img (p ++ [ch; i; j])) -> fle (at_ img (p ++ [ch; i; j])) cl ->
      at_ z (p ++ [ch; i; j]) = at_ img (p ++ [ch; i; j]).
Proof using Hpre Lpre Hm Hn Hsa Hv Hs.
  intros G. destruct (colour_pixel j0 j1 j2) as (x & z & Ex & Ez & Sz & Vz).
  exists x, z. split; auto. split; auto. split; auto. intros p ch i j Vp Hch Hi Hj H0 H1.
  apply (Vz p ch i j (al p) (be p) (ga p)); auto; try lia.
  intros c a b Hc Ha Hb. rewrite !reflect_id by lia. rewrite G by (auto; lia).
  replace (i + a - 2)%Z with (i + (a - 2))%Z by lia. replace (j + b - 2)%Z with (j + (b - 2))%Z by lia.
  now rewrite !fofZ_add.
Qed.
End Img.
End K.
