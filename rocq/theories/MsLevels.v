(** MS_SSIM: the images at the several levels and their scores. *)
From Verif Require Export SsimCrop.
Open Scope Z_scope.

(** The shape after i halvings of the axes al. *)
Definition halved (al : list nat) (i : Z) (sh : list Z) : list Z :=
  map (fun d => if in_dec Nat.eq_dec d al then nth d sh 0 / 2 ^ i else nth d sh 0) (seq 0 (length sh)).

Lemma halved_length al i sh : length (halved al i sh) = length sh.
Proof. unfold halved. now rewrite map_length, seq_length. Qed.
Lemma halved_in al i sh a : (a < length sh)%nat -> In a al -> nth a (halved al i sh) 0 = nth a sh 0 / 2 ^ i.
Proof. intros L H. unfold halved. rewrite nth_map_seq by auto. now destruct (in_dec Nat.eq_dec a al). Qed.
Lemma halved_notin al i sh d : ~ In d al -> nth d (halved al i sh) 0 = nth d sh 0.
Proof.
  intros H. destruct (Nat.lt_ge_cases d (length sh)).
  - unfold halved. rewrite nth_map_seq by auto. now destruct (in_dec Nat.eq_dec d al).
  - rewrite !nth_overflow; auto. now rewrite halved_length.
Qed.
Lemma halved_0 al sh : halved al 0 sh = sh.
Proof.
  apply list_ext with (d := 0); [apply halved_length|]. rewrite halved_length. intros d Hd. destruct (in_dec Nat.eq_dec d al).
  - rewrite halved_in by auto. cbn. apply Z.div_1_r.
  - now rewrite halved_notin.
Qed.
Lemma halved_add al i k sh : 0 <= i -> 0 <= k -> halved al i (halved al k sh) = halved al (k + i) sh.
Proof.
  intros Hi Hk. apply list_ext with (d := 0); [now rewrite !halved_length|]. rewrite !halved_length. intros d Hd. destruct (in_dec Nat.eq_dec d al).
  - rewrite !halved_in by (rewrite ?halved_length; auto). rewrite Z.div_div by (apply Z.pow_nonzero || apply Z.pow_pos_nonneg; lia). now rewrite Z.pow_add_r.
  - now rewrite !halved_notin.
Qed.

Section Levels.
Variable F : ofield.
Add Field Fml : (f_field F).
Notation T := (tensor F).

(** *** downsampling: AvgPoolNd(kernel_size=2, stride=2) *)
Theorem downsample_ok fuel junk (x : T) al : (forall a, In a al -> (a < ndim x)%nat) -> NoDup al -> (forall a, In a al -> 2 <= nth a (shp x) 0) ->
  exists y, downsample (avg_forward fuel junk true) x (map Z.of_nat al) = Ok y /\ shp y = halved al 1 (shp x) /\
    forall j, valid (shp y) j -> at_ y j = fdiv (bsum (repeat 2 (length al)) (fun o => at_ x (place al (repeat 2 (length al)) j o))) (fofZ (zprod (repeat 2 (length al)))).
Proof.
  intros L N P. unfold downsample.
  assert (E : exists m, @avg_init F (NItem 2) (NItem (Some 2)) None = Ok m) by (eexists; reflexivity). destruct E as [m E]. rewrite E. cbn [bind].
  assert (OA : on_axes x (AxSeq (map Z.of_nat al)) al) by (constructor; auto; apply check_axes_seq_nat; auto).
  assert (ST : map2 stride_or_size (repeat 2 (length al)) (repeat (Some 2) (length al)) = repeat 2 (length al)).
  { clear. induction (length al); cbn; [reflexivity|]. now rewrite IHn. }
  destruct (avg_mean F fuel junk (NItem 2) (NItem (Some 2)) m x _ al (repeat 2 (length al)) (repeat (Some 2) (length al)) OA eq_refl eq_refl E) as [y [Y1 [Y2 [Y3 [Y4 Y5]]]]].
  { intros r Hr. rewrite (nth_indep _ 0 2) by (now rewrite repeat_length). rewrite nth_repeat. split; [lia|]. apply P, nth_In. auto. }
  rewrite ST in Y3, Y5. exists y. split; auto. split.
  - apply list_ext with (d := 0); [rewrite halved_length; exact Y2|]. intros d Hd. fold (ndim y) in Hd. rewrite Y2 in Hd. destruct (in_dec Nat.eq_dec d al) as [Hi|Hi].
    + destruct (In_pos d al 0%nat Hi) as [r [Hr <-]]. rewrite Y3 by auto. rewrite halved_in by auto.
      rewrite (nth_indep (repeat 2 (length al)) 0 2), (nth_indep (repeat 2 (length al)) 1 2) by (now rewrite repeat_length). rewrite nth_repeat.
      replace (2 ^ 1) with 2 by reflexivity. replace (nth (nth r al 0%nat) (shp x) 0) with (nth (nth r al 0%nat) (shp x) 0 - 2 + 1 * 2) at 2 by lia. now rewrite Z.div_add by lia.
    + rewrite Y4, halved_notin by auto. reflexivity.
  - intros j Vj. apply (Y5 j Vj).
Qed.

(** Equal images have equal halves. *)
Lemma downsample_teq fuel junk (x x' y y' : T) al : (forall a, In a al -> (a < ndim x)%nat) -> NoDup al -> (forall a, In a al -> 2 <= nth a (shp x) 0) ->
  (forall n, In n (shp x) -> 0 <= n) -> teq x x' ->
  downsample (avg_forward fuel junk true) x (map Z.of_nat al) = Ok y -> downsample (avg_forward fuel junk true) x' (map Z.of_nat al) = Ok y' -> teq y y'.
Proof.
  intros L N P Po [S V] E E'. destruct (downsample_ok fuel junk x al L N P) as [u [U1 [U2 U3]]]. rewrite E in U1. injection U1 as <-.
  destruct (downsample_ok fuel junk x' al) as [v [V1 [V2 V3]]]; [unfold ndim; now rewrite <- S|auto|now rewrite <- S|]. rewrite E' in V1. injection V1 as <-.
  split; [rewrite U2, V2, S; reflexivity|]. intros j Vj. rewrite U3 by auto. rewrite V3 by (now rewrite V2, <- S, <- U2). f_equal. apply bsum_ext. intros o Vo. apply V.
  rewrite U2 in Vj. assert (Lj := valid_length _ _ Vj). rewrite halved_length in Lj. apply valid_iff. rewrite place_length. split; auto. intros d Hd.
  pose proof (valid_nth _ _ d Vj) as Q. rewrite halved_length in Q. specialize (Q Hd). destruct (in_dec Nat.eq_dec d al) as [Hi|Hi].
  - destruct (In_pos d al 0%nat Hi) as [r [Hr <-]]. rewrite halved_in in Q by auto. rewrite place_nth; auto.
    + rewrite (nth_indep (repeat 2 (length al)) 1 2) by (now rewrite repeat_length). rewrite nth_repeat.
      pose proof (valid_nth _ _ r Vo) as W. rewrite repeat_length in W. specialize (W Hr). rewrite (nth_indep (repeat 2 _) 0 2) in W by (now rewrite repeat_length). rewrite nth_repeat in W.
      replace (2 ^ 1) with 2 in Q by reflexivity. Z.div_mod_to_equations. lia.
    + intros a Ha. rewrite Lj. auto.
    + now rewrite repeat_length.
    + rewrite (valid_length _ _ Vo). now rewrite repeat_length.
  - rewrite place_notin by auto. rewrite halved_notin in Q by auto. exact Q.
Qed.

(** *** the score of one level *)
(** score is the mean, over the axes al, of the cropped map num/den. *)
Definition scored (al : list nat) (cw : list (Z * Z)) (osh : list Z) (num den : list Z -> F) (score : T) : Prop :=
  exists full cr, shp full = osh /\ (forall j, valid osh j -> den j <> f0 /\ at_ full j = fdiv (num j) (den j)) /\
    crop_of F al cw full cr /\ (forall n, In n (shp cr) -> 1 <= n) /\ tmean cr (map Z.of_nat al) true = Ok score.

Section OneLevel.
Variables (fuel : nat) (junk : list Z -> F) (b : pool F) (al : list nat) (kers : list (list F)) (pd : option (padder F)).
Variables (K1 K2 : F) (sample crop : bool) (c : F).
Notation axes := (map Z.of_nat al).

(** A state of the module between blurs. *)
Definition st_ok (s : ssim F) : Prop :=
  mlike F b (ss_blur s) /\ ss_K1 s = K1 /\ ss_K2 s = K2 /\ ss_sample s = sample /\ ss_crop s = crop /\ scale_factor s axes = Ok c.
(** A shape the blur can be applied to. *)
Record level (sh : list Z) : Prop := {
  lv_axes : forall a, In a al -> (a < length sh)%nat;
  lv_nodup : NoDup al;
  lv_pos : forall n, In n sh -> 1 <= n;
  lv_fit : forall r, (r < length al)%nat -> klen (nth r kers []) <= nth (nth r al 0%nat) sh 0;
  lv_facts : exists psh osh ws, blur_facts fuel junk b al kers pd sh psh osh ws }.

Lemma good_ok ow s s' : st_ok s -> good F b ow s s' -> st_ok s'.
Proof.
  intros [M [A [B [C [D E]]]]] G. assert (M' := good_like F b ow s s' G). assert (Sc := scale_like F b axes s s' M M').
  destruct G as [b' [-> _]]. split; [exact M'|]. split; [exact A|]. split; [exact B|]. split; [exact C|]. split; [exact D|]. now rewrite Sc.
Qed.

Definition kept_shape (sh : list Z) : list Z := ones_at (reduced (length sh) al) sh.
Lemma kept_shape_eq sh sh' : length sh' = length sh -> (forall a, In a al -> (a < length sh)%nat) -> (forall d, ~ In d al -> nth d sh' 0 = nth d sh 0) -> kept_shape sh' = kept_shape sh.
Proof.
  intros L A H. assert (R : forall a, In a (reduced (length sh) al) -> (a < length sh)%nat) by (intros a; now apply reduced_in).
  unfold kept_shape. rewrite L. apply list_ext with (d := 0); [rewrite !ones_at_length; auto|]. intros d _. rewrite !ones_at_nth by (rewrite ?L; auto).
  destruct (existsb (Nat.eqb d) (reduced (length sh) al)) eqn:E; auto. apply H. intros Hi. assert (existsb (Nat.eqb d) (reduced (length sh) al) = true); [|congruence].
  apply existsb_exists. exists d. split; [|apply Nat.eqb_refl]. destruct al; [destruct Hi|exact Hi].
Qed.

Definition cs_n (ws : list (Z * Z)) (y1 y2 : T) (j : list Z) : F :=
  let E := blur_at fuel junk al kers pd ws in cs_num F c (fmul K2 K2) (E y1 j) (E y2 j) (E (prodt y1 y2) j).
Definition cs_d (ws : list (Z * Z)) (y1 y2 : T) (j : list Z) : F :=
  let E := blur_at fuel junk al kers pd ws in cs_den F c (fmul K2 K2) (E y1 j) (E y2 j) (E (prodt y1 y1) j) (E (prodt y2 y2) j).
Definition ss_n (ws : list (Z * Z)) (y1 y2 : T) (j : list Z) : F :=
  let E := blur_at fuel junk al kers pd ws in ssim_num F c (fmul K1 K1) (fmul K2 K2) (E y1 j) (E y2 j) (E (prodt y1 y2) j).
Definition ss_d (ws : list (Z * Z)) (y1 y2 : T) (j : list Z) : F :=
  let E := blur_at fuel junk al kers pd ws in ssim_den F c (fmul K1 K1) (fmul K2 K2) (E y1 j) (E y2 j) (E (prodt y1 y1) j) (E (prodt y2 y2) j).

(** The score of images of a level, from the map (cs or ssim) n/d; or the map has a zero divisor. *)
Definition level_scored (n d : list (Z * Z) -> T -> T -> list Z -> F) (y1 y2 score : T) : Prop :=
  exists psh osh ws, blur_facts fuel junk b al kers pd (shp y1) psh osh ws /\ scored al (crop_widths F crop pd al ws) osh (n ws y1 y2) (d ws y1 y2) score.
Definition level_zero (d : list (Z * Z) -> T -> T -> list Z -> F) (y1 y2 : T) : Prop :=
  exists psh osh ws j, blur_facts fuel junk b al kers pd (shp y1) psh osh ws /\ valid osh j /\ d ws y1 y2 j = f0.

Definition map_score (f : st T) : st T := sbind f (fun t => sbind (crop_border t axes) (fun t => ret (tmean t axes true))).

Lemma map_level (f : st T) n d s s' y1 y2 psh osh ws : blur_facts fuel junk b al kers pd (shp y1) psh osh ws -> level (shp y1) -> st_ok s ->
  good F b (match pd with None => None | Some _ => Some (NList ws) end) s s' ->
  ((exists full, f s = (s', Ok full) /\ shp full = osh /\ forall j, valid osh j -> d ws y1 y2 j <> f0 /\ at_ full j = fdiv (n ws y1 y2 j) (d ws y1 y2 j)) \/
   (f s = (s', Err ZeroDivisionError) /\ exists j, valid osh j /\ d ws y1 y2 j = f0)) ->
  (exists full cr score, f s = (s', Ok full) /\ crop_border full axes s' = (s', Ok cr) /\ tmean cr axes true = Ok score /\
     level_scored n d y1 y2 score /\ shp score = kept_shape (shp y1)) \/
  (f s = (s', Err ZeroDivisionError) /\ level_zero d y1 y2).
Proof.
  intros BF [L1 L2 L3 L4 _] SO G [[full [E [S V]]]|[E [j [Vj Zj]]]]; [left|right; split; auto; exists psh, osh, ws, j; auto].
  assert (Hc : ss_crop s = crop) by apply SO.
  destruct (crop_run F fuel junk b al kers pd (shp y1) psh osh ws BF L3 s s' full G S) as [cr [C1 [C2 C3]]]; auto.
  assert (Nc : ndim cr = length (shp y1)). { rewrite (co_nd _ _ _ _ _ C2). unfold ndim. rewrite S. eapply (osh_len F); eauto. }
  destruct (tmean_some F cr al true) as [score M]; auto. { rewrite Nc. exact L1. }
  exists full, cr, score. split; auto. split; auto. split; auto. split.
  - exists psh, osh, ws. split; auto. rewrite Hc in C2. exists full, cr. auto.
  - destruct (tmean_val F cr al true score) as [-> _]; auto; [rewrite Nc; exact L1|].
    assert (K : kept_shape (shp cr) = kept_shape (shp y1)).
    { apply kept_shape_eq; auto. intros d0 Hd. rewrite (co_other _ _ _ _ _ C2), S by auto. eapply (osh_other F); eauto. }
    exact K.
Qed.

Theorem cs_level s (y1 y2 : T) : level (shp y1) -> st_ok s -> shp y2 = shp y1 -> exists s', st_ok s' /\
  ((exists full cr score, cs_full (sep_forward fuel junk) y1 y2 axes s = (s', Ok full) /\ crop_border full axes s' = (s', Ok cr) /\ tmean cr axes true = Ok score /\
     level_scored cs_n cs_d y1 y2 score /\ shp score = kept_shape (shp y1)) \/
   (cs_full (sep_forward fuel junk) y1 y2 axes s = (s', Err ZeroDivisionError) /\ level_zero cs_d y1 y2)).
Proof.
  intros L SO H. destruct (lv_facts _ L) as [psh [osh [ws BF]]]. pose proof SO as [M [H1 [H2 [_ [_ Sc]]]]].
  destruct (cs_full_run F _ _ _ _ _ _ _ (bf_blurs _ _ _ _ _ _ _ _ _ _ BF) s y1 y2 c M eq_refl H Sc) as [s' [G R]]. rewrite H2 in R.
  exists s'. split; [eapply good_ok; eauto|]. exact (map_level _ cs_n cs_d s s' y1 y2 psh osh ws BF L SO G R).
Qed.
Theorem ssim_level s (y1 y2 : T) : level (shp y1) -> st_ok s -> shp y2 = shp y1 -> exists s', st_ok s' /\
  ((exists full cr score, ssim_full (sep_forward fuel junk) y1 y2 axes s = (s', Ok full) /\ crop_border full axes s' = (s', Ok cr) /\ tmean cr axes true = Ok score /\
     level_scored ss_n ss_d y1 y2 score /\ shp score = kept_shape (shp y1)) \/
   (ssim_full (sep_forward fuel junk) y1 y2 axes s = (s', Err ZeroDivisionError) /\ level_zero ss_d y1 y2)).
Proof.
  intros L SO H. destruct (lv_facts _ L) as [psh [osh [ws BF]]]. pose proof SO as [M [H1 [H2 [_ [_ Sc]]]]].
  destruct (ssim_full_run F _ _ _ _ _ _ _ (bf_blurs _ _ _ _ _ _ _ _ _ _ BF) s y1 y2 c M eq_refl H Sc) as [s' [G R]]. rewrite H1, H2 in R.
  exists s'. split; [eapply good_ok; eauto|]. exact (map_level _ ss_n ss_d s s' y1 y2 psh osh ws BF L SO G R).
Qed.

(** *** consequences for a level's score *)
Lemma score_facts n d (y1 y2 score : T) : level (shp y1) -> level_scored n d y1 y2 score ->
  exists psh osh ws cr, blur_facts fuel junk b al kers pd (shp y1) psh osh ws /\ (forall a, In a al -> (a < ndim cr)%nat) /\ NoDup al /\
    (forall k, In k (shp cr) -> 1 <= k) /\ tmean cr axes true = Ok score /\
    forall j, valid (shp cr) j -> exists i, valid osh i /\ d ws y1 y2 i <> f0 /\ at_ cr j = fdiv (n ws y1 y2 i) (d ws y1 y2 i).
Proof.
  intros L [psh [osh [ws [BF [full [cr [S [V [C [P M]]]]]]]]]]. exists psh, osh, ws, cr. split; auto. split.
  { rewrite (co_nd _ _ _ _ _ C). unfold ndim. rewrite S, (osh_len F _ _ _ _ _ _ _ _ _ _ BF). apply (lv_axes _ L). }
  split; [apply (lv_nodup _ L)|]. split; auto. split; auto. intros j Vj. destruct (co_val _ _ _ _ _ C j Vj) as [Vi ->]. rewrite S in Vi. eexists. split; [exact Vi|]. apply V. auto.
Qed.
Lemma score_one n d (y : T) score : level (shp y) -> (forall ws j, n ws y y j = d ws y y j) -> level_scored n d y y score -> constant_image f1 score.
Proof.
  intros L E H. destruct (score_facts n d y y score L H) as [psh [osh [ws [cr [BF [A [N [P [M V]]]]]]]]].
  eapply tmean_const; eauto. intros j Vj. destruct (V j Vj) as [i [Vi [Nz ->]]]. rewrite E. field. exact Nz.
Qed.
Lemma cs_self ws y j : cs_n ws y y j = cs_d ws y y j.
Proof. unfold cs_n, cs_d, cs_num, cs_den, two. ring. Qed.
Lemma ss_self ws y j : ss_n ws y y j = ss_d ws y y j.
Proof. apply self_num_den. Qed.
Lemma score_range n d (y1 y2 : T) score : level (shp y1) ->
  (forall psh osh ws j, blur_facts fuel junk b al kers pd (shp y1) psh osh ws -> valid osh j ->
     fle f0 (fsub (d ws y1 y2 j) (n ws y1 y2 j)) /\ fle f0 (fadd (d ws y1 y2 j) (n ws y1 y2 j)) /\ flt f0 (d ws y1 y2 j)) ->
  level_scored n d y1 y2 score -> in_range (fopp f1) f1 score.
Proof.
  intros L E H. destruct (score_facts n d y1 y2 score L H) as [psh [osh [ws [cr [BF [A [N [P [M V]]]]]]]]].
  eapply tmean_range; eauto. intros j Vj. destruct (V j Vj) as [i [Vi [Nz ->]]]. destruct (E psh osh ws i BF Vi) as [A1 [A2 A3]]. apply ratio_range; auto. now apply flt_fle.
Qed.
Lemma cs_proper (y1 y2 : T) : shp y2 = shp y1 -> window F kers -> proper_padder (length al) pd -> fle f0 c -> K2 <> f0 ->
  forall psh osh ws j, blur_facts fuel junk b al kers pd (shp y1) psh osh ws -> valid osh j ->
     fle f0 (fsub (cs_d ws y1 y2 j) (cs_n ws y1 y2 j)) /\ fle f0 (fadd (cs_d ws y1 y2 j) (cs_n ws y1 y2 j)) /\ flt f0 (cs_d ws y1 y2 j).
Proof.
  intros Hs W PM Hc H2 psh osh ws j BF Vj.
  assert (Mo : moments F fuel junk al kers pd osh ws y1 y2).
  { destruct pd as [p|]; [destruct PM as [PM|PM]|]; [eapply moments_product|eapply moments_average|eapply moments_product]; eauto. }
  assert (P2 : flt f0 (fmul K2 K2)) by now apply sq_pos.
  destruct (Mo j Vj) as [M1 M2]. destruct (cs_bounds F c _ _ _ _ _ _ Hc (flt_fle F _ _ P2) M1 M2) as [D1 [D2 D3]]. split; auto. split; auto.
  exact (flt_fle_trans F _ _ _ P2 D3).
Qed.
Lemma ss_proper (y1 y2 : T) : shp y2 = shp y1 -> window F kers -> proper_padder (length al) pd -> fle f0 c -> K1 <> f0 -> K2 <> f0 ->
  forall psh osh ws j, blur_facts fuel junk b al kers pd (shp y1) psh osh ws -> valid osh j ->
     fle f0 (fsub (ss_d ws y1 y2 j) (ss_n ws y1 y2 j)) /\ fle f0 (fadd (ss_d ws y1 y2 j) (ss_n ws y1 y2 j)) /\ flt f0 (ss_d ws y1 y2 j).
Proof.
  intros Hs W PM Hc H1 H2 psh osh ws j BF Vj. destruct (cs_proper y1 y2 Hs W PM Hc H2 psh osh ws j BF Vj) as [D1 [D2 D3]].
  assert (P1 : flt f0 (fmul K1 K1)) by now apply sq_pos.
  destruct (lum_bounds F (fmul K1 K1) (blur_at fuel junk al kers pd ws y1 j) (blur_at fuel junk al kers pd ws y2 j) (flt_fle F _ _ P1)) as [L1 [L2 L3]].
  destruct (abs_mul F _ _ _ _ L1 L2 D1 D2) as [A1 [A2 A3]]. split; auto. split; auto.
  unfold ss_d, ssim_den. apply fmul_pos; [exact (flt_fle_trans F _ _ _ P1 L3)|exact D3].
Qed.
End OneLevel.
End Levels.
