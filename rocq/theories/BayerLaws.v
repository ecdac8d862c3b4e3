(** Symmetries of the demosaicing filter (gradient_corrected.py): mirror images, the transposed image,
    red and blue exchanged; brightness, contrast and sums. *)
From Coq Require Import Ascii String.
From Verif Require Export PoolFlip GradColor.
Import List. Import ListNotations.
Local Notation length := List.length.
Open Scope string_scope.
Open Scope list_scope.
Open Scope Z_scope.

(** ** parities *)
Lemma letter_parity sa i j i' j' : i mod 2 = i' mod 2 -> j mod 2 = j' mod 2 -> letter_at sa i j = letter_at sa i' j'.
Proof. intros H H'. unfold letter_at. now rewrite H, H'. Qed.
Lemma mirror_parity n j : (2 * n - 1 - j) mod 2 = (j + 1) mod 2.
Proof. replace (2 * n - 1 - j) with (j + 1 + (n - 1 - j) * 2) by ring. apply Z.mod_add. lia. Qed.
Lemma parity2 j : (j + 1 + 1) mod 2 = j mod 2.
Proof. replace (j + 1 + 1) with (j + 1 * 2) by ring. apply Z.mod_add. lia. Qed.
Lemma parity_cong i j : i mod 2 = j mod 2 -> (i + 1) mod 2 = (j + 1) mod 2.
Proof. intros H. rewrite !mod2_succ. lia. Qed.
Lemma reflect_mirror n t : 2 <= n -> reflect n (n - 1 - t) = n - 1 - reflect n t.
Proof.
  intros Hn. unfold reflect. replace (n =? 1) with false by (symmetry; apply Z.eqb_neq; lia). cbv zeta.
  pose proof (Z.mod_pos_bound t (2 * n - 2) ltac:(lia)) as B. pose proof (Z.div_mod t (2 * n - 2) ltac:(lia)) as D.
  set (q := t mod (2 * n - 2)) in *. set (d := t / (2 * n - 2)) in *.
  destruct (Z.leb_spec q (n - 1)).
  - replace ((n - 1 - t) mod (2 * n - 2)) with (n - 1 - q).
    + replace (q <? n) with true by (symmetry; apply Z.ltb_lt; lia). replace (n - 1 - q <? n) with true by (symmetry; apply Z.ltb_lt; lia). reflexivity.
    + apply Z.mod_unique with (q := - d); [left; lia|]. rewrite D. ring.
  - replace ((n - 1 - t) mod (2 * n - 2)) with (n - 1 - q + (2 * n - 2)).
    + replace (q <? n) with false by (symmetry; apply Z.ltb_ge; lia).
      destruct (Z.ltb_spec (n - 1 - q + (2 * n - 2)) n); lia.
    + apply Z.mod_unique with (q := - d - 1); [left; lia|]. rewrite D. ring.
Qed.

(** The class of a pixel under the symmetries. *)
Definition swap_pos (q : pos) : pos := match q with PR => PB | PB => PR | PGR => PGB | PGB => PGR end.
Definition turn_pos (q : pos) : pos := match q with PR => PR | PB => PB | PGR => PGB | PGB => PGR end.
Definition swap_letter (c : ascii) : ascii := if Ascii.eqb c "R" then "B"%char else if Ascii.eqb c "B" then "R"%char else c.

(** All about one pattern is decided by its four letters. *)
Lemma pattern_at sa i j : In sa patterns ->
  exists r c, (r = 0 \/ r = 1) /\ (c = 0 \/ c = 1) /\ i mod 2 = r /\ j mod 2 = c /\
    forall q, in_class sa i j q <-> in_class sa r c q.
Proof.
  intros H. exists (i mod 2), (j mod 2). split; [apply mod2|]. split; [apply mod2|]. split; auto. split; auto.
  intros q. unfold in_class, letter_at. rewrite !mod2_succ, !Z.mod_mod by lia. reflexivity.
Qed.

Lemma class_mirror_cols sa sa' n i j q : In sa patterns -> In sa' patterns ->
  (forall i j, letter_at sa' i j = letter_at sa i (j + 1)) ->
  in_class sa' i j q <-> in_class sa i (2 * n - 1 - j) q.
Proof.
  intros H H' E. unfold in_class. rewrite !E.
  rewrite (letter_parity sa i (2 * n - 1 - j) i (j + 1)) by (auto; apply mirror_parity).
  rewrite (letter_parity sa i (2 * n - 1 - j + 1) i (j + 1 + 1)) by (auto; apply parity_cong, mirror_parity).
  reflexivity.
Qed.
Lemma class_mirror_rows sa sa' m i j q : In sa patterns -> In sa' patterns ->
  (forall i j, letter_at sa' i j = letter_at sa (i + 1) j) ->
  in_class sa' i j q <-> in_class sa (2 * m - 1 - i) j q.
Proof.
  intros H H' E. unfold in_class. rewrite !E.
  rewrite (letter_parity sa (2 * m - 1 - i) j (i + 1) j) by (auto; apply mirror_parity).
  rewrite (letter_parity sa (2 * m - 1 - i) (j + 1) (i + 1) (j + 1)) by (auto; apply mirror_parity).
  reflexivity.
Qed.
Lemma class_turn sa sa' i j q : In sa patterns -> In sa' patterns ->
  (forall i j, letter_at sa' i j = letter_at sa j i) ->
  in_class sa' i j q <-> in_class sa j i (turn_pos q).
Proof.
  intros H H' E.
  assert (E4 := E 0 0). assert (E5 := E 0 1). assert (E6 := E 1 0). assert (E7 := E 1 1).
  unfold in_class, letter_at in *. rewrite !mod2_succ.
  destruct H as [<-|[<-|[<-|[<-|[]]]]], H' as [<-|[<-|[<-|[<-|[]]]]]; vm_compute in E4, E5, E6, E7; try discriminate;
  destruct (mod2 i) as [->| ->], (mod2 j) as [->| ->], q; vm_compute; intuition congruence.
Qed.
Lemma class_swap sa sa' i j q : In sa patterns -> In sa' patterns ->
  (forall i j, letter_at sa' i j = option_map swap_letter (letter_at sa i j)) ->
  in_class sa' i j q <-> in_class sa i j (swap_pos q).
Proof.
  intros H H' E.
  assert (E4 := E 0 0). assert (E5 := E 0 1). assert (E6 := E 1 0). assert (E7 := E 1 1).
  unfold in_class, letter_at in *. rewrite !mod2_succ.
  destruct H as [<-|[<-|[<-|[<-|[]]]]], H' as [<-|[<-|[<-|[<-|[]]]]]; vm_compute in E4, E5, E6, E7; try discriminate;
  destruct (mod2 i) as [->| ->], (mod2 j) as [->| ->], q; vm_compute; intuition congruence.
Qed.

Section Laws.
Variable F : ofield.
Add Field Fbl : (f_field F).
Notation T := (tensor F).

(** The value of the filter for channel k of a pixel of class q at (i, j). *)
Definition interp (x : T) (h w : Z) (q : pos) (k : Z) (p : list Z) (i j : Z) : F :=
  fsum 5 (fun a => fsum 5 (fun b =>
    fmul (mat_at (wf_dict k q) a b) (at_ x (p ++ [0; reflect h (i + a - 2); reflect w (j + b - 2)])))).
Definition pixel (x : T) (h w : Z) (q : pos) (k : Z) (p : list Z) (i j : Z) : F :=
  if k =? pos_color q then at_ x (p ++ [0; i; j]) else interp x h w q k p i j.

(** [PreTrainedBilinearInterpolator.forward] before the clamp (bayer_conv_2d.py:173-174). *)
Definition demosaic_raw (j1 j2 : list Z -> F) (x : T) (s : string) : res T :=
  y <- bayer_forward j1 gradient_corrected_interpolator x s ;; last_step_demosaic j2 x y s.
Lemma demosaic_of_raw j1 j2 x s cl : demosaic j1 j2 x s cl = (r <- demosaic_raw j1 j2 x s ;; Ok (tmap (fclamp f0 cl) r)).
Proof. unfold demosaic, demosaic_with, demosaic_raw. now destruct (bayer_forward _ _ _ _). Qed.

Section One.
Variables (pre : list Z) (m n : Z).
Hypothesis Hpre : nonneg pre.
Hypothesis Hm : 0 <= m.
Hypothesis Hn : 0 <= n.
Variables (s sa : string).
Hypothesis Hsa : In sa patterns.
Hypothesis Hv : case_variant s sa.

Lemma raw_pixel j1 j2 x z : shp x = pre ++ [1; 2 * m; 2 * n] -> demosaic_raw j1 j2 x s = Ok z ->
  shp z = pre ++ [3; 2 * m; 2 * n] /\
  forall p k i j q, valid pre p -> 0 <= k < 3 -> 0 <= i < 2 * m -> 0 <= j < 2 * n -> in_class sa i j q ->
    at_ z (p ++ [k; i; j]) = pixel x (2 * m) (2 * n) q k p i j.
Proof using Hpre Hm Hn Hsa Hv.
  intros Hs E. unfold demosaic_raw in E. destruct (bayer_forward _ _ _ _) as [y|] eqn:Ey; [|discriminate]. cbn [bind] in E.
  destruct (bayer_conv_values F pre 1 m n gradient_corrected_interpolator x s sa j1 y Hpre Hm Hn Hs ltac:(cbn; lia) ltac:(cbn; lia) Hsa Hv Ey) as [Sy Vy].
  change (bc_out gradient_corrected_interpolator) with 2 in Sy, Vy.
  destruct (last_step_spec pre m n Hpre Hm Hn s sa Hsa Hv j2 x y 2 ltac:(lia) Hs Sy) as (z' & Ez & Sz & Vz).
  rewrite E in Ez. injection Ez as <-. split; auto. intros p k i j q Vp Hk Hi Hj Hq. rewrite Vz by auto. cbv zeta.
  destruct (beg_index_spec sa Hsa) as (f & Ef & _).
  assert (Hq' : f q = (i mod 2, j mod 2)) by now apply (in_class_beg sa f).
  assert (C : chan sa (2 * (i mod 2) + j mod 2) = pos_color q). { rewrite (pos_color_chan sa Hsa f Ef q), Hq'. reflexivity. }
  rewrite C. unfold pixel. destruct (Z.eqb_spec k (pos_color q)) as [|Nk]; auto.
  set (o := if k <? pos_color q then k else k - 1).
  assert (Ho : 0 <= o < 2 /\ (if o =? 0 then fst (pos_others q) else snd (pos_others q)) = k).
  { unfold o. apply cases3 in Hk. destruct q; cbn [pos_color pos_others fst snd] in *; destruct Hk as [->|[->| ->]]; vm_compute; try (now contradiction Nk); repeat split; congruence. }
  destruct Ho as [Ho Eo]. rewrite (Vy p o i j q) by auto.
  unfold conv_at, gradient_corrected_interpolator, interpolator, interp. cbn [bc_k bc_w bc_bias bc_in]. rewrite Eo.
  change (fsum 1 ?f) with (fadd f0 (f 0)). change (5 / 2) with 2. cbv beta. ring.
Qed.
Lemma raw_defined j1 j2 x : shp x = pre ++ [1; 2 * m; 2 * n] -> (length pre <= 1)%nat -> 2 <= m -> 2 <= n ->
  exists z, demosaic_raw j1 j2 x s = Ok z.
Proof using Hpre Hm Hn Hsa Hv.
  intros Hs L H1 H2.
  destruct (proj2 (demosaic_defined F pre m n gradient_corrected_interpolator x s sa f1 j1 j2 Hpre Hm Hn Hs eq_refl eq_refl ltac:(cbn; lia) Hsa Hv)) as [z Hz].
  { cbn [bc_k gradient_corrected_interpolator interpolator]. change (5 / 2) with 2. repeat split; try lia; auto. }
  change (demosaic j1 j2 x s f1 = Ok z) in Hz. rewrite demosaic_of_raw in Hz. destruct (demosaic_raw _ _ _ _); eauto; discriminate.
Qed.
Lemma raw_size j1 j2 x z : shp x = pre ++ [1; 2 * m; 2 * n] -> demosaic_raw j1 j2 x s = Ok z ->
  (length pre <= 1)%nat /\ 2 <= m /\ 2 <= n.
Proof using Hpre Hm Hn Hsa Hv.
  intros Hs E.
  destruct (proj1 (demosaic_defined F pre m n gradient_corrected_interpolator x s sa f1 j1 j2 Hpre Hm Hn Hs eq_refl eq_refl ltac:(cbn; lia) Hsa Hv)) as (A1 & A2 & A3 & _).
  { exists (tmap (fclamp f0 f1) z). change (demosaic j1 j2 x s f1 = Ok (tmap (fclamp f0 f1) z)). rewrite demosaic_of_raw, E. reflexivity. }
  cbn [bc_k gradient_corrected_interpolator interpolator] in A2, A3. change (5 / 2) with 2 in A2, A3. repeat split; auto; lia.
Qed.
End One.

(** From the raw result to the clamped one. *)
Lemma clamped_pixel pre m n s sa cl j1 j2 x z : nonneg pre -> 0 <= m -> 0 <= n -> In sa patterns -> case_variant s sa ->
  shp x = pre ++ [1; 2 * m; 2 * n] -> demosaic j1 j2 x s cl = Ok z ->
  shp z = pre ++ [3; 2 * m; 2 * n] /\ ((length pre <= 1)%nat /\ 2 <= m /\ 2 <= n) /\
  forall p k i j q, valid pre p -> 0 <= k < 3 -> 0 <= i < 2 * m -> 0 <= j < 2 * n -> in_class sa i j q ->
    at_ z (p ++ [k; i; j]) = fclamp f0 cl (pixel x (2 * m) (2 * n) q k p i j).
Proof.
  intros Hp Hm Hn Hsa Hv Hs E. rewrite demosaic_of_raw in E. destruct (demosaic_raw _ _ _ _) as [r|] eqn:Er; [|discriminate].
  injection E as <-. destruct (raw_pixel pre m n Hp Hm Hn s sa Hsa Hv j1 j2 x r Hs Er) as [Sr Vr].
  split; auto. split; [eapply raw_size; eauto|]. intros. cbn [tmap at_]. erewrite Vr; eauto.
Qed.
Lemma clamped_defined pre m n s sa cl j1 j2 (x : T) : nonneg pre -> 0 <= m -> 0 <= n -> In sa patterns -> case_variant s sa ->
  shp x = pre ++ [1; 2 * m; 2 * n] -> (length pre <= 1)%nat /\ 2 <= m /\ 2 <= n -> exists z, demosaic j1 j2 x s cl = Ok z.
Proof.
  intros Hp Hm Hn Hsa Hv Hs (A & B & C). rewrite demosaic_of_raw.
  destruct (raw_defined pre m n Hp Hm Hn s sa Hsa Hv j1 j2 x Hs A B C) as [z ->]. cbn [bind]. eauto.
Qed.

(** ** symmetries of the kernels *)
Lemma wf_flip_cols k q a b : 0 <= a < 5 -> 0 <= b < 5 -> mat_at (wf_dict k q) a (4 - b) = (mat_at (wf_dict k q) a b : F).
Proof.
  intros Ha Hb. apply cases5 in Ha, Hb. destruct q; unfold wf_dict; destruct (_ =? _);
  destruct Ha as [->|[->|[->|[->| ->]]]], Hb as [->|[->|[->|[->| ->]]]]; reflexivity.
Qed.
Lemma wf_flip_rows k q a b : 0 <= a < 5 -> 0 <= b < 5 -> mat_at (wf_dict k q) (4 - a) b = (mat_at (wf_dict k q) a b : F).
Proof.
  intros Ha Hb. apply cases5 in Ha, Hb. destruct q; unfold wf_dict; destruct (_ =? _);
  destruct Ha as [->|[->|[->|[->| ->]]]], Hb as [->|[->|[->|[->| ->]]]]; reflexivity.
Qed.
Lemma wf_turn k q a b : 0 <= k < 3 -> k <> pos_color q -> 0 <= a < 5 -> 0 <= b < 5 ->
  mat_at (wf_dict k (turn_pos q)) b a = (mat_at (wf_dict k q) a b : F).
Proof.
  intros Hk Nk Ha Hb. apply cases3 in Hk. apply cases5 in Ha, Hb. destruct q, Hk as [->|[->| ->]]; try (now contradiction Nk);
  destruct Ha as [->|[->|[->|[->| ->]]]], Hb as [->|[->|[->|[->| ->]]]]; reflexivity.
Qed.
Lemma wf_swap k q : 0 <= k < 3 -> k <> pos_color q -> wf_dict (2 - k) (swap_pos q) = (wf_dict k q : @matrix F).
Proof.
  intros Hk Nk. apply cases3 in Hk. destruct q, Hk as [->|[->| ->]]; try (now contradiction Nk); reflexivity.
Qed.

Section Two.
Variables (pre : list Z) (m n : Z).
Hypothesis Hpre : nonneg pre.
Hypothesis Hm : 0 <= m.
Hypothesis Hn : 0 <= n.
Variables (s sa s' sa' : string).
Hypothesis Hsa : In sa patterns.
Hypothesis Hv : case_variant s sa.
Hypothesis Hsa' : In sa' patterns.
Hypothesis Hv' : case_variant s' sa'.
Variables (cl : F) (x x' : T) (j1 j2 j1' j2' : list Z -> F).
Hypothesis Hs : shp x = pre ++ [1; 2 * m; 2 * n].

Lemma demosaic_mirror_cols z : shp x' = shp x ->
  (forall p i j, valid pre p -> 0 <= i < 2 * m -> 0 <= j < 2 * n -> at_ x' (p ++ [0; i; j]) = at_ x (p ++ [0; i; 2 * n - 1 - j])) ->
  (forall i j, letter_at sa' i j = letter_at sa i (j + 1)) ->
  demosaic j1 j2 x s cl = Ok z ->
  exists z', demosaic j1' j2' x' s' cl = Ok z' /\ shp z' = shp z /\
    forall p k i j, valid pre p -> 0 <= k < 3 -> 0 <= i < 2 * m -> 0 <= j < 2 * n ->
      at_ z' (p ++ [k; i; j]) = at_ z (p ++ [k; i; 2 * n - 1 - j]).
Proof using Hpre Hm Hn Hsa Hv Hsa' Hv' Hs.
  intros Hs' Hx E Hz. destruct (clamped_pixel pre m n s sa cl j1 j2 x z) as (Sz & D & Vz); auto.
  rewrite Hs in Hs'. destruct (clamped_defined pre m n s' sa' cl j1' j2' x') as [z' Hz']; auto. exists z'. split; auto.
  destruct (clamped_pixel pre m n s' sa' cl j1' j2' x' z') as (Sz' & _ & Vz'); auto. split; [congruence|].
  intros p k i j Vp Hk Hi Hj. destruct (in_class_total sa' i j Hsa') as (q & Hq & _).
  rewrite (Vz' p k i j q) by auto. rewrite (Vz p k i (2 * n - 1 - j) q); auto; [|lia|now apply (class_mirror_cols sa sa')].
  f_equal. unfold pixel. destruct (_ =? _); [now apply Hx|]. unfold interp. apply fsum_ext; intros a Ha.
  rewrite fsum_rev by lia. apply fsum_ext; intros b Hb. cbv beta. change (5 - 1) with 4. rewrite wf_flip_cols by auto. f_equal.
  rewrite Hx by (auto; apply reflect_in; lia). f_equal. f_equal. f_equal. f_equal. f_equal.
  rewrite <- reflect_mirror by lia. f_equal. lia.
Qed.
Lemma demosaic_mirror_rows z : shp x' = shp x ->
  (forall p i j, valid pre p -> 0 <= i < 2 * m -> 0 <= j < 2 * n -> at_ x' (p ++ [0; i; j]) = at_ x (p ++ [0; 2 * m - 1 - i; j])) ->
  (forall i j, letter_at sa' i j = letter_at sa (i + 1) j) ->
  demosaic j1 j2 x s cl = Ok z ->
  exists z', demosaic j1' j2' x' s' cl = Ok z' /\ shp z' = shp z /\
    forall p k i j, valid pre p -> 0 <= k < 3 -> 0 <= i < 2 * m -> 0 <= j < 2 * n ->
      at_ z' (p ++ [k; i; j]) = at_ z (p ++ [k; 2 * m - 1 - i; j]).
Proof using Hpre Hm Hn Hsa Hv Hsa' Hv' Hs.
  intros Hs' Hx E Hz. destruct (clamped_pixel pre m n s sa cl j1 j2 x z) as (Sz & D & Vz); auto.
  rewrite Hs in Hs'. destruct (clamped_defined pre m n s' sa' cl j1' j2' x') as [z' Hz']; auto. exists z'. split; auto.
  destruct (clamped_pixel pre m n s' sa' cl j1' j2' x' z') as (Sz' & _ & Vz'); auto. split; [congruence|].
  intros p k i j Vp Hk Hi Hj. destruct (in_class_total sa' i j Hsa') as (q & Hq & _).
  rewrite (Vz' p k i j q) by auto. rewrite (Vz p k (2 * m - 1 - i) j q); auto; [|lia|now apply (class_mirror_rows sa sa')].
  f_equal. unfold pixel. destruct (_ =? _); [now apply Hx|]. unfold interp. rewrite fsum_rev by lia. apply fsum_ext; intros a Ha.
  apply fsum_ext; intros b Hb. cbv beta. change (5 - 1) with 4. rewrite wf_flip_rows by auto. f_equal.
  rewrite Hx by (auto; apply reflect_in; lia). f_equal. f_equal. f_equal. f_equal; auto.
  rewrite <- reflect_mirror by lia. f_equal. lia.
Qed.
Lemma demosaic_transpose z : shp x' = pre ++ [1; 2 * n; 2 * m] ->
  (forall p i j, valid pre p -> 0 <= i < 2 * n -> 0 <= j < 2 * m -> at_ x' (p ++ [0; i; j]) = at_ x (p ++ [0; j; i])) ->
  (forall i j, letter_at sa' i j = letter_at sa j i) ->
  demosaic j1 j2 x s cl = Ok z ->
  exists z', demosaic j1' j2' x' s' cl = Ok z' /\ shp z' = pre ++ [3; 2 * n; 2 * m] /\
    forall p k i j, valid pre p -> 0 <= k < 3 -> 0 <= i < 2 * n -> 0 <= j < 2 * m ->
      at_ z' (p ++ [k; i; j]) = at_ z (p ++ [k; j; i]).
Proof using Hpre Hm Hn Hsa Hv Hsa' Hv' Hs.
  intros Hs' Hx E Hz. destruct (clamped_pixel pre m n s sa cl j1 j2 x z) as (Sz & (D1 & D2 & D3) & Vz); auto.
  destruct (clamped_defined pre n m s' sa' cl j1' j2' x') as [z' Hz']; auto. exists z'. split; auto.
  destruct (clamped_pixel pre n m s' sa' cl j1' j2' x' z') as (Sz' & _ & Vz'); auto. split; [congruence|].
  intros p k i j Vp Hk Hi Hj. destruct (in_class_total sa' i j Hsa') as (q & Hq & _).
  rewrite (Vz' p k i j q) by auto. rewrite (Vz p k j i (turn_pos q)); auto; [|now apply (class_turn sa sa')].
  assert (C : pos_color (turn_pos q) = pos_color q) by (destruct q; reflexivity).
  f_equal. unfold pixel. rewrite C. destruct (Z.eqb_spec k (pos_color q)) as [|Nk]; [now apply Hx|]. unfold interp.
  rewrite fsum_swap. apply fsum_ext; intros a Ha. apply fsum_ext; intros b Hb. rewrite wf_turn by auto. f_equal.
  now rewrite Hx by (auto; apply reflect_in; lia).
Qed.
Lemma demosaic_swap z : (forall i j, letter_at sa' i j = option_map swap_letter (letter_at sa i j)) ->
  demosaic j1 j2 x s cl = Ok z ->
  exists z', demosaic j1' j2' x s' cl = Ok z' /\ shp z' = shp z /\
    forall p k i j, valid pre p -> 0 <= k < 3 -> 0 <= i < 2 * m -> 0 <= j < 2 * n ->
      at_ z' (p ++ [k; i; j]) = at_ z (p ++ [2 - k; i; j]).
Proof using Hpre Hm Hn Hsa Hv Hsa' Hv' Hs.
  intros E Hz. destruct (clamped_pixel pre m n s sa cl j1 j2 x z) as (Sz & D & Vz); auto.
  destruct (clamped_defined pre m n s' sa' cl j1' j2' x) as [z' Hz']; auto. exists z'. split; auto.
  destruct (clamped_pixel pre m n s' sa' cl j1' j2' x z') as (Sz' & _ & Vz'); auto. split; [congruence|].
  intros p k i j Vp Hk Hi Hj. destruct (in_class_total sa' i j Hsa') as (q & Hq & _).
  rewrite (Vz' p k i j q) by auto. rewrite (Vz p (2 - k) i j (swap_pos q)); auto; [|lia|now apply (class_swap sa sa')].
  assert (C : pos_color (swap_pos q) = 2 - pos_color q) by (destruct q; reflexivity).
  f_equal. unfold pixel. rewrite C. replace (2 - k =? 2 - pos_color q) with (k =? pos_color q) by (destruct (Z.eqb_spec k (pos_color q)); symmetry; [apply Z.eqb_eq|apply Z.eqb_neq]; lia).
  destruct (Z.eqb_spec k (pos_color q)) as [|Nk]; auto. unfold interp. now rewrite wf_swap by auto.
Qed.
End Two.

(** ** sums, contrast and brightness *)
Lemma wf_sum k q : fsum 5 (fun a => fsum 5 (fun b => mat_at (wf_dict k q) a b)) = (f1 : F).
Proof.
  destruct (wf_dict_kernel F k q) as (l & K & B).
  pose proof (affine_kernel F (wf_dict k q) l f1 f0 f0 f0 f0 K B) as E.
  transitivity (fadd (fadd f1 (fmul f0 f0)) (fmul f0 f0) : F); [|ring]. rewrite <- E.
  apply fsum_ext; intros a Ha. apply fsum_ext; intros b Hb. ring.
Qed.
(** w = c x + d y + e at every pixel *)
Definition mix (pre : list Z) (h w : Z) (c d e : F) (x y v : T) : Prop :=
  forall p i j, valid pre p -> 0 <= i < h -> 0 <= j < w ->
    at_ v (p ++ [0; i; j]) = fadd (fadd (fmul c (at_ x (p ++ [0; i; j]))) (fmul d (at_ y (p ++ [0; i; j])))) e.
Lemma pixel_mix pre h w c d e x y v q k p i j : 1 <= h -> 1 <= w -> mix pre h w c d e x y v ->
  valid pre p -> 0 <= i < h -> 0 <= j < w ->
  pixel v h w q k p i j = fadd (fadd (fmul c (pixel x h w q k p i j)) (fmul d (pixel y h w q k p i j))) e.
Proof.
  intros Hh Hw H Vp Hi Hj. unfold pixel. destruct (_ =? _); [now apply H|]. unfold interp.
  transitivity (fadd (fadd (fmul c (fsum 5 (fun a => fsum 5 (fun b =>
    fmul (mat_at (wf_dict k q) a b) (at_ x (p ++ [0; reflect h (i + a - 2); reflect w (j + b - 2)]))))))
    (fmul d (fsum 5 (fun a => fsum 5 (fun b =>
    fmul (mat_at (wf_dict k q) a b) (at_ y (p ++ [0; reflect h (i + a - 2); reflect w (j + b - 2)])))))))
    (fmul e (fsum 5 (fun a => fsum 5 (fun b => mat_at (wf_dict k q) a b))))); [|rewrite wf_sum; ring].
  rewrite <- !fsum_mul, <- !fsum_add. apply fsum_ext; intros a Ha. rewrite <- !fsum_mul, <- !fsum_add. apply fsum_ext; intros b Hb.
  rewrite H by (auto; apply reflect_in; lia). ring.
Qed.

Lemma raw_mix pre m n s sa c d e (x y v zx zy : T) jx jx' jy jy' jv jv' :
  nonneg pre -> 0 <= m -> 0 <= n -> In sa patterns -> case_variant s sa ->
  shp x = pre ++ [1; 2 * m; 2 * n] -> shp y = shp x -> shp v = shp x -> mix pre (2 * m) (2 * n) c d e x y v ->
  demosaic_raw jx jx' x s = Ok zx -> demosaic_raw jy jy' y s = Ok zy ->
  exists zv, demosaic_raw jv jv' v s = Ok zv /\ shp zv = pre ++ [3; 2 * m; 2 * n] /\
    forall i, valid (shp zv) i -> at_ zv i = fadd (fadd (fmul c (at_ zx i)) (fmul d (at_ zy i))) e.
Proof.
  intros Hp Hm Hn Hsa Hv Hs Sy Sv H Ex Ey. rewrite Hs in Sy, Sv.
  destruct (raw_pixel pre m n Hp Hm Hn s sa Hsa Hv jx jx' x zx Hs Ex) as [Szx Vx].
  destruct (raw_pixel pre m n Hp Hm Hn s sa Hsa Hv jy jy' y zy Sy Ey) as [Szy Vy].
  destruct (raw_size pre m n Hp Hm Hn s sa Hsa Hv jx jx' x zx Hs Ex) as (L & M1 & N1).
  destruct (raw_defined pre m n Hp Hm Hn s sa Hsa Hv jv jv' v Sv L M1 N1) as [zv Ev]. exists zv. split; auto.
  destruct (raw_pixel pre m n Hp Hm Hn s sa Hsa Hv jv jv' v zv Sv Ev) as [Szv Vv]. split; auto.
  rewrite Szv. intros i Vi. apply valid_app_inv in Vi as (p & i3 & -> & Vp & Vi). apply valid3 in Vi as (k & i & j & -> & Hk & Hi & Hj).
  destruct (in_class_total sa i j Hsa) as (q & Hq & _).
  rewrite (Vv p k i j q), (Vx p k i j q), (Vy p k i j q) by auto. apply (pixel_mix pre); auto; lia.
Qed.

Lemma fclamp_range (hi v : F) : fle f0 hi -> fle f0 (fclamp f0 hi v) /\ fle (fclamp f0 hi v) hi.
Proof.
  intros H. unfold fclamp. destruct (fleb f0 v) eqn:E1.
  - destruct (fleb v hi) eqn:E2; split; auto; apply fle_refl.
  - destruct (fleb f0 hi) eqn:E2; [split; [apply fle_refl|exact E2]|]. unfold fle in H. congruence.
Qed.
Lemma leb_false (a b : F) : fleb a b = false -> fle b a.
Proof. intros H. destruct (fle_total F a b) as [H'|]; auto. unfold fle in H'. congruence. Qed.
Lemma fclamp_scale (c hi v : F) : fle f0 c -> fle f0 hi -> fclamp f0 (fmul c hi) (fmul c v) = fmul c (fclamp f0 hi v).
Proof.
  intros Hc Hh. assert (Z0 : fle f0 (fmul c hi)). { replace (f0 : F) with (fmul c f0) by ring. now apply fmul_le_l. }
  assert (LE : forall a b : F, fle a b -> fleb a b = true) by (intros a b H; exact H).
  destruct (fle_total F f0 v) as [H1|H1].
  - assert (Z1 : fle f0 (fmul c v)). { replace (f0 : F) with (fmul c f0) by ring. now apply fmul_le_l. }
    unfold fclamp. rewrite (LE _ _ Z1), (LE _ _ H1). destruct (fle_total F v hi) as [H2|H2].
    + assert (Z2 : fle (fmul c v) (fmul c hi)) by now apply fmul_le_l. now rewrite (LE _ _ Z2), (LE _ _ H2).
    + assert (Z2 : fle (fmul c hi) (fmul c v)) by now apply fmul_le_l.
      destruct (fleb (fmul c v) (fmul c hi)) eqn:E3, (fleb v hi) eqn:E4; auto.
      now rewrite (fle_antisym F _ _ E3 Z2).
      now rewrite (fle_antisym F _ _ E4 H2).
  - assert (Z1 : fle (fmul c v) f0). { replace (f0 : F) with (fmul c f0) by ring. now apply fmul_le_l. }
    assert (A : fclamp f0 hi v = f0).
    { unfold fclamp. destruct (fleb f0 v) eqn:E; [rewrite (fle_antisym F _ _ H1 E)|]; now rewrite (LE _ _ Hh). }
    assert (B : fclamp f0 (fmul c hi) (fmul c v) = f0).
    { unfold fclamp. destruct (fleb f0 (fmul c v)) eqn:E; [rewrite (fle_antisym F _ _ Z1 E)|]; now rewrite (LE _ _ Z0). }
    rewrite A, B. ring.
Qed.
Lemma fclamp_negative (hi v : F) : fle f0 hi -> fclamp f0 hi (fsub hi v) = fsub hi (fclamp f0 hi v).
Proof.
  intros Hh. assert (LE : forall a b : F, fle a b -> fleb a b = true) by (intros a b H; exact H).
  assert (LO : forall u, fle u f0 -> fclamp f0 hi u = f0).
  { intros u H. unfold fclamp. destruct (fleb f0 u) eqn:E; [rewrite (fle_antisym F _ _ H E)|]; now rewrite (LE _ _ Hh). }
  assert (HI : forall u, fle hi u -> fclamp f0 hi u = hi).
  { intros u H. unfold fclamp. rewrite (LE _ _ (fle_trans F _ _ _ Hh H)). destruct (fleb u hi) eqn:E; auto. now apply (fle_antisym F). }
  destruct (fle_total F f0 v) as [H1|H1]; [destruct (fle_total F v hi) as [H2|H2]|].
  - rewrite (fclamp_id F f0 hi v) by auto. apply (fclamp_id F); [now apply fle_sub1|]. apply fle_sub2.
    replace (fsub hi (fsub hi v)) with v by ring. auto.
  - rewrite (HI v H2). rewrite LO; [ring|]. apply fle_sub2. replace (fsub f0 (fsub hi v)) with (fsub v hi) by ring. now apply fle_sub1.
  - rewrite (LO v H1). rewrite HI; [ring|]. apply fle_sub2. replace (fsub (fsub hi v) hi) with (fsub f0 v) by ring. now apply fle_sub1.
Qed.

Lemma demosaic_scaled pre m n s sa c cl (x v z : T) jx jx' jv jv' :
  nonneg pre -> 0 <= m -> 0 <= n -> In sa patterns -> case_variant s sa ->
  shp x = pre ++ [1; 2 * m; 2 * n] -> shp v = shp x -> fle f0 c -> fle f0 cl ->
  (forall i, valid (shp x) i -> at_ v i = fmul c (at_ x i)) ->
  demosaic jx jx' x s cl = Ok z ->
  exists z', demosaic jv jv' v s (fmul c cl) = Ok z' /\ shp z' = shp z /\ forall i, valid (shp z) i -> at_ z' i = fmul c (at_ z i).
Proof.
  intros Hp Hm Hn Hsa Hv Hs Sv Hc Hcl Hx E. rewrite demosaic_of_raw in E. destruct (demosaic_raw jx _ _ _) as [r|] eqn:Er; [|discriminate].
  injection E as <-. destruct (raw_mix pre m n s sa c f0 f0 x x v r r jx jx' jx jx' jv jv') as (r' & Er' & Sr' & Vr'); auto.
  { intros p i j Vp Hi Hj. rewrite Hx; [ring|]. rewrite Hs. apply valid_app; auto. repeat constructor; lia. }
  destruct (raw_pixel pre m n Hp Hm Hn s sa Hsa Hv jx jx' x r Hs Er) as [Sr _].
  rewrite demosaic_of_raw, Er'. cbn [bind]. eexists. split; [reflexivity|]. cbn [tmap shp at_]. split; [congruence|].
  intros i Vi. rewrite Vr' by congruence. rewrite <- fclamp_scale by auto. f_equal. ring.
Qed.
Lemma demosaic_negative pre m n s sa cl (x v z : T) jx jx' jv jv' :
  nonneg pre -> 0 <= m -> 0 <= n -> In sa patterns -> case_variant s sa ->
  shp x = pre ++ [1; 2 * m; 2 * n] -> shp v = shp x -> fle f0 cl ->
  (forall i, valid (shp x) i -> at_ v i = fsub cl (at_ x i)) ->
  demosaic jx jx' x s cl = Ok z ->
  exists z', demosaic jv jv' v s cl = Ok z' /\ shp z' = shp z /\ forall i, valid (shp z) i -> at_ z' i = fsub cl (at_ z i).
Proof.
  intros Hp Hm Hn Hsa Hv Hs Sv Hcl Hx E. rewrite demosaic_of_raw in E. destruct (demosaic_raw jx _ _ _) as [r|] eqn:Er; [|discriminate].
  injection E as <-. destruct (raw_mix pre m n s sa (fopp f1) f0 cl x x v r r jx jx' jx jx' jv jv') as (r' & Er' & Sr' & Vr'); auto.
  { intros p i j Vp Hi Hj. rewrite Hx; [ring|]. rewrite Hs. apply valid_app; auto. repeat constructor; lia. }
  destruct (raw_pixel pre m n Hp Hm Hn s sa Hsa Hv jx jx' x r Hs Er) as [Sr _].
  rewrite demosaic_of_raw, Er'. cbn [bind]. eexists. split; [reflexivity|]. cbn [tmap shp at_]. split; [congruence|].
  intros i Vi. rewrite Vr' by congruence. rewrite <- fclamp_negative by auto. f_equal. ring.
Qed.
Lemma demosaic_range s cl (x z : T) jx jx' : fle f0 cl -> demosaic jx jx' x s cl = Ok z ->
  forall i, fle f0 (at_ z i) /\ fle (at_ z i) cl.
Proof.
  intros Hcl E. rewrite demosaic_of_raw in E. destruct (demosaic_raw jx _ _ _) as [r|]; [|discriminate]. injection E as <-.
  intros i. cbn [tmap at_]. now apply fclamp_range.
Qed.
(** A pixel of the result depends on the pixels of the mosaic at distance at most 2. *)
Lemma reflect_near h i a : 3 <= h -> 0 <= i < h -> 0 <= a < 5 -> Z.abs (reflect h (i + a - 2) - i) <= 2.
Proof.
  intros Hh Hi Ha. unfold reflect. replace (h =? 1) with false by (symmetry; apply Z.eqb_neq; lia). cbv zeta.
  destruct (Z.ltb_spec (i + a - 2) 0).
  - replace ((i + a - 2) mod (2 * h - 2)) with (i + a - 2 + (2 * h - 2)) by (apply Z.mod_unique with (q := -1); lia).
    destruct (Z.ltb_spec (i + a - 2 + (2 * h - 2)) h); lia.
  - destruct (Z.eq_dec (i + a - 2) (2 * h - 2)) as [E|].
    + rewrite E, Z_mod_same_full. destruct (Z.ltb_spec 0 h); lia.
    + rewrite Z.mod_small by lia. destruct (Z.ltb_spec (i + a - 2) h); lia.
Qed.
Lemma demosaic_local pre m n s sa cl (x v z z' : T) jx jx' jv jv' p k i j :
  nonneg pre -> 0 <= m -> 0 <= n -> In sa patterns -> case_variant s sa ->
  shp x = pre ++ [1; 2 * m; 2 * n] -> shp v = shp x -> demosaic jx jx' x s cl = Ok z -> demosaic jv jv' v s cl = Ok z' ->
  valid pre p -> 0 <= k < 3 -> 0 <= i < 2 * m -> 0 <= j < 2 * n ->
  (forall i' j', 0 <= i' < 2 * m -> 0 <= j' < 2 * n -> Z.abs (i' - i) <= 2 -> Z.abs (j' - j) <= 2 ->
     at_ v (p ++ [0; i'; j']) = at_ x (p ++ [0; i'; j'])) ->
  at_ z' (p ++ [k; i; j]) = at_ z (p ++ [k; i; j]).
Proof.
  intros Hp Hm Hn Hsa Hv Hs Sv E E' Vp Hk Hi Hj H. rewrite Hs in Sv.
  destruct (clamped_pixel pre m n s sa cl jx jx' x z) as (_ & (_ & M2 & N2) & Vz); auto.
  destruct (clamped_pixel pre m n s sa cl jv jv' v z') as (_ & _ & Vz'); auto.
  destruct (in_class_total sa i j Hsa) as (q & Hq & _). rewrite (Vz p k i j q), (Vz' p k i j q) by auto. f_equal.
  unfold pixel. destruct (_ =? _); [apply H; auto; lia|]. unfold interp. apply fsum_ext; intros a Ha. apply fsum_ext; intros b Hb.
  f_equal. apply H; try (apply reflect_in; lia); apply reflect_near; lia.
Qed.
End Laws.
