(** Which interpolators (bayer_conv_2d.py:146-174, any weight dictionary) reproduce flat images. *)
From Coq Require Import Ascii String.
From Verif Require Export BayerConvLaws.
Import List. Import ListNotations.
Local Notation length := List.length.
Open Scope string_scope.
Open Scope list_scope.
Open Scope Z_scope.

(** Colour interpolated by output o of the convolution of the class q. *)
Definition wanted (q : pos) (o : Z) : Z := if o =? 0 then fst (pos_others q) else snd (pos_others q).
Lemma wanted_spec q o : 0 <= o < 2 -> 0 <= wanted q o < 3 /\ wanted q o <> pos_color q /\
  (if wanted q o <? pos_color q then wanted q o else wanted q o - 1) = o.
Proof. intros H. assert (o = 0 \/ o = 1) as [->| ->] by lia; destruct q; vm_compute; repeat split; congruence. Qed.
Lemma other_wanted q c : 0 <= c < 3 -> c <> pos_color q ->
  0 <= (if c <? pos_color q then c else c - 1) < 2 /\ wanted q (if c <? pos_color q then c else c - 1) = c.
Proof. intros H N. assert (c = 0 \/ c = 1 \/ c = 2) as [->|[->| ->]] by lia; destruct q; vm_compute in N |- *; try (now contradiction N); repeat split; congruence. Qed.

Lemma colour_tap sa f q i j u v : In sa patterns -> get_sensor_beg_index sa = Ok f -> f q = (i mod 2, j mod 2) ->
  chan sa (2 * ((i + u) mod 2) + (j + v) mod 2) = tap q u v.
Proof.
  intros Hsa Ef Hq. replace (i + u) with (i + (u + 2) - 2) by ring. replace (j + v) with (j + (v + 2) - 2) by ring.
  rewrite (tap_chan sa f q i j (u + 2) (v + 2)) by auto. unfold tap. rewrite !Z.even_add.
  now destruct q, (Z.even u), (Z.even v).
Qed.

Section E.
Variable F : ofield.
Add Field Fbex : (f_field F).
Notation T := (tensor F).

(** Sum of all weights, and of those that meet the colour e. *)
Definition kernel_total (M : bayer_conv F) (q : pos) (o : Z) : F :=
  fsum (bc_k M) (fun a => fsum (bc_k M) (fun b => bc_w M q o 0 a b)).
Definition share (M : bayer_conv F) (q : pos) (o e : Z) : F :=
  fsum (bc_k M) (fun a => fsum (bc_k M) (fun b =>
    if tap q (a - bc_k M / 2) (b - bc_k M / 2) =? e then bc_w M q o 0 a b else f0)).

Lemma shares_sum M q o (v : Z -> F) :
  fsum (bc_k M) (fun a => fsum (bc_k M) (fun b => fmul (bc_w M q o 0 a b) (v (tap q (a - bc_k M / 2) (b - bc_k M / 2))))) =
  fadd (fadd (fmul (v 0) (share M q o 0)) (fmul (v 1) (share M q o 1))) (fmul (v 2) (share M q o 2)).
Proof.
  unfold share. rewrite <- !fsum_mul, <- !fsum_add. apply fsum_ext. intros a Ha.
  rewrite <- !fsum_mul, <- !fsum_add. apply fsum_ext. intros b Hb.
  assert (R : forall u w, tap q u w = 0 \/ tap q u w = 1 \/ tap q u w = 2)
    by (intros u w; unfold tap; destruct q, (Z.even u), (Z.even w); auto).
  destruct (R (a - bc_k M / 2) (b - bc_k M / 2)) as [-> | [-> | ->]]; cbn [Z.eqb Pos.eqb]; ring.
Qed.

(** Clamping. *)
Lemma clamp_inner (hi u v : F) : flt f0 v -> flt v hi -> fclamp f0 hi u = v -> u = v.
Proof.
  unfold fclamp. intros H0 H1. destruct (fleb f0 u) eqn:A.
  - destruct (fleb u hi) eqn:B; auto. intros <-. exfalso. now apply (flt_ne F hi hi).
  - destruct (fleb f0 hi) eqn:B; intros <-; exfalso; [now apply (flt_ne F f0 f0)|now apply (flt_ne F hi hi)].
Qed.
Lemma halves (hi : F) : flt f0 hi -> exists h t, flt f0 t /\ flt t h /\ flt h hi /\ hi = fadd h h /\ h = fadd t t.
Proof.
  intros H. assert (N2 : fofZ 2 <> (f0 : F)) by (apply fofZ_neq0; lia).
  assert (E2 : (fofZ 2 : F) = fadd f1 f1) by (change 2 with (1 + 1); rewrite fofZ_add; reflexivity).
  assert (P : forall v : F, flt f0 v -> flt f0 (fdiv v (fofZ 2)) /\ v = fadd (fdiv v (fofZ 2)) (fdiv v (fofZ 2)) /\ flt (fdiv v (fofZ 2)) v).
  { intros v Hv. assert (A : flt f0 (fdiv v (fofZ 2))).
    { replace (fdiv v (fofZ 2)) with (fmul v (finv (fofZ 2))) by (field; auto).
      apply fmul_pos; auto. apply finv_pos, fofZ_pos. lia. }
    assert (B : v = fadd (fdiv v (fofZ 2)) (fdiv v (fofZ 2))).
    { rewrite E2 in *. field; auto. }
    split; auto. split; auto.
    apply fle_ne_flt.
    - apply fle_sub2. assert (C : fsub v (fdiv v (fofZ 2)) = fdiv v (fofZ 2)) by (rewrite E2 in *; field; auto). rewrite C. now apply flt_fle.
    - intros E. apply (flt_ne F) in A. apply A.
      assert (C : fsub v (fdiv v (fofZ 2)) = fdiv v (fofZ 2)) by (rewrite E2 in *; field; auto). rewrite <- C, E. ring. }
  destruct (P hi H) as (A & B & C). destruct (P _ A) as (A' & B' & C').
  exists (fdiv hi (fofZ 2)), (fdiv (fdiv hi (fofZ 2)) (fofZ 2)). auto.
Qed.

Section P.
Variables (pre : list Z) (m n : Z) (M : bayer_conv F) (s sa : string) (cl : F).
Hypothesis Hpre : nonneg pre.
Hypothesis Lpre : (length pre <= 1)%nat.
Hypothesis Hm : 1 <= m.
Hypothesis Hn : 1 <= n.
Hypothesis Hin : bc_in M = 1.
Hypothesis Hout : bc_out M = 2.
Hypothesis Hk : 1 <= bc_k M.
Hypothesis Hkm : bc_k M / 2 < 2 * m.
Hypothesis Hkn : bc_k M / 2 < 2 * n.
Hypothesis Hsa : In sa patterns.
Hypothesis Hv : case_variant s sa.

(** A mosaic whose pixels of colour e all have the value v e. *)
Lemma flat_demosaic (x : T) (v : list Z -> Z -> F) j1 j2 : shp x = pre ++ [1; 2 * m; 2 * n] ->
  (forall p i j, valid pre p -> 0 <= i < 2 * m -> 0 <= j < 2 * n ->
     at_ x (p ++ [0; i; j]) = v p (chan sa (2 * (i mod 2) + j mod 2))) ->
  exists z, demosaic_with M j1 j2 x s cl = Ok z /\ shp z = pre ++ [3; 2 * m; 2 * n] /\
    forall p c i j q, valid pre p -> 0 <= c < 3 -> 0 <= i < 2 * m -> 0 <= j < 2 * n -> in_class sa i j q ->
      at_ z (p ++ [c; i; j]) = fclamp f0 cl (
        if c =? pos_color q then v p c
        else let o := if c <? pos_color q then c else c - 1 in
             fadd (fadd (fadd (fmul (v p 0) (share M q o 0)) (fmul (v p 1) (share M q o 1))) (fmul (v p 2) (share M q o 2)))
                  (bias_at F M q o)).
Proof using Hpre Lpre Hm Hn Hin Hout Hk Hkm Hkn Hsa Hv.
  intros Sx Vx. assert (Hm' : 0 <= m) by lia. assert (Hn' : 0 <= n) by lia.
  assert (D : exists z, demosaic_with M j1 j2 x s cl = Ok z).
  { apply (demosaic_defined F pre m n) with (sa := sa); auto. }
  destruct D as [z Ez]. exists z. split; auto.
  destruct (demosaic_keeps F pre m n M x s sa cl j1 j2 (fun _ => f0) z) as (Sz & _ & Vz); auto.
  split; auto. intros p c i j q Vp Hc Hi Hj Hq. destruct (Vz p c i j q Vp Hc Hi Hj Hq) as [V1 V2].
  destruct (beg_index_spec sa Hsa) as (f & Ef & _).
  assert (Hq' : f q = (i mod 2, j mod 2)) by now apply (in_class_beg sa f).
  pose proof (pos_color_chan sa Hsa f Ef q) as PC. rewrite Hq' in PC. cbn [fst snd] in PC.
  pose proof (names_chan sa i j c Hsa) as NC. destruct (Z.eqb_spec c (pos_color q)) as [Ec|Nc].
  - rewrite V1 by (apply NC; congruence). f_equal. rewrite Vx by auto. now rewrite <- PC, Ec.
  - rewrite V2 by (intros A; apply NC in A; congruence). f_equal. cbv zeta.
    rewrite conv_at_window. f_equal. rewrite <- shares_sum. unfold window_sum. rewrite Hin, fsum_1.
    apply fsum_ext. intros a Ha. apply fsum_ext. intros b Hb. f_equal.
    rewrite Vx by (auto; apply reflect_in; lia). f_equal. rewrite !reflect_mod2 by lia.
    rewrite <- !Z.add_sub_assoc. now apply (colour_tap sa f).
Qed.

Hypothesis Hcl : flt f0 cl.
Hypothesis Ne : exists p, valid pre p.

Definition selector : Prop := forall q o, 0 <= o < 2 -> bias_at F M q o = f0 /\
  forall e, 0 <= e < 3 -> share M q o e = if e =? wanted q o then f1 else f0.
Definition in_range (v : Z -> F) : Prop := forall c, 0 <= c < 3 -> fle f0 (v c) /\ fle (v c) cl.
Definition flat_rgb (v : Z -> F) (img : T) : Prop := shp img = pre ++ [3; 2 * m; 2 * n] /\
  forall p c i j, valid pre p -> 0 <= c < 3 -> 0 <= i < 2 * m -> 0 <= j < 2 * n -> at_ img (p ++ [c; i; j]) = v c.

Lemma pixel_of q : exists i j, 0 <= i < 2 * m /\ 0 <= j < 2 * n /\ in_class sa i j q.
Proof using Hm Hn Hsa.
  destruct (beg_index_spec sa Hsa) as (f & Ef & R & _). destruct (R q) as [R1 R2].
  clear - R1 R2 Hm Hn Hsa Ef. exists (fst (f q)), (snd (f q)). split; [lia|]. split; [lia|]. apply (in_class_beg sa f); auto.
  rewrite !Z.mod_small by lia. now destruct (f q).
Qed.
Lemma exact_colours j0 j1 j2 :
  (forall v img, in_range v -> flat_rgb v img ->
     exists x z, rgb_to_1c_bayer j0 img s = Ok x /\ demosaic_with M j1 j2 x s cl = Ok z /\ teq z img) <-> selector.
Proof using Hpre Lpre Hm Hn Hin Hout Hk Hkm Hkn Hsa Hv Hcl Ne.
  assert (Hm' : 0 <= m) by lia. assert (Hn' : 0 <= n) by lia. split.
  - intros H q o Ho. destruct (pixel_of q) as (i & j & Hi & Hj & Hq). destruct Ne as [p Vp].
    destruct (wanted_spec q o Ho) as (W1 & W2 & W3). set (c := wanted q o) in *.
    set (val := fun v : Z -> F => fadd (fadd (fadd (fmul (v 0) (share M q o 0)) (fmul (v 1) (share M q o 1))) (fmul (v 2) (share M q o 2))) (bias_at F M q o)).
    assert (K : forall v, in_range v -> fclamp f0 cl (val v) = v c).
    { intros v Wv. set (img := mkT (pre ++ [3; 2 * m; 2 * n]) (fun ix => v (nth (length pre) ix 0)) : T).
      assert (Fl : flat_rgb v img).
      { split; auto. intros p' c' i' j' Vp' _ _ _. cbn [img at_]. f_equal.
        rewrite app_nth2 by (apply valid_iff in Vp' as [L _]; lia). apply valid_iff in Vp' as [L _]. now rewrite L, Nat.sub_diag. }
      destruct (H v img Wv Fl) as (x & z & Ex & Ez & Tz). destruct Fl as [Si Vi].
      destruct (rgb_to_1c_spec pre m n Hpre Hm' Hn' j0 img s sa Si Hsa Hv) as (x' & Ex' & Sx & Vx).
      rewrite Ex in Ex'. injection Ex' as <-.
      assert (Vx2 : forall p i j, valid pre p -> 0 <= i < 2 * m -> 0 <= j < 2 * n ->
        at_ x (p ++ [0; i; j]) = (fun _ : list Z => v) p (chan sa (2 * (i mod 2) + j mod 2))).
      { intros p' i' j' Vp' Hi' Hj'. rewrite Vx by auto. apply Vi; auto.
        apply (chan_ok sa); auto. pose proof (mod2 i'). pose proof (mod2 j'). lia. }
      destruct (flat_demosaic x (fun _ => v) j1 j2 Sx Vx2) as (z' & Ez' & Sz' & Vz'). rewrite Ez in Ez'. injection Ez' as <-.
      destruct Tz as [Sz Tz]. specialize (Vz' p c i j q Vp W1 Hi Hj Hq).
      rewrite (proj2 (Z.eqb_neq c (pos_color q)) W2) in Vz'. cbv zeta in Vz'. rewrite W3 in Vz'.
      rewrite Tz in Vz'.
      - rewrite Vi in Vz' by auto. symmetry. exact Vz'.
      - rewrite Sz'. apply valid_app; auto. repeat constructor; lia. }
    destruct (halves cl Hcl) as (h & t & Pt & Pth & Phc & Eh & Et).
    assert (R : forall v, (forall c', 0 <= c' < 3 -> v c' = h \/ v c' = t) -> val v = v c).
    { intros v Hvv. apply (clamp_inner cl).
      - destruct (Hvv c W1) as [-> | ->]; auto. eapply fle_flt_trans; [|exact Pth]. now apply flt_fle.
      - destruct (Hvv c W1) as [-> | ->]; auto. eapply fle_flt_trans; [|exact Phc]. now apply flt_fle.
      - apply K. intros c' Hc'. assert (A : fle f0 t) by now apply flt_fle. assert (B : fle t h) by now apply flt_fle.
        assert (C : fle h cl) by now apply flt_fle.
        destruct (Hvv c' Hc') as [-> | ->]; split; eauto using fle_trans. }
    assert (Nt : t <> f0) by (intros E; apply (flt_ne F f0 t Pt); auto).
    assert (Rh := R (fun _ => h) (fun _ _ => or_introl eq_refl)).
    assert (S : forall e, 0 <= e < 3 -> share M q o e = if e =? c then f1 else f0).
    { intros e He. assert (Re := R (fun c' => if c' =? e then t else h)).
      assert (Q : fmul t (share M q o e) = if e =? c then t else f0).
      { transitivity (fsub (val (fun _ => h)) (val (fun c' => if c' =? e then t else h))).
        - unfold val. assert (e = 0 \/ e = 1 \/ e = 2) as [->|[->| ->]] by lia; cbn [Z.eqb Pos.eqb]; rewrite Et; ring.
        - rewrite Rh, Re by (intros c' _; destruct (c' =? e); auto). rewrite (Z.eqb_sym c e). destruct (e =? c); [rewrite Et|]; ring. }
      assert (share M q o e = fdiv (fmul t (share M q o e)) t) as -> by (field; auto).
      rewrite Q. destruct (e =? c); field; auto. }
    split; [|exact S].
    unfold val in Rh. rewrite !S in Rh by lia.
    assert (Q : bias_at F M q o = fsub (fadd h (bias_at F M q o)) h) by ring. rewrite Q. rewrite <- Rh at 2.
    assert (c = 0 \/ c = 1 \/ c = 2) as [E|[E|E]] by lia; rewrite E; cbn [Z.eqb Pos.eqb]; ring.
  - intros H v img Wv [Si Vi].
    destruct (rgb_to_1c_spec pre m n Hpre Hm' Hn' j0 img s sa Si Hsa Hv) as (x & Ex & Sx & Vx).
    assert (Vx2 : forall p i j, valid pre p -> 0 <= i < 2 * m -> 0 <= j < 2 * n ->
      at_ x (p ++ [0; i; j]) = (fun _ : list Z => v) p (chan sa (2 * (i mod 2) + j mod 2))).
    { intros p' i' j' Vp' Hi' Hj'. rewrite Vx by auto. apply Vi; auto.
      apply (chan_ok sa); auto. pose proof (mod2 i'). pose proof (mod2 j'). lia. }
    destruct (flat_demosaic x (fun _ => v) j1 j2 Sx Vx2) as (z & Ez & Sz & Vz).
    exists x, z. split; auto. split; auto. split; [congruence|]. intros ix Vix. rewrite Sz in Vix.
    apply valid_app_inv in Vix as (p & r & -> & Vp & Vr). apply valid3 in Vr as (c & i & j & -> & Hc & Hi & Hj).
    destruct (in_class_total sa i j Hsa) as (q & Hq & _).
    rewrite (Vz p c i j q) by auto. rewrite Vi by auto.
    transitivity (fclamp f0 cl (v c)); [f_equal|destruct (Wv c Hc); now apply fclamp_id].
    destruct (Z.eqb_spec c (pos_color q)) as [|Nc]; auto. cbv zeta.
    destruct (other_wanted q c Hc Nc) as [O1 O2]. set (o := if c <? pos_color q then c else c - 1) in *.
    destruct (H q o O1) as [B S]. rewrite B, !S by lia. rewrite O2.
    assert (c = 0 \/ c = 1 \/ c = 2) as [->|[->| ->]] by lia; cbn [Z.eqb Pos.eqb]; ring.
Qed.
Lemma total_shares q o : fadd (fadd (share M q o 0) (share M q o 1)) (share M q o 2) = kernel_total M q o.
Proof using.
  transitivity (fadd (fadd (fmul f1 (share M q o 0)) (fmul f1 (share M q o 1))) (fmul f1 (share M q o 2))); [ring|].
  rewrite <- (shares_sum M q o (fun _ => f1)). unfold kernel_total. apply fsum_ext. intros a _. apply fsum_ext. intros b _. ring.
Qed.
Definition preserves_grey : Prop := forall q o, 0 <= o < 2 -> bias_at F M q o = f0 /\ kernel_total M q o = f1.
Definition flat_mosaic (v : F) (x : T) : Prop := shp x = pre ++ [1; 2 * m; 2 * n] /\
  forall p i j, valid pre p -> 0 <= i < 2 * m -> 0 <= j < 2 * n -> at_ x (p ++ [0; i; j]) = v.
Lemma exact_greys j1 j2 :
  (forall v x, fle f0 v -> fle v cl -> flat_mosaic v x ->
     exists z, demosaic_with M j1 j2 x s cl = Ok z /\ shp z = pre ++ [3; 2 * m; 2 * n] /\
       forall p c i j, valid pre p -> 0 <= c < 3 -> 0 <= i < 2 * m -> 0 <= j < 2 * n -> at_ z (p ++ [c; i; j]) = v) <->
  preserves_grey.
Proof using Hpre Lpre Hm Hn Hin Hout Hk Hkm Hkn Hsa Hv Hcl Ne.
  split.
  - intros H q o Ho. destruct (pixel_of q) as (i & j & Hi & Hj & Hq). destruct Ne as [p Vp].
    destruct (wanted_spec q o Ho) as (W1 & W2 & W3). set (c := wanted q o) in *.
    assert (K : forall v, fle f0 v -> fle v cl -> fclamp f0 cl (fadd (fmul v (kernel_total M q o)) (bias_at F M q o)) = v).
    { intros v V0 V1. set (x := mkT (pre ++ [1; 2 * m; 2 * n]) (fun _ => v) : T).
      assert (Fl : flat_mosaic v x) by (split; [reflexivity|intros; reflexivity]).
      destruct (H v x V0 V1 Fl) as (z & Ez & Sz & Vz). destruct Fl as [Sx Vx].
      destruct (flat_demosaic x (fun _ _ => v) j1 j2 Sx Vx) as (z' & Ez' & Sz' & Vz'). rewrite Ez in Ez'. injection Ez' as <-.
      specialize (Vz' p c i j q Vp W1 Hi Hj Hq). rewrite (proj2 (Z.eqb_neq c (pos_color q)) W2) in Vz'. cbv zeta in Vz'.
      rewrite W3, Vz in Vz' by auto. symmetry. etransitivity; [exact Vz'|]. f_equal. rewrite <- total_shares. ring. }
    destruct (halves cl Hcl) as (h & t & Pt & Pth & Phc & Eh & Et).
    assert (L1 : fle f0 t) by now apply flt_fle. assert (L2 : fle t h) by now apply flt_fle. assert (L3 : fle h cl) by now apply flt_fle.
    assert (Rh : fadd (fmul h (kernel_total M q o)) (bias_at F M q o) = h).
    { apply (clamp_inner cl); auto; [eapply fle_flt_trans; eauto|]. apply K; eauto using fle_trans. }
    assert (Rt : fadd (fmul t (kernel_total M q o)) (bias_at F M q o) = t).
    { apply (clamp_inner cl); auto; [eapply fle_flt_trans; eauto|]. apply K; eauto using fle_trans. }
    assert (Nt : t <> f0) by (intros E; apply (flt_ne F f0 t Pt); auto).
    assert (S : kernel_total M q o = f1).
    { assert (Q : fmul t (kernel_total M q o) = t).
      { transitivity (fsub (fadd (fmul h (kernel_total M q o)) (bias_at F M q o)) (fadd (fmul t (kernel_total M q o)) (bias_at F M q o))).
        - rewrite Et. ring.
        - rewrite Rh, Rt, Et. ring. }
      assert (kernel_total M q o = fdiv (fmul t (kernel_total M q o)) t) as -> by (field; auto).
      rewrite Q. field; auto. }
    split; [|exact S]. rewrite S in Rt.
    assert (Q : bias_at F M q o = fsub (fadd (fmul t f1) (bias_at F M q o)) t) by ring. rewrite Q, Rt. ring.
  - intros H v x V0 V1 [Sx Vx].
    destruct (flat_demosaic x (fun _ _ => v) j1 j2 Sx Vx) as (z & Ez & Sz & Vz).
    exists z. split; auto. split; auto. intros p c i j Vp Hc Hi Hj.
    destruct (in_class_total sa i j Hsa) as (q & Hq & _).
    rewrite (Vz p c i j q) by auto. transitivity (fclamp f0 cl v); [f_equal|now apply fclamp_id].
    destruct (Z.eqb_spec c (pos_color q)) as [|Nc]; auto. cbv zeta.
    destruct (other_wanted q c Hc Nc) as [O1 O2]. set (o := if c <? pos_color q then c else c - 1) in *.
    destruct (H q o O1) as [B S]. rewrite <- total_shares in S. rewrite B.
    transitivity (fmul v (fadd (fadd (share M q o 0) (share M q o 1)) (share M q o 2))); [ring|]. rewrite S. ring.
Qed.
End P.
Lemma gradient_selector : selector gradient_corrected_interpolator.
Proof.
  assert (P : flt f0 (f1 : F)) by apply flt_01.
  apply (exact_colours [] 2 2 gradient_corrected_interpolator "RGGB" "RGGB" f1) with (j0 := fun _ => f0) (j1 := fun _ => f0) (j2 := fun _ => f0);
    try (cbn; lia); try (vm_compute; lia); auto; try (vm_compute; tauto).
  - constructor.
  - repeat constructor.
  - exists []. constructor.
  - intros v img Wv [Si Vi].
    destruct (demosaic_colour_const F [] 2 2 ltac:(constructor) ltac:(cbn; lia) ltac:(lia) ltac:(lia) "RGGB" "RGGB" f1 img
                ltac:(vm_compute; tauto) ltac:(repeat constructor) Si (fun _ => f0) (fun _ => f0) (fun _ => f0) (fun _ => v)) as (x & z & A & B & C).
    + intros p ch i j Vp Hc Hi Hj. split; [now apply Vi|]. now apply Wv.
    + exists x, z. auto.
Qed.
End E.
