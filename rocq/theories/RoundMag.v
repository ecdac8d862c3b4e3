(** How far rounding can take the magnitude of an edge filter from the exact result (C147). *)
From Coq Require Import Sorting.Permutation.
From Verif Require Export RoundEdge.
Open Scope Z_scope.

Section RMg.
Variable F : ofield.
Add Field Frmg : (f_field F).
Notation T := (tensor F).
Variable trunc : F -> Z.

Lemma conv_fl_like e fuel junk (g g' : edge_filter F) (x c : T) a : elike F g g' -> fl_conv_edge trunc e fuel junk g x a c -> fl_conv_edge trunc e fuel junk g' x a c.
Proof.
  intros [A1 [A2 [A3 A4]]]. unfold fl_conv_edge. rewrite <- A1.
  assert (P : forall m xp, pool_pad fuel junk (ef_edge g) x (AxInt a) = (m, Ok xp) -> pool_pad fuel junk (ef_edge g') x (AxInt a) = (m, Ok xp)).
  { intros m xp H. destruct (pool_pad_like F fuel junk (ef_edge g) (ef_edge g') x (AxInt a) A3) as [Q1 [_ Q3]]. rewrite H in Q1, Q3. cbn [fst snd] in *.
    rewrite (surjective_pairing (pool_pad fuel junk (ef_edge g') x (AxInt a))). rewrite <- Q1, <- Q3 by eauto. reflexivity. }
  destruct (zlist_eqb _ _); [|destruct (zlist_eqb _ _)].
  - intros [m [xp [hi [lo [H1 H2]]]]]. exists m, xp, hi, lo. auto.
  - intros [m [xp [hi [lo [mid [s [t [H1 H2]]]]]]]]. exists m, xp, hi, lo, mid, s, t. auto.
  - now apply forward_like.
Qed.
Lemma component_fl_like e fuel junk (g g' : edge_filter F) (x y : T) ea ax : elike F g g' -> coh F g ->
  fl_component trunc e fuel junk g x ea ax y -> fl_component trunc e fuel junk g' x ea ax y.
Proof.
  intros L C [a [sa [c [H1 [H2 [H3 H4]]]]]]. exists a, sa, c. split; auto. split; auto. split; [exact (conv_fl_like e fuel junk g g' x c a L H3)|].
  eapply forward_like; [|exact H4].
  destruct (conv_edge_like F trunc fuel junk g g x a (elike_refl F g) C) as [_ [_ [_ [_ L1]]]].
  destruct (conv_edge_like F trunc fuel junk g' g' x a (elike_refl F g') (coh_like F _ _ L C)) as [_ [_ [_ [_ L2]]]].
  destruct L as [_ [_ [_ L3]]]. eapply mlike_trans; [apply mlike_sym; exact L1|]. eapply mlike_trans; [exact L3|exact L2].
Qed.

(** The components that were added up. *)
Definition summed (e : F) p (cs qs : nat -> T) (pre : list nat) sh (m : T) : Prop :=
  shp m = sh /\ (forall a, In a pre -> shp (cs a) = sh /\ fl_powered e p (cs a) (qs a)) /\
  forall i, valid sh i -> fl_sum e (fun a => at_ (qs a) i) pre (at_ m i).
Lemma powered_shape e p (c q : T) : fl_powered e p c q -> shp q = shp c.
Proof. destruct p; cbn; [now intros ->|]. intros [H _]. exact H. Qed.
Lemma fl_sum_ext {A} e (p q : A -> F) l v : fl_sum e p l v -> (forall o, In o l -> p o = q o) -> fl_sum e q l v.
Proof.
  induction 1 as [o|l m n u v w H1 IH1 H2 IH2 P R]; intros E.
  - rewrite E by now left. constructor.
  - eapply fl_add; [apply IH1|apply IH2|exact P|exact R]; intros o Ho; apply E; eapply Permutation_in; [apply Permutation_sym; exact P| |apply Permutation_sym; exact P|]; apply in_or_app; auto.
Qed.
Lemma mag_collect e fuel junk (g0 : edge_filter F) (x : T) axes p sh : coh F g0 -> ef_kernel g0 <> [] -> forall al pre,
  NoDup (pre ++ al) ->
  (forall a c, In a al -> fl_component trunc e fuel junk g0 x (AxInt (Z.of_nat a)) (AxSeq axes) c -> shp c = sh) ->
  forall g acc y cs qs, elike F g0 g ->
  match acc with None => pre = [] /\ al <> [] | Some m => summed e p cs qs pre sh m /\ forall a, In a pre -> fl_component trunc e fuel junk g0 x (AxInt (Z.of_nat a)) (AxSeq axes) (cs a) end ->
  fl_mag_loop trunc e fuel junk g x axes (map Z.of_nat al) p acc y ->
  exists cs qs, summed e p cs qs (pre ++ al) sh y /\ forall a, In a (pre ++ al) -> fl_component trunc e fuel junk g0 x (AxInt (Z.of_nat a)) (AxSeq axes) (cs a).
Proof.
  intros C NE. induction al as [|a al IH]; intros pre ND HS g acc y cs qs L Hacc; cbn [map fl_mag_loop].
  - destruct acc as [m|]; [|destruct Hacc; congruence]. intros H. injection H as ->. rewrite app_nil_r. exists cs, qs. auto.
  - intros [c [q [m [H1 [H2 [H3 H4]]]]]]. cbv zeta in H4.
    apply (component_fl_like e fuel junk g g0) in H1; [|apply elike_sym; auto|eapply coh_like; eauto].
    destruct (component_like F trunc fuel junk g g x (AxInt (Z.of_nat a)) (AxSeq axes) (elike_refl F g) (coh_like F _ _ L C)) as [_ E3].
    pose proof (elike_trans F _ _ _ L E3) as L'. set (g' := fst (component trunc fuel junk g x (AxInt (Z.of_nat a)) (AxSeq axes))) in *.
    rewrite (next_input_keep F) in H4 by (intros _; destruct L' as [<- _]; auto).
    assert (Sc : shp c = sh) by (apply (HS a c); [now left|auto]). pose proof (powered_shape _ _ _ _ H2) as Sq.
    assert (Na : forall b, In b pre -> Nat.eqb b a = false).
    { intros b Hb. apply Nat.eqb_neq. intros ->. apply NoDup_remove_2 in ND. apply ND. apply in_or_app; auto. }
    replace (pre ++ a :: al) with ((pre ++ [a]) ++ al) in * by (rewrite <- app_assoc; reflexivity).
    refine (IH (pre ++ [a]) ND _ g' (Some m) y (fun b => if Nat.eqb b a then c else cs b) (fun b => if Nat.eqb b a then q else qs b) L' _ H4).
    { intros b c' Hb. apply HS. now right. }
    assert (CC : forall b, In b (pre ++ [a]) -> (forall b, In b pre -> shp (cs b) = sh /\ fl_powered e p (cs b) (qs b)) ->
        shp (if Nat.eqb b a then c else cs b) = sh /\ fl_powered e p (if Nat.eqb b a then c else cs b) (if Nat.eqb b a then q else qs b)).
    { intros b Hb G. apply in_app_or in Hb as [Hb|[<-|[]]]; [rewrite (Na b Hb); auto|rewrite Nat.eqb_refl; auto]. }
    assert (one : forall i, fl_sum e (fun b => at_ (if Nat.eqb b a then q else qs b) i) [a] (at_ q i)).
    { intros i. pose proof (fl_one e (fun b => at_ (if Nat.eqb b a then q else qs b) i) a) as O. cbv beta in O. rewrite Nat.eqb_refl in O. exact O. }
    destruct acc as [m0|].
    + destruct Hacc as [[M1 [M2 M3]] M4]. destruct H3 as [d [D1 [D2 D3]]].
      destruct (tiadd_same F m0 q) as [r [R1 [R2 R3]]]; [congruence|]. rewrite R1 in D1. injection D1 as <-. split.
      * split; [congruence|]. split; [intros b Hb; apply CC; auto|]. intros i Vi.
        apply (fl_add e _ pre [a] _ (at_ m0 i) (at_ q i)); [|apply one|reflexivity|].
        -- eapply fl_sum_ext; [apply M3; auto|]. intros b Hb. cbv beta. now rewrite (Na b Hb).
        -- rewrite <- R3 by congruence. apply D3. congruence.
      * intros b Hb. apply in_app_or in Hb as [Hb|[<-|[]]]; [rewrite (Na b Hb); auto|rewrite Nat.eqb_refl; auto].
    + destruct Hacc as [-> _]. subst m. cbn [app] in *. split.
      * split; [congruence|]. split; [intros b Hb; apply CC; auto; intros b' []|]. intros i Vi.
        apply one.
      * intros b [<-|[]]. rewrite Nat.eqb_refl. auto.
Qed.

Lemma without_length a al : NoDup al -> In a al -> length (without a al) = (length al - 1)%nat.
Proof.
  unfold without. induction al as [|b al IH]; intros N I; [destruct I|]. inversion N as [|? ? N1 N2]; subst. cbn [filter length]. destruct (Nat.eqb_spec b a) as [->|E].
  - cbn [negb]. assert (G : forall l, ~ In a l -> filter (fun b => negb (Nat.eqb b a)) l = l).
    { clear. induction l as [|b l IH]; intros H; [reflexivity|]. cbn [filter]. destruct (Nat.eqb_spec b a) as [->|E]; [exfalso; apply H; now left|]. cbn [negb]. rewrite IH; auto. intros I. apply H. now right. }
    rewrite G by auto. lia.
  - cbn [negb length]. destruct I as [->|I]; [congruence|]. rewrite IH by auto. destruct al; [destruct I|cbn; lia].
Qed.

(** The components, computed and exact. *)
Definition edge_bound ker normalize raw B : F := fmul (gain (smoothers normalize raw)) (fmul (abs_sum (used_kernel trunc ker)) B).
Definition edge_count ker normalize (raw : list (list F)) : nat := (edge_roundings trunc ker + roundings (smoothers normalize raw))%nat.
Lemma mag_parts e fuel junk ker smooth raw normalize p m shared (g : edge_filter F) (x y' : T) ax al k B eps pw :
  fle f0 e -> edge_init (NItem ker) smooth normalize (Some p) shared = Ok g -> ker <> [] ->
  edge_image fuel p m x ax al (k + 1) -> m <> MPeriodize -> klen ker <= k ->
  expand (length al - 1) smooth = Some raw -> (forall s, In s raw -> klen s <= k) ->
  copy_padder B p m -> copy_padder (fmul (abs_sum (used_kernel trunc ker)) B) p m -> bounded B x ->
  fl_magnitude trunc e fuel junk g x ax eps pw y' ->
  exists (es cs qs : nat -> T) y s, (2 <= length al)%nat /\ NoDup al /\ snd (magnitude trunc fuel junk g x ax eps pw) = Ok y /\ shp y = shp x /\
    (forall i, valid (shp x) i -> at_ y i = take_root F pw (fadd (axis_sum (fun a => raise_to F pw (at_ (es a) i)) al) eps)) /\
    (forall a i, In a al -> valid (shp x) i -> errs F (fpow (fadd f1 e) (edge_count ker normalize raw)) (edge_bound ker normalize raw B) (at_ (cs a) i) (at_ (es a) i)) /\
    summed e pw cs qs al (shp x) s /\
    exists s1, (if fleb eps f0 && fleb f0 eps then s1 = s else rounded e (tmap (fun v => fadd v eps) s) s1) /\
      match pw with P1 => y' = s1 | PGen _ root => rounded e (tmap root s1) y' end.
Proof.
  intros He HI Hk EI Hm Hlk Hr Hs CP CP2 HB [al' [s [s1 [H1 [H2 [H3 [H4 H5]]]]]]].
  pose proof EI as [[A1 A2 A3] P0 P1' U M FU]. rewrite A1 in H1. injection H1 as <-. rewrite map_length in H2.
  assert (CA : check_axes (Z.of_nat (ndim x)) (AxSeq (map Z.of_nat al)) = Ok (map Z.of_nat al)) by (apply check_axes_seq_nat; auto).
  assert (Lw : forall a, In a al -> length (without a al) = (length al - 1)%nat) by (intros a Ha; now apply without_length).
  assert (KC : forall a c', In a al -> fl_component trunc e fuel junk g x (AxInt (Z.of_nat a)) (AxSeq (map Z.of_nat al)) c' ->
    exists c, snd (component trunc fuel junk g x (AxInt (Z.of_nat a)) (AxSeq (map Z.of_nat al))) = Ok c /\ shp c = shp x /\ shp c' = shp x /\
      forall j, valid (shp x) j -> errs F (fpow (fadd f1 e) (edge_count ker normalize raw)) (edge_bound ker normalize raw B) (at_ c' j) (at_ c j)).
  { intros a c' Ha Hc.
    destruct (component_err F trunc e fuel junk ker smooth raw normalize p m shared g x c' (AxInt (Z.of_nat a)) ax (AxSeq (map Z.of_nat al)) a al k B) as [c [C1 [C2 C3]]]; auto.
    - apply check_one.
    - rewrite Lw; auto.
    - assert (Sc : shp c = shp x).
      { apply (EdgeLinear.component_shape F trunc fuel junk ker smooth raw normalize p m shared g x c (AxInt (Z.of_nat a)) ax (AxSeq (map Z.of_nat al)) a al (k + 1)); auto; try lia.
        - apply check_one.
        - rewrite Lw; auto.
        - intros s' Hs'. specialize (Hs s' Hs'). lia. }
      exists c. split; auto. split; auto. split; [congruence|]. intros j Vj. apply C3. congruence. }
  destruct (mag_collect e fuel junk g x (map Z.of_nat al) pw (shp x) (init_coh F _ _ _ _ _ _ HI)) with (al := al) (pre := @nil nat) (g := g) (acc := @None T) (y := s) (cs := fun _ : nat => x) (qs := fun _ : nat => x) as [cs [qs [S1 S2]]]; auto.
  { rewrite (init_kernel F _ _ _ _ _ _ HI). auto. }
  { intros a c' Ha Hc. destruct (KC a c' Ha Hc) as [c [_ [_ [E _]]]]. exact E. }
  { apply elike_refl. }
  { split; auto. intros ->. cbn in H2. lia. }
  cbn [app] in S1, S2.
  set (es := fun a => match snd (component trunc fuel junk g x (AxInt (Z.of_nat a)) (AxSeq (map Z.of_nat al))) with Ok y => y | Err _ => x end).
  destruct (magnitude_ok F trunc fuel junk ker smooth normalize (Some p) shared g x ax al eps pw es (shp x)) as [y [Y1 [Y2 Y3]]]; auto.
  { intros a Ha. destruct (KC a (cs a) Ha (S2 a Ha)) as [c [C1 [C2 _]]]. unfold es. rewrite C1. auto. }
  exists es, cs, qs, y, s. do 5 (split; auto). split.
  { intros a i Ha Vi. destruct (KC a (cs a) Ha (S2 a Ha)) as [c [C1 [C2 [C3 C4]]]]. unfold es. rewrite C1. auto. }
  split; auto. exists s1. auto.
Qed.
End RMg.

(** One more rounding when epsilon is not zero (edges.py:130-131). *)
Definition eps_roundings {F : ofield} (eps : F) : nat := if fleb eps f0 && fleb f0 eps then 0 else 1.
Section RMg1.
Variable F : ofield.
Add Field Frmg1 : (f_field F).
Notation T := (tensor F).
Variable trunc : F -> Z.
Lemma eps_zero (eps : F) : fleb eps f0 && fleb f0 eps = true -> eps = f0.
Proof. intros H. apply andb_prop in H as [H1 H2]. apply fle_antisym; assumption. Qed.
Lemma eps_err e c S eps (s s1 : T) i w : fle f0 e -> valid (shp s) i -> errs F c S (at_ s i) w ->
  fle f1 c -> (if fleb eps f0 && fleb f0 eps then s1 = s else rounded e (tmap (fun v => fadd v eps) s) s1) ->
  errs F (fmul c (fpow (fadd f1 e) (eps_roundings eps))) (fadd S (fabs eps)) (at_ s1 i) (fadd w eps).
Proof.
  intros He Vi E Hc H. unfold eps_roundings. destruct (fleb eps f0 && fleb f0 eps) eqn:Z.
  - apply eps_zero in Z. subst. cbn [fpow]. replace (fmul c f1) with c by ring. replace (fadd w f0) with w by ring.
    replace (fadd S (fabs f0)) with S; [exact E|]. rewrite fabs_pos by apply fle_refl. ring.
  - destruct H as [_ H]. cbn [fpow]. replace (fmul (fadd f1 e) f1) with (fadd f1 e) by ring.
    apply (err_round F e c _ (fadd (at_ s i) eps)); auto; [|apply H; auto].
    apply err_add; auto. apply (err_mono F f1 c); auto. split; [|apply fle_refl].
    replace (fsub eps eps) with (@f0 F) by ring. rewrite fabs_pos by apply fle_refl. replace (fmul (fsub f1 f1) (fabs eps)) with (@f0 F) by ring. apply fle_refl.
Qed.
Lemma wsum_const {A} (K : F) (l : list A) : wsum (map (fun _ => K) l) = fmul (fofZ (Z.of_nat (length l))) K.
Proof.
  unfold wsum. induction l as [|a l IH]; [cbn; ring|]. cbn [map fold_right length]. rewrite IH, Nat2Z.inj_succ. unfold Z.succ. rewrite fofZ_add.
  change (fofZ 1) with (@f1 F). ring.
Qed.
Theorem magnitude_rounding1 e fuel junk ker smooth raw normalize p m shared (g : edge_filter F) (x y' : T) ax al k B eps :
  fle f0 e -> edge_init (NItem ker) smooth normalize (Some p) shared = Ok g -> ker <> [] ->
  edge_image fuel p m x ax al (k + 1) -> m <> MPeriodize -> klen ker <= k ->
  expand (length al - 1) smooth = Some raw -> (forall s, In s raw -> klen s <= k) ->
  copy_padder B p m -> copy_padder (fmul (abs_sum (used_kernel trunc ker)) B) p m -> bounded B x ->
  fl_magnitude trunc e fuel junk g x ax eps P1 y' ->
  exists y, snd (magnitude trunc fuel junk g x ax eps P1) = Ok y /\
    within (fmul (fsub (fpow (fadd f1 e) (edge_roundings trunc ker + roundings (smoothers normalize raw) + (length al - 1) + eps_roundings eps)) f1)
                 (fadd (fmul (fofZ (Z.of_nat (length al))) (fmul (gain (smoothers normalize raw)) (fmul (abs_sum (used_kernel trunc ker)) B))) (fabs eps))) y' y.
Proof.
  intros He HI Hk EI Hm Hlk Hr Hs CP CP2 HB HF.
  destruct (mag_parts F trunc e fuel junk ker smooth raw normalize p m shared g x y' ax al k B eps P1 He HI Hk EI Hm Hlk Hr Hs CP CP2 HB HF)
    as [es [cs [qs [y [s [L2 [ND [Y1 [Y2 [Y3 [E [[S1 [S2 S3]] [s1 [Q1 ->]]]]]]]]]]]]]].
  exists y. split; auto. apply err_within.
  { rewrite Y2. destruct (fleb eps f0 && fleb f0 eps); [now subst|]. destruct Q1 as [Q _]. rewrite Q. cbn. exact S1. }
  intros i Vi. rewrite Y2 in Vi. rewrite Y3 by auto. cbn [take_root raise_to].
  rewrite (pow_add F e _ (eps_roundings eps)). apply (eps_err e _ _ eps s); auto; [congruence| |now apply pow_ge1].
  rewrite pow_add. change (fmul (gain (smoothers normalize raw)) (fmul (abs_sum (used_kernel trunc ker)) B)) with (edge_bound F trunc ker normalize raw B). rewrite <- (wsum_const (edge_bound F trunc ker normalize raw B) al).
  apply (sum_err F e (fpow (fadd f1 e) (edge_count F trunc ker normalize raw)) (fun a => at_ (qs a) i) (fun _ => edge_bound F trunc ker normalize raw B) (fun a => at_ (es a) i) al); auto; [now apply pow_ge1|].
  intros a Ha. destruct (S2 a Ha) as [_ Q]. cbn in Q. rewrite Q. auto.
Qed.
(** Laplace.forward (edges.py:216-217): [magnitude] with epsilon 0 and p = 1. *)
Theorem laplace_forward_rounding e fuel junk p m shared (g : edge_filter F) (x y' : T) ax al B : truncates trunc -> fle f0 e ->
  laplace_init (Some p) shared = Ok g -> edge_image fuel p m x ax al 6 -> m <> MPeriodize ->
  copy_padder B p m -> bounded B x -> fl_laplace_forward trunc e fuel junk g x ax y' ->
  exists y, snd (laplace_forward trunc fuel junk g x ax) = Ok y /\
    within (fmul (fsub (fpow (fadd f1 e) (length al + 1)) f1) (fmul (fofZ (Z.of_nat (length al))) (fmul (fofZ 4) B))) y' y.
Proof.
  intros TR He N EI Hm CP HB HF. assert (N' : named false (Some p) shared g laplace_kernel []) by now apply n_laplace.
  pose proof (named_init F _ _ _ _ _ _ N') as HI. pose proof (named_used F trunc _ _ _ _ _ _ TR N') as UK.
  assert (E2 : fmul (abs_sum (used_kernel trunc laplace_kernel)) B = fadd (fadd B B) (fadd B B)) by (rewrite UK, abs_laplace; ring).
  assert (L2 : (2 <= length al)%nat).
  { destruct HF as [al' [m0 [m1 [H1 [H2 _]]]]]. pose proof EI as [[A1 _ _] _ _ _ _ _]. rewrite A1 in H1. injection H1 as <-. now rewrite map_length in H2. }
  destruct (magnitude_rounding1 e fuel junk laplace_kernel (NItem []) (repeat [] (length al - 1)) false p m shared g x y' ax al 5 B f0) as [y [Y1 Y2]]; auto.
  - discriminate.
  - unfold klen. cbn. lia.
  - intros s Hs. apply repeat_spec in Hs. subst. unfold klen. cbn. lia.
  - apply (copy_double F p m B); auto.
  - exists y. split; [exact Y1|]. unfold smoothers in Y2. rewrite E2, edge_two, gain_nil, roundings_nil, Nat.add_0_r in Y2 by auto.
    assert (Z : eps_roundings (@f0 F) = 0%nat) by (unfold eps_roundings; assert (R0 : fleb (@f0 F) f0 = true) by apply fle_refl; now rewrite R0).
    rewrite Z, Nat.add_0_r, (fabs_pos F f0) in Y2 by apply fle_refl. replace (2 + (length al - 1))%nat with (length al + 1)%nat in Y2 by lia.
    replace (fmul (fofZ (Z.of_nat (length al))) (fmul (fofZ 4) B)) with (fadd (fmul (fofZ (Z.of_nat (length al))) (fmul f1 (fadd (fadd B B) (fadd B B)))) f0)
      by (unfold fofZ at 3; cbn [fofpos]; ring). exact Y2.
Qed.
(** The exact result is one of the possible ones. *)
Lemma mag_loop_exact e fuel junk axes p : fle f0 e -> forall todo (g : edge_filter F) (x : T) acc y,
  snd (mag_loop trunc fuel junk g x axes todo p acc) = Ok (Some y) -> fl_mag_loop trunc e fuel junk g x axes todo p acc y.
Proof.
  intros He. induction todo as [|a todo IH]; intros g x acc y; cbn [mag_loop fl_mag_loop]; [intros H; cbn in H; congruence|].
  destruct (component trunc fuel junk g x (AxInt a) (AxSeq axes)) as [g' r] eqn:C. destruct r as [c|]; [|discriminate]. cbn [bind].
  destruct (match acc with None => Ok (powered p c) | Some m => tiadd m (powered p c) end) as [m|] eqn:M; [|discriminate].
  intros H. exists c, (powered p c), m. split; [apply component_exact; auto; now rewrite C|]. cbn [fst]. split.
  { destruct p; [reflexivity|]. now apply rounded_refl. }
  split; [|now apply IH]. destruct acc as [m0|]; [|congruence]. exists m. split; auto. now apply rounded_refl.
Qed.
Lemma magnitude_last e fuel junk (g : edge_filter F) (x y y' : T) ax eps pow root : fle f0 e ->
  snd (magnitude trunc fuel junk g x ax eps (PGen pow root)) = Ok y -> rounded e y y' -> fl_magnitude trunc e fuel junk g x ax eps (PGen pow root) y'.
Proof.
  intros He. unfold magnitude. destruct (check_axes _ ax) as [al|] eqn:A; [|discriminate]. destruct (Nat.ltb_spec (length al) 2) as [|L]; [discriminate|].
  destruct (mag_loop trunc fuel junk g x al al (PGen pow root) None) as [g' r] eqn:M. cbn [snd]. destruct r as [[m|]|]; try discriminate. cbn [bind]. intros H R.
  assert (Lp : fl_mag_loop trunc e fuel junk g x al al (PGen pow root) None m) by (apply mag_loop_exact; auto; now rewrite M).
  set (m1 := if fleb eps f0 && fleb f0 eps then m else tmap (fun v => fadd v eps) m) in *. exists al, m, m1. do 3 (split; auto). split.
  - subst m1. destruct (fleb eps f0 && fleb f0 eps); [reflexivity|now apply rounded_refl].
  - injection H as <-. exact R.
Qed.
Theorem magnitude_exact e fuel junk (g : edge_filter F) (x y : T) ax eps p : fle f0 e ->
  snd (magnitude trunc fuel junk g x ax eps p) = Ok y -> fl_magnitude trunc e fuel junk g x ax eps p y.
Proof.
  intros He. destruct p as [|pow root]; [|intros H; apply (magnitude_last e fuel junk g x y y); auto; now apply rounded_refl].
  unfold magnitude. destruct (check_axes _ ax) as [al|] eqn:A; [|discriminate]. destruct (Nat.ltb_spec (length al) 2) as [|L]; [discriminate|].
  destruct (mag_loop trunc fuel junk g x al al P1 None) as [g' r] eqn:M. cbn [snd]. destruct r as [[m|]|]; try discriminate. cbn [bind]. intros H.
  assert (Lp : fl_mag_loop trunc e fuel junk g x al al P1 None m) by (apply mag_loop_exact; auto; now rewrite M).
  exists al, m, y. do 3 (split; auto). split; [|reflexivity]. injection H as <-. destruct (fleb eps f0 && fleb f0 eps); [reflexivity|now apply rounded_refl].
Qed.
(** Exact components, a rounded sum. *)
Lemma loop_last e fuel junk (g : edge_filter F) (x c d s s' : T) axes a b : fle f0 e ->
  let g1 := fst (component trunc fuel junk g x (AxInt a) (AxSeq axes)) in
  snd (component trunc fuel junk g x (AxInt a) (AxSeq axes)) = Ok c -> next_input g1 axes P1 x c = x ->
  snd (component trunc fuel junk g1 x (AxInt b) (AxSeq axes)) = Ok d -> tiadd c d = Ok s -> rounded e s s' ->
  fl_mag_loop trunc e fuel junk g x axes [a; b] P1 None s'.
Proof.
  intros He g1 H1 Hn H2 H3 H4. cbn [fl_mag_loop]. exists c, c, c. split; [now apply component_exact|]. split; [reflexivity|]. split; [reflexivity|]. fold g1. rewrite Hn.
  exists d, d, s'. split; [now apply component_exact|]. split; [reflexivity|]. split; [now exists s|reflexivity].
Qed.
End RMg1.
