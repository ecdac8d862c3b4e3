(** Edge filters: construction, independence of earlier calls, component (C44, C45, C74). *)
From Verif Require Export EdgeProofs.
Open Scope Z_scope.

(** Calls of an EdgeFilter; the result is ignored, the state stays. *)
Inductive edge_call (F : ofield) :=
| EComponent (fuel : nat) (junk : list Z -> F) (x : tensor F) (edge_axis smooth_axes : axes_arg)
| EAll (fuel : nat) (junk : list Z -> F) (x : tensor F) (axes : axes_arg)
| EMagnitude (fuel : nat) (junk : list Z -> F) (x : tensor F) (axes : axes_arg) (epsilon : F) (p : exponent F).
Arguments EComponent {F}. Arguments EAll {F}. Arguments EMagnitude {F}.
Definition do_edge {F : ofield} (trunc : F -> Z) (e : edge_filter F) (c : edge_call F) : edge_filter F * res (list (tensor F)) :=
  match c with
  | EComponent fuel junk x a s => let '(e, r) := component trunc fuel junk e x a s in (e, y <- r ;; Ok [y])
  | EAll fuel junk x a => all_components trunc fuel junk e x a
  | EMagnitude fuel junk x a eps p => let '(e, r) := magnitude trunc fuel junk e x a eps p in (e, y <- r ;; Ok [y])
  end.
Definition edge_after {F : ofield} (trunc : F -> Z) (e : edge_filter F) (cs : list (edge_call F)) : edge_filter F :=
  fold_left (fun e c => fst (do_edge trunc e c)) cs e.

(** The smoothing kernels really used, from those passed (edges.py:42-48). *)
Definition smoothers {F : ofield} (normalize : bool) (raw : list (list F)) : list (list F) :=
  if normalize then map (fun k => map (fun v => fdiv v (wsum k)) k) raw else raw.

Section ES.
Variable F : ofield.
Add Field Fes : (f_field F).
Notation T := (tensor F).
Variable trunc : F -> Z.

(** *** padding of a same filter *)
Lemma pool_pad_same fuel junk (m : pool F) (x : T) ax al kers sts p ms :
  pool_par F m (length al) kers sts -> expand (length al) (pl_size m) = Some (map klen kers) ->
  expand (length al) (pl_stride m) = Some sts -> pl_padder m = Some p ->
  same_call F fuel p x ax al ms kers sts ->
  exists ws xp, length ws = length al /\
    (forall r, (r < length al)%nat -> is_same_width (klen (nth r kers [])) (nth r sts 1) (nth (nth r al 0%nat) (shp x) 0) (nth r ws (0, 0))) /\
    pad_call fuel (with_width p ws) x ax al /\ all_fine F (with_width p ws) x al /\ no_empty_mode F (with_width p ws) al /\
    padder_forward fuel junk (with_width p ws) x ax = Ok xp /\ shp xp = full_shape (with_width p ws) al (shp x) /\
    pool_pad fuel junk m x ax = (set_padder m (with_width p ws), Ok xp).
Proof.
  intros PP He1 He2 Hp SC.
  destruct (sep_forward_same F fuel junk m x ax al kers sts p ms PP He1 He2 Hp SC) as
    [ws [xp [y [W1 [W2 [W3 [W4 [W5 [W6 [W7 [W8 _]]]]]]]]]]].
  exists ws, xp. do 7 (split; auto). pose proof SC as [[A1 A2 A3] _ _ _ _ _ _ _].
  assert (E : pool_pad fuel junk m x ax = pool_pad fuel junk m x (AxSeq (map Z.of_nat al))).
  { unfold pool_pad. rewrite A1. now rewrite check_axes_seq_nat. }
  rewrite E. clear E. unfold sep_forward in W8. rewrite A1 in W8. destruct (_ || _); [|discriminate].
  destruct (pool_pad fuel junk m x (AxSeq (map Z.of_nat al))) as [m' r] eqn:E. injection W8 as W8 W9.
  subst m'. f_equal. unfold pool_pad in E. rewrite check_axes_seq_nat in E by auto. rewrite Hp in E.
  destruct (mapM _ (map Z.of_nat al)) as [ns|]; [|].
  2:{ injection E as E1 E2. subst r. discriminate. }
  destruct (to_same _ _ _ _) as [p' r']. injection E as E1 E2.
  subst p'. destruct r' as [[]|]; [|cbn in E2; subst r; discriminate]. cbn [bind] in E2. rewrite <- E2.
  rewrite (padder_forward_axes F fuel junk _ x _ ax); auto. rewrite A1. apply check_axes_seq_nat; auto.
Qed.

(** *** construction *)
Lemma expand_mapM {A B} (f : A -> res B) (g : A -> B) n s s' l : (forall a b, f a = Ok b -> b = g a) ->
  nds_map f s = Ok s' -> expand n s = Some l -> expand n s' = Some (map g l).
Proof.
  intros Hf. destruct s as [a|l']; cbn [nds_map]; intros H E.
  - destruct (f a) as [b|] eqn:Eb; [|discriminate]. inv H. cbn in E. inv E. cbn. apply Hf in Eb. subst. f_equal. induction n; simpl; congruence.
  - destruct (mapM f l') as [r|] eqn:Er; [|discriminate]. inv H. cbn in E |- *.
    assert (L : r = map g l').
    { clear E. revert r Er. induction l' as [|a l' IH]; cbn; intros r Er; [inv Er; auto|].
      destruct (f a) eqn:Ea; [|discriminate]. cbn in Er. destruct (mapM f l') as [r'|]; [|discriminate]. cbn in Er. inv Er.
      f_equal; auto. }
    subst r. rewrite map_length. destruct (Nat.eqb (length l') n); inv E. reflexivity.
Qed.
Theorem edge_init_built ker smooth normalize pd shared (e : edge_filter F) : edge_init (NItem ker) smooth normalize pd shared = Ok e ->
  ef_kernel e = ker /\ ef_shared e = shared /\ built 1 [ker] [1] pd (ef_edge e) /\
  forall n raw, expand n smooth = Some raw -> built n (smoothers normalize raw) (repeat 1 n) pd (ef_smooth e).
Proof.
  unfold edge_init. intros H.
  assert (Pd : match pd with None => None | Some _ => pd end = pd) by (destruct pd; auto).
  destruct (if normalize then nds_map reweight smooth else Ok smooth) as [sm|] eqn:E0; [|discriminate]. cbn [bind] in H.
  destruct (sep_init (NItem ker) (NItem None) None) as [e0|] eqn:E1; [|discriminate]. cbn [bind] in H.
  destruct (to_filter e0 pd) as [ef|] eqn:E2; [|discriminate]. cbn [bind] in H.
  destruct (sep_init sm (NItem None) None) as [s0|] eqn:E3; [|discriminate]. cbn [bind] in H.
  destruct (to_filter s0 pd) as [sf|] eqn:E4; [|discriminate]. cbn [bind] in H. inv H. cbn [ef_kernel ef_edge ef_smooth ef_shared].
  split; auto. split; auto. split.
  - rewrite <- Pd. change [1] with (repeat 1 1). eapply built_filter; [|exact E2].
    eapply (built_init 1 [ker] (NItem ker) (NItem None) [None]); eauto; reflexivity.
  - intros n raw Hr. rewrite <- Pd. eapply built_filter; [|exact E4].
    eapply (built_init n (smoothers normalize raw) sm (NItem None) (repeat None n)); eauto; try reflexivity.
    unfold smoothers. destruct normalize; [|inv E0; auto].
    eapply expand_mapM; [|exact E0|exact Hr]. intros k b. unfold reweight. destruct k; [intros Q; inv Q; reflexivity|].
    destruct (_ && _); [discriminate|]. intros Q. inv Q. reflexivity.
Qed.

(** *** states that differ in padding widths only *)
Definition elike (e e' : edge_filter F) : Prop :=
  ef_kernel e = ef_kernel e' /\ ef_shared e = ef_shared e' /\ mlike F (ef_edge e) (ef_edge e') /\ mlike F (ef_smooth e) (ef_smooth e').
(** Both filters have similar padders. *)
Definition coh (e : edge_filter F) : Prop :=
  match pl_padder (ef_edge e), pl_padder (ef_smooth e) with
  | None, None => True | Some p, Some q => like F p q | _, _ => False end.
Lemma elike_refl e : elike e e.
Proof. split; auto. split; auto. split; apply mlike_refl. Qed.
Lemma elike_trans a b c : elike a b -> elike b c -> elike a c.
Proof. intros [A1 [A2 [A3 A4]]] [B1 [B2 [B3 B4]]]. split; [congruence|]. split; [congruence|]. split; eapply mlike_trans; eauto. Qed.
Lemma elike_sym a b : elike a b -> elike b a.
Proof. intros [A1 [A2 [A3 A4]]]. split; [congruence|]. split; [congruence|]. split; apply mlike_sym; auto. Qed.
Lemma coh_like e e' : elike e e' -> coh e -> coh e'.
Proof.
  intros [A1 [A2 [[_ [_ [_ [_ A3]]]] [_ [_ [_ [_ A4]]]]]]]. unfold coh.
  destruct (pl_padder (ef_edge e)), (pl_padder (ef_smooth e)), (pl_padder (ef_edge e')), (pl_padder (ef_smooth e')); try contradiction; auto.
  intros H. eapply like_trans; [apply like_sym; eauto|]. eapply like_trans; eauto.
Qed.
Lemma set_edge_like e m : coh e -> mlike F (ef_edge e) m -> elike e (set_edge e m).
Proof.
  intros C M. split; [reflexivity|]. split; [reflexivity|]. split; [exact M|].
  cbn [set_edge ef_smooth]. unfold share. destruct (ef_shared e); [|apply mlike_refl].
  destruct M as [_ [_ [_ [_ M]]]]. unfold coh in C. destruct (pl_padder m) as [p|]; [|apply mlike_refl].
  destruct (pl_padder (ef_edge e)) as [q|]; [|contradiction]. destruct (pl_padder (ef_smooth e)) as [s|] eqn:Es; [|contradiction].
  do 4 (split; [reflexivity|]). rewrite Es. cbn. eapply like_trans; [apply like_sym; eauto|]. auto.
Qed.
Lemma set_smooth_like e m : coh e -> mlike F (ef_smooth e) m -> elike e (set_smooth e m).
Proof.
  intros C M. split; [reflexivity|]. split; [reflexivity|]. split; [|exact M].
  cbn [set_smooth ef_edge]. unfold share. destruct (ef_shared e); [|apply mlike_refl].
  destruct M as [_ [_ [_ [_ M]]]]. unfold coh in C. destruct (pl_padder m) as [p|]; [|apply mlike_refl].
  destruct (pl_padder (ef_edge e)) as [q|] eqn:Es; [|destruct (pl_padder (ef_smooth e)); contradiction].
  destruct (pl_padder (ef_smooth e)) as [s|]; [|contradiction].
  do 4 (split; [reflexivity|]). rewrite Es. cbn. eapply like_trans; eauto.
Qed.
Lemma init_coh ker smooth normalize pd shared (e : edge_filter F) : edge_init (NItem ker) smooth normalize pd shared = Ok e -> coh e.
Proof.
  unfold edge_init. intros H.
  destruct (if normalize then nds_map reweight smooth else Ok smooth) as [sm|] eqn:E0; [|discriminate]. cbn [bind] in H.
  destruct (sep_init (NItem ker) (NItem None) None) as [e0|] eqn:E1; [|discriminate]. cbn [bind] in H.
  destruct (to_filter e0 pd) as [ef|] eqn:E2; [|discriminate]. cbn [bind] in H.
  destruct (sep_init sm (NItem None) None) as [s0|] eqn:E3; [|discriminate]. cbn [bind] in H.
  destruct (to_filter s0 pd) as [sf|] eqn:E4; [|discriminate]. cbn [bind] in H. inv H. unfold coh. cbn [ef_edge ef_smooth].
  assert (P0 : forall k (m0 m1 : pool F), sep_init k (NItem None) None = Ok m0 -> to_filter m0 pd = Ok m1 -> pl_padder m1 = pd).
  { intros k m0 m1 A B. unfold sep_init in A. destruct (read_stride _ _); [|discriminate]. cbn [bind] in A.
    destruct (pool_align _ _); [|discriminate]. cbn [bind] in A. inv A. unfold to_filter in B. cbn [pl_kernel] in B.
    destruct (pool_align _ _); [|discriminate]. cbn [bind] in B. inv B. cbn. destruct pd; auto. }
  rewrite (P0 _ _ _ E1 E2), (P0 _ _ _ E3 E4). destruct pd; auto. apply like_refl.
Qed.

Lemma conv_edge_like fuel junk e e' (x : T) a : elike e e' -> coh e ->
  snd (conv_edge trunc fuel junk e x a) = snd (conv_edge trunc fuel junk e' x a) /\
  elike e (fst (conv_edge trunc fuel junk e x a)).
Proof.
  intros L C. pose proof L as [A1 [A2 [A3 A4]]]. unfold conv_edge. rewrite <- A1.
  destruct (pool_pad_like F fuel junk _ _ x (AxInt a) A3) as [P1 [P2 _]].
  destruct (sep_forward_like F fuel junk _ _ x (AxInt a) A3) as [S1 [S2 _]].
  destruct (zlist_eqb _ _); [|destruct (zlist_eqb _ _)].
  - destruct (pool_pad fuel junk (ef_edge e) x _) as [m r]. destruct (pool_pad fuel junk (ef_edge e') x _) as [m' r'].
    cbn [fst snd] in *. subst r'. split; auto. apply set_edge_like; auto.
  - destruct (pool_pad fuel junk (ef_edge e) x _) as [m r]. destruct (pool_pad fuel junk (ef_edge e') x _) as [m' r'].
    cbn [fst snd] in *. subst r'. split; auto. apply set_edge_like; auto.
  - destruct (sep_forward fuel junk (ef_edge e) x _) as [m r]. destruct (sep_forward fuel junk (ef_edge e') x _) as [m' r'].
    cbn [fst snd] in *. subst r'. split; auto. apply set_edge_like; auto.
Qed.
Lemma component_like fuel junk e e' (x : T) a s : elike e e' -> coh e ->
  snd (component trunc fuel junk e x a s) = snd (component trunc fuel junk e' x a s) /\
  elike e (fst (component trunc fuel junk e x a s)).
Proof.
  intros L C. pose proof (elike_refl e) as R. unfold component.
  destruct (check_axes _ a) as [[|a0 [|? ?]]|]; cbn [fst snd]; auto.
  destruct (check_axes _ s) as [sa|]; cbn [fst snd]; auto.
  destruct (conv_edge_like fuel junk e e' x a0 L C) as [E1 E2].
  destruct (conv_edge_like fuel junk e' e x a0 (elike_sym _ _ L) (coh_like _ _ L C)) as [_ E3].
  destruct (conv_edge trunc fuel junk e x a0) as [e1 r]. destruct (conv_edge trunc fuel junk e' x a0) as [e1' r'].
  cbn [fst snd] in *. subst r'. destruct r as [c|]; cbn [fst snd]; auto.
  assert (L1 : elike e1 e1') by (eapply elike_trans; [apply elike_sym; exact E2|]; eapply elike_trans; [exact L|exact E3]).
  pose proof L1 as [B1 [B2 [B3 B4]]].
  destruct (sep_forward_like F fuel junk _ _ c (AxSeq (filter (fun b => negb (b =? a0)) sa)) B4) as [S1 [S2 _]].
  destruct (sep_forward fuel junk (ef_smooth e1) c _) as [m q]. destruct (sep_forward fuel junk (ef_smooth e1') c _) as [m' q'].
  cbn [fst snd] in *. subst q'. split; auto. eapply elike_trans; [exact E2|]. apply set_smooth_like; auto. eapply coh_like; eauto.
Qed.
Lemma component_list_like fuel junk (x : T) axes : forall todo e e', elike e e' -> coh e ->
  snd (component_list trunc fuel junk e x axes todo) = snd (component_list trunc fuel junk e' x axes todo) /\
  elike e (fst (component_list trunc fuel junk e x axes todo)).
Proof.
  induction todo as [|a todo IH]; intros e e' L C; cbn [component_list].
  - cbn. split; auto. apply elike_refl.
  - destruct (component_like fuel junk e e' x (AxInt a) (AxSeq axes) L C) as [E1 E2].
    destruct (component_like fuel junk e' e x (AxInt a) (AxSeq axes) (elike_sym _ _ L) (coh_like _ _ L C)) as [_ E3].
    destruct (component trunc fuel junk e x _ _) as [e1 r]. destruct (component trunc fuel junk e' x _ _) as [e1' r'].
    cbn [fst snd] in *. subst r'. destruct r as [c|]; cbn [fst snd]; auto.
    assert (L1 : elike e1 e1') by (eapply elike_trans; [apply elike_sym; exact E2|]; eapply elike_trans; [exact L|exact E3]).
    destruct (IH e1 e1' L1 (coh_like _ _ E2 C)) as [F1 F2].
    destruct (component_list trunc fuel junk e1 x axes todo) as [e2 q]. destruct (component_list trunc fuel junk e1' x axes todo) as [e2' q'].
    cbn [fst snd] in *. subst q'. split; auto. eapply elike_trans; eauto.
Qed.
Lemma all_components_like fuel junk (x : T) axes e e' : elike e e' -> coh e ->
  snd (all_components trunc fuel junk e x axes) = snd (all_components trunc fuel junk e' x axes) /\
  elike e (fst (all_components trunc fuel junk e x axes)).
Proof.
  intros L C. pose proof (elike_refl e). unfold all_components. destruct (check_axes _ axes) as [al|]; cbn [fst snd]; auto.
  destruct (Nat.ltb _ _); cbn [fst snd]; auto. now apply component_list_like.
Qed.
Lemma next_input_like e e' axes p (x m : T) : elike e e' -> next_input e axes p x m = next_input e' axes p x m.
Proof.
  intros L. unfold next_input, untouched. destruct p; auto. destruct L as [L1 [_ [_ L2]]].
  destruct L2 as [L2 _]. now rewrite L1, L2.
Qed.
Lemma mag_loop_like fuel junk axes p : forall todo e e' (x : T) acc, elike e e' -> coh e ->
  snd (mag_loop trunc fuel junk e x axes todo p acc) = snd (mag_loop trunc fuel junk e' x axes todo p acc) /\
  elike e (fst (mag_loop trunc fuel junk e x axes todo p acc)).
Proof.
  induction todo as [|a todo IH]; intros e e' x acc L C; cbn [mag_loop].
  - cbn. split; auto. apply elike_refl.
  - destruct (component_like fuel junk e e' x (AxInt a) (AxSeq axes) L C) as [E1 E2].
    destruct (component_like fuel junk e' e x (AxInt a) (AxSeq axes) (elike_sym _ _ L) (coh_like _ _ L C)) as [_ E3].
    destruct (component trunc fuel junk e x _ _) as [e1 r]. destruct (component trunc fuel junk e' x _ _) as [e1' r'].
    cbn [fst snd] in *. subst r'.
    assert (L1 : elike e1 e1') by (eapply elike_trans; [apply elike_sym; exact E2|]; eapply elike_trans; [exact L|exact E3]).
    match goal with |- context [match ?r with Ok _ => _ | Err _ => _ end] => destruct r as [c|]; cbn [fst snd]; auto end.
    rewrite <- (next_input_like e1 e1' axes p x c L1).
    destruct (IH e1 e1' (next_input e1 axes p x c) (Some c) L1 (coh_like _ _ E2 C)) as [F1 F2]. split; auto. eapply elike_trans; eauto.
Qed.
Lemma magnitude_like fuel junk (x : T) axes eps p e e' : elike e e' -> coh e ->
  snd (magnitude trunc fuel junk e x axes eps p) = snd (magnitude trunc fuel junk e' x axes eps p) /\
  elike e (fst (magnitude trunc fuel junk e x axes eps p)).
Proof.
  intros L C. pose proof (elike_refl e). unfold magnitude. destruct (check_axes _ axes) as [al|]; cbn [fst snd]; auto.
  destruct (Nat.ltb _ _); cbn [fst snd]; auto.
  destruct (mag_loop_like fuel junk al p al e e' x None L C) as [E1 E2].
  destruct (mag_loop trunc fuel junk e x _ _ _ _) as [e1 r]. destruct (mag_loop trunc fuel junk e' x _ _ _ _) as [e1' r'].
  cbn [fst snd] in *. subst r'. auto.
Qed.
Lemma do_edge_like e e' c : elike e e' -> coh e ->
  snd (do_edge trunc e c) = snd (do_edge trunc e' c) /\ elike e (fst (do_edge trunc e c)).
Proof.
  intros L C. destruct c; cbn [do_edge].
  - destruct (component_like fuel junk e e' x edge_axis smooth_axes L C) as [E1 E2].
    destruct (component trunc fuel junk e x _ _). destruct (component trunc fuel junk e' x _ _). cbn [fst snd] in *. subst. auto.
  - now apply all_components_like.
  - destruct (magnitude_like fuel junk x axes epsilon p e e' L C) as [E1 E2].
    destruct (magnitude trunc fuel junk e x _ _ _). destruct (magnitude trunc fuel junk e' x _ _ _). cbn [fst snd] in *. subst. auto.
Qed.
Theorem edge_history ker smooth normalize pd shared (e : edge_filter F) cs c :
  edge_init (NItem ker) smooth normalize pd shared = Ok e ->
  snd (do_edge trunc (edge_after trunc e cs) c) = snd (do_edge trunc e c).
Proof.
  intros H. apply init_coh in H. symmetry. apply do_edge_like; auto. clear c.
  unfold edge_after. revert e H. induction cs as [|c cs IH]; intros e H; cbn [fold_left]; [apply elike_refl|].
  destruct (do_edge_like e e c (elike_refl e) H) as [_ L]. eapply elike_trans; [exact L|]. apply IH. eapply coh_like; eauto.
Qed.

(** *** _conv_edge (C44) *)
Lemma full_nonneg fuel p (x : T) ax al ms kers sts ws : same_call F fuel p x ax al ms kers sts ->
  length ws = length al -> length kers = length al ->
  (forall r, (r < length al)%nat -> is_same_width (klen (nth r kers [])) (nth r sts 1) (nth (nth r al 0%nat) (shp x) 0) (nth r ws (0, 0))) ->
  forall d, (d < ndim x)%nat -> 0 <= nth d (full_shape (with_width p ws) al (shp x)) 0.
Proof.
  intros SC L Lk Hw d Hd. destruct (same_pad_call F fuel p x ax al ms kers sts ws SC L Lk Hw) as [_ [_ [_ [_ [FN FS]]]]].
  pose proof SC as [_ _ P0 P1 S1 _ _ _].
  destruct (in_dec Nat.eq_dec d al) as [Hi|Hi]; [|rewrite FN; auto].
  destruct (In_pos d al 0%nat Hi) as [r [Hr <-]]. rewrite FS by auto. cbv zeta.
  assert (K0 : 0 <= klen (nth r kers [])) by (unfold klen; lia).
  pose proof (same_width_bounds _ _ _ _ (S1 r Hr) K0 (Hw r Hr)) as B. specialize (P0 _ Hd).
  pose proof (Z.mod_pos_bound (nth (nth r al 0%nat) (shp x) 0) 2). destruct (_ && _); [lia|]. destruct (is_periodize _); lia.
Qed.

Theorem conv_edge_same fuel junk ker smooth normalize p shared (e : edge_filter F) (x : T) a ms :
  edge_init (NItem ker) smooth normalize (Some p) shared = Ok e -> ker <> [] ->
  same_call F fuel p x (AxInt (Z.of_nat a)) [a] ms [ker] [1] ->
  exists w xp c, is_same_width (klen ker) 1 (nth a (shp x) 0) w /\
    pad_call fuel (with_width p [w]) x (AxInt (Z.of_nat a)) [a] /\ all_fine F (with_width p [w]) x [a] /\
    no_empty_mode F (with_width p [w]) [a] /\ shp xp = full_shape (with_width p [w]) [a] (shp x) /\
    padder_forward fuel junk (with_width p [w]) x (AxInt (Z.of_nat a)) = Ok xp /\
    snd (conv_edge trunc fuel junk e x (Z.of_nat a)) = Ok c /\
    shp c = upd a (nth a (shp xp) 0 - klen ker + 1) (shp x) /\
    shp xp = upd a (nth a (shp xp) 0) (shp x) /\
    nth a (shp x) 0 <= nth a (shp xp) 0 - klen ker + 1 <= nth a (shp x) 0 + 1 /\
    (~ In MPeriodize ms -> shp c = shp x) /\
    forall j, valid (shp c) j -> at_ c j = line_corr F xp (used_kernel trunc ker) a j.
Proof.
  intros HI Hk SC. destruct (edge_init_built _ _ _ _ _ _ HI) as [I1 [I2 [I3 _]]].
  destruct (built_par F _ _ _ _ _ I3) as [PP [Pd [X1 [X2 X3]]]].
  pose proof SC as [[A1 A2 A3] N0 P0 P1 S1 PF FM FU].
  assert (Ha : (a < ndim x)%nat) by (apply A2; now left).
  destruct (pool_pad_same fuel junk (ef_edge e) x _ [a] [ker] [1] p ms PP X1 X2 Pd SC) as [ws [xp [W1 [W2 [W3 [W4 [W5 [W6 [W7 W8]]]]]]]]].
  destruct ws as [|w [|]]; try discriminate. pose proof (W2 0%nat ltac:(simpl; lia)) as Hw. cbn [nth] in Hw.
  destruct (same_pad_call F fuel p x _ [a] ms [ker] [1] [w] SC eq_refl eq_refl W2) as [_ [_ [_ [FL [FN FS]]]]].
  assert (Nx : ndim xp = ndim x) by (unfold ndim; rewrite W7; auto).
  assert (H1 : 1 <= nth a (shp x) 0) by (apply P1; now left).
  assert (K1 : 1 <= klen ker) by (unfold klen; destruct ker; [congruence|simpl length; lia]).
  destruct (same_width_windows (klen ker) 1 (nth a (shp x) 0) w (nth a (shp x) 0)) as [B1 B2]; auto; try lia; [unfold is_ceil_div; lia|].
  rewrite Z.div_1_r in B2. specialize (FS 0%nat ltac:(simpl; lia)). cbn [nth] in FS. cbv zeta in FS.
  pose proof (Z.mod_pos_bound (nth a (shp x) 0) 2).
  assert (Hfit : klen ker <= nth a (shp xp) 0).
  { rewrite W7, FS. destruct (_ && _) eqn:Ez; [bdestr; lia|]. destruct (is_periodize _); lia. }
  destruct (conv_edge_ok F trunc fuel junk e x xp a (set_padder (ef_edge e) (with_width p [w]))) as [c [C1 [C2 C3]]]; auto.
  { now rewrite I1. } { now rewrite I1. }
  { intros d Hd. rewrite W7. eapply full_nonneg; eauto. rewrite <- Nx. auto. }
  { now rewrite I1. }
  rewrite I1 in C2, C3.
  assert (S2 : upd a (nth a (shp xp) 0 - klen ker + 1) (shp xp) = upd a (nth a (shp xp) 0 - klen ker + 1) (shp x)).
  { apply list_ext with (d := 0). { rewrite !upd_length. exact Nx. }
    intros d Hd. rewrite upd_length in Hd. rewrite !nth_upd. rewrite Nx || (unfold ndim in Nx; rewrite Nx).
    destruct (Nat.eqb_spec a d); cbn [andb].
    - subst. destruct (Nat.ltb_spec d (length (shp x))); auto. unfold ndim in *. lia.
    - rewrite W7. apply FN; [intros [?|[]]; auto|]. unfold ndim in *. lia. }
  exists w, xp, c. do 6 (split; auto). rewrite C1. split; auto. split; [congruence|]. split.
  { rewrite <- (upd_nth a (shp xp) 0) at 1. transitivity (upd a (nth a (shp xp) 0) (upd a (nth a (shp xp) 0 - klen ker + 1) (shp xp))); [now rewrite upd_upd|].
    rewrite S2. now rewrite upd_upd. }
  split.
  { rewrite W7, FS. destruct (_ && _) eqn:Ez; [bdestr; lia|]. destruct (is_periodize _); lia. }
  split; auto.
  intros Hper. rewrite C2, S2. rewrite W7, FS.
  assert (Em : is_periodize (nth 0 ms MUnknown) = false).
  { destruct ms as [|m0 ms']; [reflexivity|]. cbn [nth]. destruct m0; auto. exfalso. apply Hper. now left. }
  rewrite Em. transitivity (upd a (nth a (shp x) 0) (shp x)); [f_equal|apply upd_nth].
  destruct (_ && _) eqn:Ez; bdestr; lia.
Qed.
Theorem conv_edge_valid fuel junk ker smooth normalize shared (e : edge_filter F) (x : T) a :
  edge_init (NItem ker) smooth normalize None shared = Ok e -> ker <> [] -> (a < ndim x)%nat ->
  (forall d, (d < ndim x)%nat -> 0 <= nth d (shp x) 0) -> klen ker <= nth a (shp x) 0 ->
  exists c, snd (conv_edge trunc fuel junk e x (Z.of_nat a)) = Ok c /\
    shp c = upd a (nth a (shp x) 0 - klen ker + 1) (shp x) /\
    forall j, valid (shp c) j -> at_ c j = line_corr F x (used_kernel trunc ker) a j.
Proof.
  intros HI Hk Ha Hn Hfit. destruct (edge_init_built _ _ _ _ _ _ HI) as [I1 [I2 [I3 _]]].
  destruct (built_par F _ _ _ _ _ I3) as [PP [Pd [X1 [X2 X3]]]].
  destruct (conv_edge_ok F trunc fuel junk e x x a (ef_edge e)) as [c [C1 [C2 C3]]]; auto.
  { now rewrite I1. } { now rewrite I1. }
  { unfold pool_pad. rewrite Pd. unfold check_axes. destruct (Z.leb_spec 0 (Z.of_nat a)); [auto|lia]. }
  { now rewrite I1. }
  rewrite I1 in C2, C3. exists c. rewrite C1. auto.
Qed.
End ES.
