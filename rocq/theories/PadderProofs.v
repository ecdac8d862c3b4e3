(** Padder.forward refines the sequential specification of PadNdSpec.v. *)
From Verif Require Export Pad1dProofs PadNdSpec.
From Coq Require Import Permutation Sorted.

(** ** Right-justified indexing *)
Lemma pyidx_rev {A} (l : list A) r :
  pyidx l (- Z.of_nat (S r)) = match nth_error (rev l) r with Some a => Ok a | None => Err IndexError end.
Proof.
  unfold pyidx. destruct (Z.ltb_spec (- Z.of_nat (S r)) 0); [|lia].
  destruct (Nat.ltb_spec r (length l)).
  - destruct (Z.leb_spec 0 (- Z.of_nat (S r) + Z.of_nat (length l))); [|lia].
    destruct (Z.ltb_spec (- Z.of_nat (S r) + Z.of_nat (length l)) (Z.of_nat (length l))); [|lia].
    cbn [andb]. replace (Z.to_nat (- Z.of_nat (S r) + Z.of_nat (length l))) with (length l - S r)%nat by lia.
    destruct l as [|d l0]; [simpl in *; lia|]. set (l := d :: l0) in *.
    rewrite (nth_error_nth' (rev l) d) by (rewrite rev_length; auto).
    rewrite rev_nth by auto. rewrite (nth_error_nth' l d) by lia. reflexivity.
  - destruct (Z.leb_spec 0 (- Z.of_nat (S r) + Z.of_nat (length l))); [lia|]. cbn [andb].
    rewrite (proj2 (nth_error_None (rev l) r)); auto. rewrite rev_length. lia.
Qed.
Lemma nds_get_item {A} (s : nds A) r :
  nds_get s (- Z.of_nat (S r)) = match item s r with Some a => Ok a | None => Err IndexError end.
Proof. destruct s; [reflexivity|]. apply pyidx_rev. Qed.

Fixpoint negs (n : nat) : list Z :=
  match n with O => [] | S k => (- Z.of_nat (S k)) :: negs k end.
Lemma neg_range_aux m : forall lo k, map (fun i => i - k) (zseq lo m) =
  match m with O => [] | S m' => (lo - k) :: map (fun i => i - k) (zseq (lo + 1) m') end.
Proof. destruct m; reflexivity. Qed.
Lemma neg_range_negs n : neg_range (Z.of_nat n) = negs n.
Proof.
  unfold neg_range, zrange. rewrite Nat2Z.id.
  assert (H : forall m lo, map (fun k => k - Z.of_nat n) (zseq lo m) = negs m \/ lo + Z.of_nat m <> Z.of_nat n).
  { induction m; intros lo; [left; reflexivity|].
    destruct (Z.eq_dec (lo + Z.of_nat (S m)) (Z.of_nat n)); [left|right; auto].
    cbn [zseq map negs]. f_equal; [lia|]. destruct (IHm (lo + 1)); [auto|lia]. }
  destruct (H n 0); [auto|lia].
Qed.

Lemma pyidx_app_axis pre a rest :
  pyidx (map Z.of_nat (pre ++ a :: rest)) (- Z.of_nat (S (length rest))) = Ok (Z.of_nat a).
Proof.
  rewrite pyidx_rev, <- map_rev, rev_app_distr. simpl rev. rewrite <- app_assoc.
  rewrite nth_error_map, nth_error_app2; rewrite rev_length; [|lia].
  rewrite Nat.sub_diag. reflexivity.
Qed.
Lemma of_nat_neg a : (Z.of_nat a <? 0) = false.
Proof. destruct (Z.ltb_spec (Z.of_nat a) 0); lia || reflexivity. Qed.
Lemma axis_nat_ok nd a : (a < nd)%nat -> axis_nat nd (Z.of_nat a) = Ok a.
Proof.
  intros. unfold axis_nat. destruct (Z.ltb_spec (Z.of_nat a) 0); [lia|].
  destruct (Z.leb_spec 0 (Z.of_nat a)); [|lia]. destruct (Z.ltb_spec (Z.of_nat a) (Z.of_nat nd)); [|lia].
  simpl. now rewrite Nat2Z.id.
Qed.

Section P.
Variable F : ofield.
Notation T := (tensor F).

(** ** The mode table *)
Lemma mode_ext_core (m : mode F) pb pa cv ev sl e : mode_ext m pb pa cv ev sl = Some e -> core F e.
Proof.
  destruct m; simpl; intros H; inv H;
  auto using circular_core, symmetric_core, antisymmetric_core, reflect_core, odd_reflect_core,
    odd_symmetric_core, replicate_core, smooth_core, linear_ramp_core, constant_core, stat_core, periodize_core.
Qed.
Lemma mode_ext_extl (m : mode F) pb pa cv ev sl e n : mode_ext m pb pa cv ev sl = Some e ->
  1 <= n \/ empty_ok m = true ->
  forall f g t, (forall u, 0 <= u < n -> f u = g u) -> e n f t = e n g t.
Proof.
  intros H Hn f g t Hfg. destruct (Z.le_gt_cases 1 n).
  - revert f g t Hfg. assert (X : extensional F e); [|intros; apply X; auto].
    destruct m; simpl in H; inv H;
    auto using circular_extl, symmetric_extl, antisymmetric_extl, reflect_extl, odd_reflect_extl,
      odd_symmetric_extl, replicate_extl, smooth_extl, linear_ramp_extl, constant_extl, stat_extl, periodize_extl.
  - destruct Hn as [|Hn]; [lia|]. destruct m; try discriminate. simpl in H. inv H.
    unfold ext_constant. repeat zcase; auto.
Qed.

Lemma mode_pads fuel (m : mode F) pb pa cv ev sl e (y : T) idx a head tail :
  mode_ext m pb pa cv ev sl = Some e ->
  wfi (shp y) idx a -> nth a idx sfull = srng head tail -> 0 <= head -> head <= tail ->
  1 <= tail - head \/ empty_ok m = true -> head = pb ->
  nth a (shp y) 0 = tail + pa + parity_slot m (tail - head) -> 0 <= pa ->
  nth a (shp y) 0 <= Z.of_nat fuel ->
  exists pf, pad_func_of fuel false m cv ev sl = Ok pf /\ pads F pf y idx a head tail e.
Proof.
  intros He W Hi H1 H2 H3 H4 H5 H6 Hf.
  assert (Hpar : 0 <= parity_slot m (tail - head)).
  { destruct m; simpl; try lia. pose proof (Z.mod_pos_bound (tail - head) 2). lia. }
  destruct (empty_ok m) eqn:Em.
  - destruct m; try discriminate. simpl in He. inv He. eexists; split; [reflexivity|].
    apply constant_pads; auto. lia.
  - destruct H3 as [H3|H3]; [|discriminate].
    assert (P : pre F y idx a head tail) by (split; auto; lia).
    destruct m; simpl in He; inv He; try discriminate; (eexists; split; [reflexivity|]).
    + now apply replicate_pads.
    + now apply smooth_pads.
    + now apply circular_pads.
    + apply periodize_pads; auto. simpl in H5. lia.
    + apply (symmetric_pads F y idx a _ tail P false fuel Hf).
    + now apply reflect_pads.
    + apply (symmetric_pads F y idx a _ tail P true fuel Hf).
    + now apply odd_reflect_pads.
    + now apply odd_symmetric_pads.
    + now apply stat_pads.
    + replace pa with (nth a (shp y) 0 - tail) by (simpl in H5; lia).
      now apply (linear_ramp_pads F y idx a _ tail P).
Qed.

(** ** Regions *)
Section Region.
Variables (NS : list Z).
Let nd := length NS.

Definition idxrep (idx : list slice) (h t : list Z) : Prop :=
  length idx = nd /\ length h = nd /\ length t = nd /\
  forall d, (d < nd)%nat -> resolve (nth d NS 0) (nth d idx sfull) = mkR (nth d h 0) (nth d t 0 - nth d h 0) 1
    /\ s_st (nth d idx sfull) = 1 /\ 0 <= nth d h 0 <= nth d t 0 /\ nth d t 0 <= nth d NS 0.

Definition reg (h t j : list Z) : Prop :=
  length j = nd /\ forall d, (d < nd)%nat -> nth d h 0 <= nth d j 0 < nth d t 0.

Lemma reg_valid idx h t j : idxrep idx h t -> reg h t j -> valid NS j.
Proof.
  intros [_ [_ [_ H]]] [L R]. apply valid_iff. split; auto. intros d Hd.
  specialize (H d Hd). specialize (R d Hd). lia.
Qed.

Lemma idxrep_wfi idx h t a : idxrep idx h t -> (a < nd)%nat -> wfi NS idx a.
Proof.
  intros [L [_ [_ H]]] Ha. split; auto.
  - intros d Hd. rewrite L in Hd. now apply H.
  - intros d Hd. specialize (H d Hd). lia.
Qed.

Lemma slabb_reg idx h t a j : idxrep idx h t -> (a < nd)%nat -> valid NS j ->
  (slabb NS idx a j = true <-> forall d, (d < nd)%nat -> d <> a -> nth d h 0 <= nth d j 0 < nth d t 0).
Proof.
  intros X Ha V. pose proof (idxrep_wfi _ _ _ _ X Ha) as W. destruct X as [L [L1 [L2 H]]].
  rewrite (slabb_spec NS idx a W j V). split; intros R d Hd Hne; specialize (R d Hd Hne).
  - rewrite (nth_R0 NS idx a W) in R by auto. destruct (H d Hd) as [E [_ ?]]. rewrite E in R.
    unfold rinb in R. simpl in R. bdestr. lia.
  - rewrite (nth_R0 NS idx a W) by auto. destruct (H d Hd) as [E [_ ?]]. rewrite E.
    unfold rinb. simpl. rewrite Z.mod_1_r. repeat zcase; auto; lia.
Qed.

Lemma idxrep_srng h t : length h = nd -> length t = nd ->
  (forall d, (d < nd)%nat -> 0 <= nth d h 0 <= nth d t 0 /\ nth d t 0 <= nth d NS 0) ->
  idxrep (map2 srng h t) h t.
Proof.
  intros L1 L2 H. split; [rewrite map2_length_eq; lia|]. split; auto. split; auto.
  intros d Hd. specialize (H d Hd). rewrite nth_map2 with (da := 0) (db := 0) by lia.
  split; [apply resolve_srng; lia|]. split; auto.
Qed.
Lemma idxrep_upd idx h t a h' t' : idxrep idx h t -> (a < nd)%nat ->
  0 <= h' <= t' -> t' <= nth a NS 0 ->
  idxrep (upd a (srng h' t') idx) (upd a h' h) (upd a t' t).
Proof.
  intros [L [L1 [L2 H]]] Ha H1 H2. split; [now rewrite upd_length|].
  split; [now rewrite upd_length|]. split; [now rewrite upd_length|].
  intros d Hd. destruct (Nat.eq_dec a d).
  - subst d. rewrite !nth_upd_eq by lia. split; [apply resolve_srng; lia|]. split; auto.
  - rewrite !nth_upd_ne by auto. now apply H.
Qed.

(** [y[idx] = x] with x of exactly the size of the block *)
Lemma tset_block {A} (buf x : tensor A) idx h t : shp buf = NS -> idxrep idx h t ->
  length (shp x) = nd -> (forall d, (d < nd)%nat -> nth d (shp x) 0 = nth d t 0 - nth d h 0) ->
  exists y, tset buf idx x = Ok y /\ shp y = NS /\
    (forall j, reg h t j -> at_ y j = at_ x (map2 Z.sub j h)) /\
    (forall j, valid NS j -> ~ reg h t j -> at_ y j = at_ buf j).
Proof.
  intros Hb [L [L1 [L2 H]]] Lx Hx. unfold tset. rewrite Hb, L. unfold nd at 1. rewrite Nat.eqb_refl.
  set (R := map2 resolve NS idx).
  assert (LR : length R = nd) by (unfold R; rewrite map2_length_eq; auto).
  assert (HR : forall d, (d < nd)%nat -> nth d R dR = mkR (nth d h 0) (nth d t 0 - nth d h 0) 1).
  { intros d Hd. unfold R. rewrite nth_map2 with (da := 0) (db := sfull) by (auto; lia). now apply H. }
  assert (Elen : map r_len R = shp x).
  { apply list_ext with (d := 0); [rewrite map_length; lia|]. rewrite map_length, LR. intros d Hd.
    change 0 with (r_len dR) at 1. rewrite map_nth, HR, Hx by auto. reflexivity. }
  rewrite Elen, expandable_refl. eexists; split; [reflexivity|]. split; auto. split.
  - intros j [Lj Rj]. cbn [at_].
    assert (E : all2 rinb R j = true).
    { apply (all2_iff _ _ _ dR 0). split; [lia|]. rewrite LR. intros d Hd. rewrite HR by auto.
      specialize (Rj d Hd). unfold rinb. simpl. rewrite Z.mod_1_r. repeat zcase; auto; lia. }
    rewrite E.
    assert (E2 : map2 rrel R j = map2 Z.sub j h).
    { apply list_ext with (d := 0).
      - rewrite !map2_length_eq; lia.
      - rewrite map2_length_eq by lia. rewrite LR. intros d Hd.
        rewrite nth_map2 with (da := dR) (db := 0) by lia.
        rewrite nth_map2 with (da := 0) (db := 0) by lia. rewrite HR by auto. unfold rrel; simpl.
        apply Z.div_1_r. }
    rewrite E2. f_equal. apply bidx_same. apply valid_iff. rewrite map2_length_eq by lia.
    split; [lia|]. rewrite Lx. intros d Hd. rewrite nth_map2 with (da := 0) (db := 0) by lia.
    specialize (Rj d Hd). rewrite Hx by auto. lia.
  - intros j V N. cbn [at_]. destruct (all2 rinb R j) eqn:E; auto. exfalso. apply N.
    apply (all2_iff _ _ _ dR 0) in E. destruct E as [E1 E2]. split; [lia|]. rewrite LR in E2.
    intros d Hd. specialize (E2 d Hd). rewrite HR in E2 by auto. unfold rinb in E2. simpl in E2.
    bdestr. lia.
Qed.

(** The known part of the buffer is the tensor s. *)
Definition Inv (idx : list slice) (h t : list Z) (s y : T) : Prop :=
  idxrep idx h t /\ shp y = NS /\ length (shp s) = nd /\
  (forall d, (d < nd)%nat -> nth d (shp s) 0 = nth d t 0 - nth d h 0) /\
  (forall j, reg h t j -> at_ y j = at_ s (map2 Z.sub j h)).

Lemma inv_step idx h t s y a e pf pb pa' :
  Inv idx h t s y -> (a < nd)%nat ->
  pads F pf y idx a (nth a h 0) (nth a t 0) e ->
  (forall f g u, (forall v, 0 <= v < nth a t 0 - nth a h 0 -> f v = g v) ->
     e (nth a t 0 - nth a h 0) f u = e (nth a t 0 - nth a h 0) g u) ->
  0 <= pb <= nth a h 0 -> 0 <= pa' -> nth a t 0 + pa' <= nth a NS 0 ->
  exists y', pf y idx a = Ok y' /\
    Inv (upd a (srng (nth a h 0 - pb) (nth a t 0 + pa')) idx)
        (upd a (nth a h 0 - pb) h) (upd a (nth a t 0 + pa') t) (pad1 e a pb pa' s) y'.
Proof.
  intros [X [Sy [Ls [Hs Hy]]]] Ha [y' [Hy' [Sy' Ay]]] He Hpb Hpa HNS.
  exists y'. split; auto. rewrite Sy in Sy', Ay.
  pose proof X as [L [L1 [L2 H]]].
  pose proof (H a Ha) as Ha'. set (ha := nth a h 0) in *. set (ta := nth a t 0) in *.
  assert (X' : idxrep (upd a (srng (ha - pb) (ta + pa')) idx) (upd a (ha - pb) h) (upd a (ta + pa') t)).
  { apply idxrep_upd; auto; lia. }
  split; auto. split; auto. split; [simpl; now rewrite upd_length|]. split.
  - intros d Hd. simpl. destruct (Nat.eq_dec a d).
    + subst d. rewrite !nth_upd_eq by lia. rewrite Hs by auto. fold ta ha. lia.
    + rewrite !nth_upd_ne by auto. auto.
  - intros j R'. pose proof (reg_valid _ _ _ _ X' R') as V. destruct R' as [Lj R'].
    assert (Roth : forall d, (d < nd)%nat -> d <> a -> nth d h 0 <= nth d j 0 < nth d t 0).
    { intros d Hd Hne. specialize (R' d Hd). rewrite !nth_upd_ne in R' by auto. auto. }
    assert (Rja : ha - pb <= nth a j 0 < ta + pa').
    { specialize (R' a Ha). rewrite !nth_upd_eq in R' by lia. auto. }
    rewrite Ay by auto. rewrite (proj2 (slabb_reg idx h t a j X Ha V) Roth).
    destruct (Z.leb_spec 0 (nth a j 0)); [|lia]. destruct (Z.ltb_spec (nth a j 0) (nth a NS 0)); [|lia].
    cbn [andb]. unfold Eof. unfold pad1. cbn [at_]. rewrite Hs by auto. fold ta ha.
    rewrite nth_map2 with (da := 0) (db := 0) by (rewrite ?upd_length; lia).
    rewrite nth_upd_eq by lia. replace (nth a j 0 - (ha - pb) - pb) with (nth a j 0 - ha) by lia.
    apply He. intros v Hv. unfold line. rewrite Hy.
    + f_equal. apply list_ext with (d := 0).
      * rewrite !upd_length, !map2_length_eq; rewrite ?upd_length; lia.
      * rewrite map2_length_eq by (rewrite upd_length; lia). rewrite upd_length. intros d Hd.
        rewrite nth_map2 with (da := 0) (db := 0) by (rewrite ?upd_length; lia).
        destruct (Nat.eq_dec a d).
        -- subst d. rewrite nth_upd_eq by lia. rewrite nth_upd_eq. fold ha; lia.
           rewrite map2_length_eq; rewrite ?upd_length; lia.
        -- rewrite !nth_upd_ne by auto. rewrite nth_map2 with (da := 0) (db := 0) by (rewrite ?upd_length; lia).
           rewrite nth_upd_ne by auto. reflexivity.
    + split; [now rewrite upd_length|]. intros d Hd. destruct (Nat.eq_dec a d).
      * subst d. rewrite nth_upd_eq by lia. fold ha ta. lia.
      * rewrite nth_upd_ne by auto. auto.
Qed.

(** ** The loop over the axes *)
Definition step_after (q : axis_params F) (n : Z) : Z :=
  if (ap_before q =? 0) && (ap_after q =? 0) then 0 else ap_after q + parity_slot (ap_mode q) n.

Fixpoint pending (p : padder F) (h t : list Z) (rest : list nat) : Prop :=
  match rest with
  | [] => True
  | a :: rest' =>
    (exists q, params p (length rest') = Some q /\ nth a h 0 = ap_before q /\
       nth a NS 0 = nth a t 0 + step_after q (nth a t 0 - nth a h 0)) /\
    pending p h t rest'
  end.
Lemma pending_upd p h t rest a v w : ~ In a rest ->
  pending p h t rest -> pending p (upd a v h) (upd a w t) rest.
Proof.
  induction rest as [|b rest IH]; simpl; auto. intros Hn [[q [H1 [H2 H3]]] H4]. split.
  - exists q. rewrite !nth_upd_ne by auto. auto.
  - apply IH; auto.
Qed.

Definition is_empty_mode (m : mode F) : bool := match m with MEmpty => true | _ => false end.
Fixpoint no_empty (p : padder F) (rest : list nat) : Prop :=
  match rest with
  | [] => True
  | a :: rest' => (forall q, params p (length rest') = Some q ->
       (ap_before q =? 0) && (ap_after q =? 0) = false -> is_empty_mode (ap_mode q) = false) /\ no_empty p rest'
  end.

Lemma params_get (p : padder F) r q : params p r = Some q ->
  nds_get (p_width p) (- Z.of_nat (S r)) = Ok (ap_before q, ap_after q) /\
  nds_get (p_mode p) (- Z.of_nat (S r)) = Ok (ap_mode q) /\
  nds_get (p_const p) (- Z.of_nat (S r)) = Ok (ap_const q) /\
  nds_get (p_end p) (- Z.of_nat (S r)) = Ok (ap_end q) /\
  nds_get (p_stat p) (- Z.of_nat (S r)) = Ok (ap_stat q).
Proof.
  unfold params. rewrite !nds_get_item.
  destruct (item (p_width p) r) as [[b a]|]; [|discriminate].
  destruct (item (p_mode p) r); [|discriminate]. destruct (item (p_const p) r); [|discriminate].
  destruct (item (p_end p) r); [|discriminate]. destruct (item (p_stat p) r); [|discriminate].
  intros H. inv H. simpl. auto.
Qed.

Lemma mode_params_ok (p : padder F) m r q e : params p r = Some q -> m = ap_mode q ->
  mode_ext m (ap_before q) (ap_after q) (ap_const q) (ap_end q) (ap_stat q) = Some e ->
  exists cv ev sl, mode_params p m (- Z.of_nat (S r)) = Ok (cv, ev, sl) /\
    mode_ext m (ap_before q) (ap_after q) cv ev sl = Some e.
Proof.
  intros Hq Hm He. destruct (params_get _ _ _ Hq) as [_ [_ [H1 [H2 H3]]]].
  unfold mode_params. destruct m; try (do 3 eexists; split; [reflexivity|exact He]).
  - rewrite H3. simpl. do 3 eexists; split; [reflexivity|exact He].
  - rewrite H1. simpl. do 3 eexists; split; [reflexivity|exact He].
  - rewrite H2. simpl. do 3 eexists; split; [reflexivity|exact He].
Qed.

Lemma mode_match_fill {B} (m : mode F) (a b c : B) : m <> MZeros -> is_empty_mode m = false ->
  match m with MEmpty => a | MZeros => b | _ => c end = c.
Proof. intros H H'. destruct m; auto; discriminate || congruence. Qed.

Lemma off_nochange (p : padder F) rest v a : ~ In a rest -> nth a (off p rest v) 0 = nth a v 0.
Proof.
  revert v; induction rest as [|b rest IH]; simpl; intros v Hn; auto. rewrite IH by tauto.
  destruct (params p (length rest)) as [[? ? m ? ? ?]|]; auto. destruct m; auto.
  apply nth_upd_ne. tauto.
Qed.
Lemma off_length (p : padder F) rest v : length (off p rest v) = length v.
Proof.
  revert v; induction rest as [|b rest IH]; simpl; intros v; auto. rewrite IH.
  destruct (params p (length rest)) as [[? ? m ? ? ?]|]; auto. destruct m; auto.
  apply upd_length.
Qed.

Lemma head_tail_nth idx a h t : (a < length idx)%nat -> nth a idx sfull = srng h t ->
  head_tail idx a = Ok (h, t).
Proof. intros H E. unfold head_tail. rewrite (nth_error_nth' idx sfull) by auto. now rewrite E. Qed.

(** One call of _fill_value_1d. *)
Lemma fill_value_ok fuel (p : padder F) q r idx h t (s s' y : T) a :
  params p r = Some q -> (a < nd)%nat -> Inv idx h t s y ->
  nth a idx sfull = srng (nth a h 0) (nth a t 0) -> nth a h 0 = ap_before q ->
  nth a NS 0 = nth a t 0 + step_after q (nth a t 0 - nth a h 0) ->
  nth a NS 0 <= Z.of_nat fuel -> spec_axis q a s = Some s' ->
  (ap_before q =? 0) && (ap_after q =? 0) = false -> is_empty_mode (ap_mode q) = false ->
  exists y', fill_value_1d fuel false p y (- Z.of_nat (S r)) a (Idx idx) =
      Ok (y', Idx (upd a (srng 0 (nth a NS 0)) idx)) /\
    Inv (upd a (srng 0 (nth a NS 0)) idx) (upd a 0 h) (upd a (nth a NS 0) t) s' y'.
Proof.
  intros Hq Ha I Hidx Hh HN Hf Hs Hz Hem.
  destruct (params_get _ _ _ Hq) as [G1 [G2 _]].
  unfold step_after in HN. rewrite Hz in HN.
  unfold spec_axis in Hs. rewrite Hz in Hs.
  destruct ((0 <=? ap_before q) && (0 <=? ap_after q)) eqn:Epos; [|discriminate]. bdestr. cbn [negb] in Hs.
  destruct ((nth a (shp s) 0 <=? 0) && negb (empty_ok (ap_mode q))) eqn:Ene; [discriminate|].
  pose proof I as [X [Sy [Ls [Hss Hy]]]]. pose proof X as [L [L1 [L2 Hr]]]. pose proof (Hr a Ha) as Hra.
  rewrite Hss in Ene by auto.
  assert (Hn : 1 <= nth a t 0 - nth a h 0 \/ empty_ok (ap_mode q) = true).
  { apply andb_false_iff in Ene. destruct Ene as [Ene|Ene]; bdestr; [left; lia|right; auto]. }
  assert (He : exists e, mode_ext (ap_mode q) (ap_before q) (ap_after q) (ap_const q) (ap_end q) (ap_stat q) = Some e
     /\ s' = pad1 e a (ap_before q) (ap_after q + parity_slot (ap_mode q) (nth a (shp s) 0)) s).
  { destruct (mode_ext (ap_mode q) (ap_before q) (ap_after q) (ap_const q) (ap_end q) (ap_stat q)) as [e|] eqn:E.
    - exists e. split; auto. revert Hs E Hem. clear. destruct (ap_mode q); intros; try discriminate; rewrite E in Hs; congruence.
    - exfalso. revert Hs E Hem. clear. destruct (ap_mode q); intros; try discriminate. }
  destruct He as [e [He ->]]. rewrite Hss by auto.
  destruct (mode_params_ok p (ap_mode q) r q e Hq eq_refl He) as [cv [ev [sl [Hmp He']]]].
  destruct (mode_pads fuel (ap_mode q) (ap_before q) (ap_after q) cv ev sl e y idx a (nth a h 0) (nth a t 0))
    as [pf [Hpf Hpads]]; auto.
  { rewrite Sy. eapply idxrep_wfi; eauto. } { lia. } { lia. } { rewrite Sy. lia. } { rewrite Sy. lia. }
  assert (Hpar : 0 <= parity_slot (ap_mode q) (nth a t 0 - nth a h 0)).
  { destruct (ap_mode q); simpl; try lia. pose proof (Z.mod_pos_bound (nth a t 0 - nth a h 0) 2). lia. }
  destruct (inv_step idx h t s y a e pf (ap_before q) (ap_after q + parity_slot (ap_mode q) (nth a t 0 - nth a h 0))
     I Ha Hpads) as [y' [Hy' I']]; try lia.
  { eapply mode_ext_extl; eauto. }
  exists y'.
  assert (E1 : nth a h 0 - ap_before q = 0) by lia.
  assert (E2 : nth a t 0 + (ap_after q + parity_slot (ap_mode q) (nth a t 0 - nth a h 0)) = nth a NS 0) by lia.
  rewrite E1, E2 in I'. split; auto.
  unfold fill_value_1d. rewrite G1. cbn [bind fst snd]. rewrite Hz, G2. cbn [bind].
  assert (Hnz : ap_mode q <> MZeros) by (intros Q; rewrite Q in He; discriminate).
  rewrite mode_match_fill by auto.
  rewrite Hmp. cbn [bind]. rewrite Hpf. cbn [bind]. rewrite Hy'. cbn [bind].
  rewrite (head_tail_nth idx a (nth a h 0) (nth a t 0)) by (auto; lia). cbn [bind].
  unfold modify_idx. rewrite E1.
  replace (nth a t 0 + ap_after q + (if is_periodize (ap_mode q) then (nth a t 0 - nth a h 0) mod 2 else 0))
    with (nth a NS 0); auto.
  rewrite <- E2. destruct (ap_mode q); simpl; lia.
Qed.

Lemma spec_axis_zero (q : axis_params F) a (s s' : T) : (ap_before q =? 0) && (ap_after q =? 0) = true ->
  spec_axis q a s = Some s' -> s' = s.
Proof. intros Hz. unfold spec_axis. destruct (negb _); [discriminate|]. rewrite Hz. congruence. Qed.

Lemma fill_value_empty fuel p q r idx (y : T) a : params p r = Some q -> is_empty_mode (ap_mode q) = true ->
  fill_value_1d fuel false p y (- Z.of_nat (S r)) a (Idx idx) = Ok (y, Idx idx).
Proof.
  intros Hq Hem. destruct (params_get _ _ _ Hq) as [G1 [G2 _]]. unfold fill_value_1d.
  rewrite G1. cbn [bind]. destruct ((_ =? 0) && _); auto. rewrite G2. cbn [bind].
  destruct (ap_mode q); try discriminate. auto.
Qed.
Lemma spec_axis_empty (q : axis_params F) a (s s' : T) : is_empty_mode (ap_mode q) = true ->
  spec_axis q a s = Some s' -> s' = s.
Proof.
  intros Hem. unfold spec_axis. destruct (negb _); [discriminate|]. destruct (_ && _); [congruence|].
  destruct (_ && _); [discriminate|]. destruct (ap_mode q); try discriminate. congruence.
Qed.

Definition idxnow (idx : list slice) (h t : list Z) (rest : list nat) : Prop :=
  forall a, In a rest -> nth a idx sfull = srng (nth a h 0) (nth a t 0).

Lemma fill_loop_ok fuel p axes : forall rest pre idx h t (s s' y : T) v,
  axes = map Z.of_nat (pre ++ rest) -> NoDup rest -> (forall a, In a rest -> (a < nd)%nat) ->
  Inv idx h t s y -> idxnow idx h t rest -> pending p h t rest ->
  (forall a, In a rest -> nth a NS 0 <= Z.of_nat fuel) ->
  spec_axes p s rest = Some s' ->
  length v = nd -> (forall a, In a rest -> nth a v 0 = 0) ->
  (forall d, (d < nd)%nat -> ~ In d rest -> nth d h 0 = nth d v 0) ->
  exists y' idx' h' t', fill_loop fuel p y axes (negs (length rest)) (Idx idx) = Ok y' /\
    Inv idx' h' t' s' y' /\ (forall d, (d < nd)%nat -> nth d h' 0 = nth d (off p rest v) 0) /\
    (no_empty p rest -> (forall d, (d < nd)%nat -> ~ In d rest -> nth d t 0 = nth d NS 0) ->
       forall d, (d < nd)%nat -> nth d t' 0 = nth d NS 0).
Proof.
  induction rest as [|a rest IH]; intros pre idx h t s s' y v Hax Hnd Hlt I Hix Hpend Hfuel Hspec Lv Hv Hh.
  { simpl in *. inv Hspec. exists y, idx, h, t. split; auto. }
  inv Hnd. destruct Hpend as [[q [Hq [Hha HNa]]] Hpend]. cbn [spec_axes] in Hspec. rewrite Hq in Hspec.
  destruct (spec_axis q a s) as [s1|] eqn:Hs1; [|discriminate].
  pose proof (Hlt a (or_introl eq_refl)) as Ha. destruct (params_get _ _ _ Hq) as [G1 [G2 _]].
  assert (Hax' : map Z.of_nat (pre ++ a :: rest) = map Z.of_nat ((pre ++ [a]) ++ rest)) by now rewrite <- app_assoc.
  pose proof I as [X [Sy [Ls [Hss Hy]]]]. pose proof X as [L [L1 [L2 Hr]]].
  cbn [negs length fill_loop off]. rewrite pyidx_app_axis. cbn [bind]. rewrite G1. cbn [bind fst snd]. rewrite Hq.
  assert (Hndim : ndim y = nd) by (unfold ndim; now rewrite Sy).
  destruct ((ap_before q =? 0) && (ap_after q =? 0)) eqn:Hz.
  - (* width (0, 0) *)
    apply spec_axis_zero in Hs1; auto. subst s1.
    assert (Hta : nth a t 0 = nth a NS 0) by (unfold step_after in HNa; rewrite Hz in HNa; lia).
    assert (Hha0 : nth a h 0 = 0) by (bdestr; lia).
    destruct (IH (pre ++ [a]) idx h t s s' y v) as [y' [idx' [h' [t' [E1 [E2 [E3 E4]]]]]]]; auto.
    { intros b Hb. apply Hlt. now right. } { intros b Hb. apply Hix. now right. }
    { intros b Hb. apply Hfuel. now right. } { intros b Hb. apply Hv. now right. }
    { intros d Hd Hnd. destruct (Nat.eq_dec a d); [subst d|].
      - rewrite Hv by (now left). auto.
      - apply Hh; auto. intros [|]; auto. }
    exists y', idx', h', t'. split; [|split; [|split]]; auto.
    + intros d Hd. rewrite E3 by auto.
      assert (Ev : forall w, upd a w v = v -> off p rest (upd a w v) = off p rest v) by (intros w Ew; now rewrite Ew).
      destruct q as [b ? m ? ? ?]. destruct m; auto. rewrite Ev; auto.
      simpl in *. rewrite <- Hha, Hha0. rewrite <- (Hv a) by (now left). apply upd_nth.
    + intros [_ Hem] Hc d Hd. apply E4; auto. intros d' Hd' Hnd'. destruct (Nat.eq_dec a d').
      * now subst d'.
      * apply Hc; auto. intros [|]; auto.
  - rewrite Hndim, axis_nat_ok by auto. rewrite ?of_nat_neg. cbn [bind].
    destruct (is_empty_mode (ap_mode q)) eqn:Hem.
    + (* mode empty *)
      apply spec_axis_empty in Hs1; auto. subst s1.
      rewrite (fill_value_empty fuel p q (length rest) idx y a Hq Hem). cbn [bind fst snd].
      destruct (IH (pre ++ [a]) idx h t s s' y (upd a (ap_before q) v)) as [y' [idx' [h' [t' [E1 [E2 [E3 E4]]]]]]]; auto.
      { intros b Hb. apply Hlt. now right. } { intros b Hb. apply Hix. now right. }
      { intros b Hb. apply Hfuel. now right. } { now rewrite upd_length. }
      { intros b Hb. rewrite nth_upd_ne; [apply Hv; now right|congruence]. }
      { intros d Hd Hnd. destruct (Nat.eq_dec a d); [subst d|].
        - rewrite nth_upd_eq by lia. auto.
        - rewrite nth_upd_ne by auto. apply Hh; auto. intros [|]; auto. }
      exists y', idx', h', t'. split; [|split; [|split]]; auto.
      * intros d Hd. rewrite E3 by auto. destruct q as [b ? m ? ? ?]. destruct m; try discriminate. auto.
      * intros [Hem' _]. specialize (Hem' q Hq Hz). congruence.
    + (* filled *)
      destruct (fill_value_ok fuel p q (length rest) idx h t s s1 y a) as [y1 [Hy1 I1]]; auto.
      { apply Hix. now left. } { apply Hfuel. now left. }
      rewrite Hy1. cbn [bind fst snd].
      destruct (IH (pre ++ [a]) (upd a (srng 0 (nth a NS 0)) idx) (upd a 0 h) (upd a (nth a NS 0) t) s1 s' y1 v)
        as [y' [idx' [h' [t' [E1 [E2 [E3 E4]]]]]]]; auto.
      { intros b Hb. apply Hlt. now right. }
      { intros b Hb. rewrite !nth_upd_ne by congruence. apply Hix. now right. }
      { apply pending_upd; auto. }
      { intros b Hb. apply Hfuel. now right. } { intros b Hb. apply Hv. now right. }
      { intros d Hd Hnd. destruct (Nat.eq_dec a d); [subst d|].
        - rewrite nth_upd_eq by lia. symmetry. apply Hv. now left.
        - rewrite nth_upd_ne by auto. apply Hh; auto. intros [|]; auto. }
      exists y', idx', h', t'. split; [|split; [|split]]; auto.
      * intros d Hd. rewrite E3 by auto. destruct q as [b ? m ? ? ?]. destruct m; try discriminate; auto.
      * intros [_ Hem'] Hc d Hd. apply E4; auto. intros d' Hd' Hnd'. destruct (Nat.eq_dec a d').
        -- subst d'. now rewrite nth_upd_eq by lia.
        -- rewrite nth_upd_ne by auto. apply Hc; auto. intros [|]; auto.
Qed.
End Region.

(** ** Accumulated widths *)
Lemma widths_before_length p rest v : length (@widths_before F p rest v) = length v.
Proof.
  revert v; induction rest; simpl; intros; auto. rewrite IHrest.
  destruct (params p (length rest)); auto. apply upd_length.
Qed.
Lemma widths_after_length p sh rest v : length (@widths_after F p sh rest v) = length v.
Proof.
  revert v; induction rest; simpl; intros; auto. rewrite IHrest.
  destruct (params p (length rest)); auto. destruct (_ && _); auto. apply upd_length.
Qed.
Lemma widths_before_notin p rest v a : ~ In a rest -> nth a (@widths_before F p rest v) 0 = nth a v 0.
Proof.
  revert v; induction rest; simpl; intros; auto. rewrite IHrest by tauto.
  destruct (params p (length rest)); auto. apply nth_upd_ne. tauto.
Qed.
Lemma widths_after_notin p sh rest v a : ~ In a rest -> nth a (@widths_after F p sh rest v) 0 = nth a v 0.
Proof.
  revert v; induction rest; simpl; intros; auto. rewrite IHrest by tauto.
  destruct (params p (length rest)); auto. destruct (_ && _); auto. apply nth_upd_ne. tauto.
Qed.

Lemma width_loop_ok p shape axes : forall rest pre hv pv,
  axes = map Z.of_nat (pre ++ rest) -> (forall a, In a rest -> (a < length shape)%nat) ->
  (forall r, (r < length rest)%nat -> params p r <> None) ->
  length hv = length shape -> length pv = length shape ->
  width_loop p shape axes (negs (length rest)) hv pv =
    Ok (@widths_before F p rest hv, widths_after p shape rest pv).
Proof.
  induction rest as [|a rest IH]; intros pre hv pv Hax Hlt Hp Lh Lp; [reflexivity|].
  cbn [length negs width_loop widths_before widths_after].
  destruct (params p (length rest)) as [q|] eqn:Hq; [|exfalso; eapply (Hp (length rest)); simpl; auto].
  destruct (params_get _ _ _ Hq) as [G1 [G2 _]]. rewrite G1. cbn [bind fst snd].
  assert (Hax' : axes = map Z.of_nat ((pre ++ [a]) ++ rest)) by (rewrite <- app_assoc; exact Hax).
  pose proof (Hlt a (or_introl eq_refl)) as Ha.
  destruct ((ap_before q =? 0) && (ap_after q =? 0)) eqn:Hz.
  - rewrite (IH (pre ++ [a])); auto.
    + bdestr. rewrite H, Z.add_0_r, upd_nth. reflexivity.
    + intros; apply Hlt; now right.
    + intros r Hr. apply Hp. simpl. lia.
  - rewrite Hax at 1. rewrite pyidx_app_axis. cbn [bind]. rewrite axis_nat_ok by auto. cbn [bind]. rewrite G2. cbn [bind].
    rewrite (IH (pre ++ [a])); auto.
    + f_equal. f_equal. f_equal. unfold vadd. destruct (ap_mode q); simpl parity_slot; cbn [is_periodize];
        rewrite ?Z.add_0_r; auto. rewrite nth_upd_eq, upd_upd by lia. f_equal. lia.
    + intros; apply Hlt; now right.
    + intros r Hr. apply Hp. simpl. lia.
    + unfold vadd. now rewrite upd_length.
    + destruct (is_periodize (ap_mode q)); unfold vadd; now rewrite !upd_length.
Qed.

Lemma spec_axes_params p : forall rest (s s' : T), spec_axes p s rest = Some s' ->
  forall r, (r < length rest)%nat -> params p r <> None.
Proof.
  induction rest as [|a rest IH]; simpl; intros s s' H r Hr; [lia|].
  destruct (params p (length rest)) as [q|] eqn:Hq; [|discriminate].
  destruct (spec_axis q a s) as [s1|]; [|discriminate].
  destruct (Nat.eq_dec r (length rest)); [congruence|]. eapply IH; eauto. lia.
Qed.

(** Widths accepted by the specification are nonnegative. *)
Lemma spec_axis_pos (q : axis_params F) a (s s' : T) : spec_axis q a s = Some s' -> 0 <= ap_before q /\ 0 <= ap_after q.
Proof.
  unfold spec_axis. destruct ((0 <=? ap_before q) && (0 <=? ap_after q)) eqn:E; [|discriminate].
  bdestr. auto.
Qed.

Lemma step_after_pos (q : axis_params F) n : 0 <= ap_after q -> 0 <= step_after q n.
Proof.
  intros. unfold step_after. destruct (_ && _); [lia|]. destruct (ap_mode q); simpl; try lia.
  pose proof (Z.mod_pos_bound n 2). lia.
Qed.

Lemma widths_in p : forall l1 a l2 v q, NoDup (l1 ++ a :: l2) -> (a < length v)%nat ->
  params p (length l2) = Some q ->
  nth a (@widths_before F p (l1 ++ a :: l2) v) 0 = nth a v 0 + ap_before q.
Proof.
  induction l1 as [|b l1 IH]; intros a l2 v q Hnd Ha Hq; simpl in *.
  - inv Hnd. rewrite Hq, widths_before_notin, nth_upd_eq by auto. auto.
  - inv Hnd. rewrite (IH a l2 _ q); auto.
    + f_equal. assert (Hab : a <> b) by (intros ->; apply H1; apply in_app_iff; right; now left).
      destruct (params p (length (l1 ++ a :: l2))); auto. apply nth_upd_ne; auto.
    + destruct (params p (length (l1 ++ a :: l2))); auto. now rewrite upd_length.
Qed.
Lemma widths_after_in p sh : forall l1 a l2 v q, NoDup (l1 ++ a :: l2) -> (a < length v)%nat ->
  params p (length l2) = Some q ->
  nth a (@widths_after F p sh (l1 ++ a :: l2) v) 0 = nth a v 0 + step_after q (nth a sh 0).
Proof.
  induction l1 as [|b l1 IH]; intros a l2 v q Hnd Ha Hq; simpl in *.
  - inv Hnd. rewrite Hq, widths_after_notin by auto. unfold step_after. destruct (_ && _); [lia|].
    rewrite nth_upd_eq by auto. auto.
  - inv Hnd. rewrite (IH a l2 _ q); auto.
    + f_equal. assert (Hab : a <> b) by (intros ->; apply H1; apply in_app_iff; right; now left).
      destruct (params p (length (l1 ++ a :: l2))); auto. destruct (_ && _); auto. apply nth_upd_ne; auto.
    + destruct (params p (length (l1 ++ a :: l2))); auto. destruct (_ && _); auto. now rewrite upd_length.
Qed.

Lemma spec_axes_pos p : forall l1 a l2 (s s' : T) q, spec_axes p s (l1 ++ a :: l2) = Some s' ->
  params p (length l2) = Some q -> 0 <= ap_before q /\ 0 <= ap_after q.
Proof.
  induction l1 as [|b l1 IH]; simpl; intros a l2 s s' q H Hq.
  - rewrite Hq in H. destruct (spec_axis q a s) eqn:E; [|discriminate]. eapply spec_axis_pos; eauto.
  - destruct (params p (length (l1 ++ a :: l2))) as [q'|]; [|discriminate].
    destruct (spec_axis q' b s) as [s1|]; [|discriminate]. eapply IH; eauto.
Qed.

Lemma pending_intro NS p h t : forall rest,
  (forall l1 a l2, rest = l1 ++ a :: l2 -> exists q, params p (length l2) = Some q /\ nth a h 0 = ap_before q /\
       nth a NS 0 = nth a t 0 + step_after q (nth a t 0 - nth a h 0)) -> pending NS p h t rest.
Proof.
  induction rest as [|a rest IH]; simpl; auto. intros H. split.
  - apply (H [] a rest eq_refl).
  - apply IH. intros l1 b l2 E. apply (H (a :: l1) b l2). now rewrite E.
Qed.

Lemma spec_axes_same p NS (x : T) : shp x = NS -> forall rest s',
  (forall l1 a l2 q, rest = l1 ++ a :: l2 -> params p (length l2) = Some q ->
     (ap_before q =? 0) && (ap_after q =? 0) = true) ->
  spec_axes p x rest = Some s' -> s' = x.
Proof.
  intros Hx. induction rest as [|a rest IH]; simpl; intros s' H E; [congruence|].
  destruct (params p (length rest)) as [q|] eqn:Hq; [|discriminate].
  destruct (spec_axis q a x) as [s1|] eqn:E1; [|discriminate].
  apply spec_axis_zero in E1; [|eapply (H [] a rest); eauto]. subst s1. apply IH; auto.
  intros l1 b l2 q' -> Hq'. eapply (H (a :: l1) b l2); eauto.
Qed.
Lemma off_same p : forall rest v,
  (forall l1 a l2 q, rest = l1 ++ a :: l2 -> params p (length l2) = Some q ->
     (ap_before q =? 0) && (ap_after q =? 0) = true) ->
  (forall a, In a rest -> nth a v 0 = 0) ->
  @off F p rest v = v.
Proof.
  induction rest as [|a rest IH]; simpl; intros v H Hv; auto.
  assert (E : match params p (length rest) with
                | Some {| ap_before := b; ap_mode := MEmpty |} => upd a b v
                | _ => v end = v).
  { destruct (params p (length rest)) as [[b ? m ? ? ?]|] eqn:Hq; auto. destruct m; auto.
    assert (Hb := H [] a rest _ eq_refl Hq). simpl in Hb. bdestr. subst b.
    rewrite <- (Hv a) by (now left). apply upd_nth. }
  rewrite E. apply IH; auto. intros l1 b l2 q -> Hq. eapply (H (a :: l1) b l2); eauto.
Qed.

Lemma list_eqb_eq l m : list_eqb l m = true <-> l = m.
Proof.
  unfold list_eqb. split.
  - intros H. apply (all2_iff _ _ _ 0 0) in H. destruct H as [H1 H2]. apply list_ext with (d := 0); auto.
    intros n Hn. apply Z.eqb_eq. now apply H2.
  - intros ->. apply (all2_iff _ _ _ 0 0). split; auto. intros. apply Z.eqb_refl.
Qed.

Lemma skipn_last_app {A} (l : list A) k : exists pre, l = pre ++ skipn k l.
Proof. exists (firstn k l). symmetry. apply firstn_skipn. Qed.

Lemma NoDup_app_r {A} (l m : list A) : NoDup (l ++ m) -> NoDup m.
Proof. induction l; simpl; auto. intros H; inv H; auto. Qed.

(** Is the mode "empty" absent (on axes with a nonzero width)? *)
Definition no_empty_mode (p : padder F) (axes : list nat) : Prop := no_empty p (last_axes p axes).

Theorem forward_correct fuel junk p (x s : T) ax al :
  (0 < ndim x)%nat -> (forall d, (d < ndim x)%nat -> 0 <= nth d (shp x) 0) ->
  check_axes (Z.of_nat (ndim x)) ax = Ok (map Z.of_nat al) ->
  (forall a, In a al -> (a < ndim x)%nat) -> NoDup al ->
  pad_spec p x al = Some s ->
  (forall d, (d < ndim x)%nat -> nth d (out_shape p (shp x) al) 0 <= Z.of_nat fuel) ->
  exists y, padder_forward fuel junk p x ax = Ok y /\
    shp y = out_shape p (shp x) al /\
    (forall j, valid (shp s) j ->
       at_ y (map2 Z.add j (off p (last_axes p al) (repeat 0 (ndim x)))) = at_ s j) /\
    (no_empty_mode p al -> teq y s).
Proof.
  intros Hnd Hsh Hax Hlt Hdup Hspec Hfuel.
  unfold padder_forward. unfold assertb. rewrite (proj2 (Nat.ltb_lt _ _) Hnd). cbn [bind].
  rewrite Hax. cbn [bind].
  set (rest := last_axes p al) in *.
  assert (Hpre : exists pre, al = pre ++ rest).
  { unfold rest, last_axes. destruct (0 <? p_ndim p); [apply skipn_last_app|exists []; auto]. }
  destruct Hpre as [pre Hpre].
  assert (Hlen : (if 0 <? p_ndim p then Z.min (Z.of_nat (length (map Z.of_nat al))) (p_ndim p)
                  else Z.of_nat (length (map Z.of_nat al))) = Z.of_nat (length rest)).
  { rewrite map_length. unfold rest, last_axes. destruct (Z.ltb_spec 0 (p_ndim p)); auto.
    rewrite skipn_length. lia. }
  assert (Hltr : forall a, In a rest -> (a < ndim x)%nat).
  { intros a Ha. apply Hlt. rewrite Hpre. apply in_app_iff. now right. }
  assert (Hdr : NoDup rest) by (rewrite Hpre in Hdup; eapply NoDup_app_r; eauto).
  unfold pad_spec in Hspec. fold rest in Hspec.
  set (z := repeat 0 (ndim x)) in *.
  assert (Lz : length z = ndim x) by apply repeat_length.
  assert (Hz : forall d, nth d z 0 = 0) by (intros; apply nth_repeat).
  set (h := widths_before p rest z). set (w := widths_after p (shp x) rest z).
  set (t := map2 Z.add h (shp x)). set (NS := map2 Z.add t w).
  assert (Lh : length h = ndim x) by (unfold h; now rewrite widths_before_length).
  assert (Lw : length w = ndim x) by (unfold w; now rewrite widths_after_length).
  assert (Lt : length t = ndim x) by (unfold t; rewrite map2_length_eq; auto).
  assert (LNS : length NS = ndim x) by (unfold NS; rewrite map2_length_eq; auto; lia).
  assert (EOS : out_shape p (shp x) al = NS) by reflexivity.
  rewrite EOS in *.
  assert (Ht : forall d, (d < ndim x)%nat -> nth d t 0 = nth d h 0 + nth d (shp x) 0).
  { intros. unfold t. apply nth_map2; lia || auto. }
  assert (HNS : forall d, (d < ndim x)%nat -> nth d NS 0 = nth d h 0 + nth d (shp x) 0 + nth d w 0).
  { intros. unfold NS. rewrite nth_map2 with (da := 0) (db := 0) by lia. now rewrite Ht. }
  assert (Hin : forall l1 a l2 q, rest = l1 ++ a :: l2 -> params p (length l2) = Some q ->
     nth a h 0 = ap_before q /\ nth a w 0 = step_after q (nth a (shp x) 0) /\ 0 <= ap_before q /\ 0 <= ap_after q).
  { intros l1 a l2 q E Hq. assert (Ha : (a < ndim x)%nat) by (apply Hltr; rewrite E; apply in_app_iff; right; now left).
    unfold h, w. rewrite E. rewrite (widths_in p l1 a l2 z q), (widths_after_in p (shp x) l1 a l2 z q), Hz;
      try (rewrite <- E; auto); auto; try lia.
    split; [lia|]. split; [lia|]. rewrite E in Hspec. eapply spec_axes_pos; eauto. }
  assert (Hparams : forall r, (r < length rest)%nat -> params p r <> None) by (eapply spec_axes_params; eauto).
  assert (Hsplit : forall a, In a rest -> exists l1 l2 q, rest = l1 ++ a :: l2 /\ params p (length l2) = Some q).
  { intros a Ha. apply in_split in Ha. destruct Ha as [l1 [l2 E]]. exists l1, l2.
    destruct (params p (length l2)) as [q|] eqn:Hq; [eauto|]. exfalso. eapply Hparams; [|exact Hq].
    rewrite E, app_length. simpl. lia. }
  assert (Hpos : forall d, (d < ndim x)%nat -> 0 <= nth d h 0 /\ 0 <= nth d w 0).
  { intros d Hd. destruct (in_dec Nat.eq_dec d rest) as [Hi|Hn].
    - destruct (Hsplit d Hi) as [l1 [l2 [q [E Hq]]]]. destruct (Hin l1 d l2 q E Hq) as [E1 [E2 [E3 E4]]].
      rewrite E1, E2. pose proof (step_after_pos q (nth d (shp x) 0) E4). lia.
    - unfold h, w. rewrite widths_before_notin, widths_after_notin, Hz by auto. lia. }
  destruct (list_eq_dec Nat.eq_dec al []) as [Eal|Enil].
  { assert (Em : map Z.of_nat al = []) by now rewrite Eal. rewrite Em. assert (Er : rest = []).
    { rewrite Eal in Hpre. symmetry in Hpre. now apply app_eq_nil in Hpre. }
    rewrite Er in *. simpl in Hspec. inv Hspec. exists s. split; auto.
    assert (ENS : NS = shp s).
    { apply list_ext with (d := 0); [unfold ndim in *; lia|]. rewrite LNS. intros d Hd. rewrite HNS by auto.
      unfold h, w. rewrite Er. simpl. rewrite Hz. lia. }
    rewrite ENS. split; [auto|]. split; [|intros; apply teq_refl].
    intros j V. simpl. f_equal. apply valid_length in V.
    apply list_ext with (d := 0); [rewrite map2_length_eq; unfold ndim in *; lia|].
    rewrite map2_length_eq by (unfold ndim in *; lia). intros d Hd.
    rewrite nth_map2 with (da := 0) (db := 0) by (unfold ndim in *; lia). rewrite Hz. lia. }
  assert (Ematch : forall B (u v : B), match map Z.of_nat al with [] => u | _ => v end = v)
    by (intros; destruct al; auto; congruence).
  rewrite Ematch. cbv zeta. rewrite Hlen, neg_range_negs.
  rewrite (width_loop_ok p (shp x) (map Z.of_nat al) rest pre); auto; try (now rewrite Hpre).
  cbn [bind]. fold h w t NS.
  destruct (list_eqb (shp x) NS) eqn:Eeq.
  - (* nothing to pad *)
    apply list_eqb_eq in Eeq. exists x. split; auto.
    assert (Hzero : forall l1 a l2 q, rest = l1 ++ a :: l2 -> params p (length l2) = Some q ->
       (ap_before q =? 0) && (ap_after q =? 0) = true).
    { intros l1 a l2 q E Hq. destruct (Hin l1 a l2 q E Hq) as [E1 [E2 [E3 E4]]].
      assert (Ha : (a < ndim x)%nat) by (apply Hltr; rewrite E; apply in_app_iff; right; now left).
      pose proof (HNS a Ha) as E5. rewrite <- Eeq in E5. rewrite E1, E2 in E5.
      pose proof (step_after_pos q (nth a (shp x) 0) E4). unfold step_after in *.
      destruct ((ap_before q =? 0) && (ap_after q =? 0)) eqn:Ez; auto. exfalso.
      assert (0 <= parity_slot (ap_mode q) (nth a (shp x) 0)).
      { destruct (ap_mode q); simpl; try lia. pose proof (Z.mod_pos_bound (nth a (shp x) 0) 2). lia. }
      apply andb_false_iff in Ez. destruct Ez; bdestr; lia. }
    pose proof (spec_axes_same p NS x Eeq rest s Hzero Hspec) as Esx. subst s.
    split; auto. split; [|intros; apply teq_refl]. intros j V.
    rewrite off_same; auto. f_equal. apply valid_length in V.
    apply list_ext with (d := 0); [rewrite map2_length_eq; unfold ndim in *; lia|].
    rewrite map2_length_eq by (unfold ndim in *; lia). intros d Hd.
    rewrite nth_map2 with (da := 0) (db := 0) by (unfold ndim in *; lia). rewrite Hz. lia.
  - assert (X : idxrep NS (map2 srng h t) h t).
    { apply idxrep_srng; try lia. intros d Hd. rewrite LNS in Hd. specialize (Hpos d Hd). specialize (Hsh d Hd).
      rewrite HNS, Ht by auto. lia. }
    destruct (tset_block NS (tempty NS junk) x (map2 srng h t) h t) as [y0 [Hy0 [Sy0 [A0 _]]]]; auto.
    { intros d Hd. rewrite LNS in Hd. rewrite Ht by auto. lia. }
    rewrite Hy0. cbn [bind].
    destruct (fill_loop_ok NS fuel p (map Z.of_nat al) rest pre (map2 srng h t) h t x s y0 z)
      as [y [idx' [h' [t' [E1 [E2 [E3 E4]]]]]]]; auto.
    { now rewrite Hpre. } { intros a Ha. rewrite LNS. auto. }
    { split; auto. split; auto. split; auto. split; auto.
      intros d Hd. rewrite LNS in Hd. rewrite Ht by auto. lia. }
    { intros a Ha. rewrite nth_map2 with (da := 0) (db := 0); auto; rewrite ?Lh, ?Lt; auto. }
    { apply pending_intro. intros l1 a l2 E. destruct (Hsplit a) as [l1' [l2' [q [E' Hq]]]].
      { rewrite E. apply in_app_iff. right. now left. }
      assert (Hq2 : exists q, params p (length l2) = Some q).
      { destruct (params p (length l2)) as [q2|] eqn:Hq2; [eauto|]. exfalso. eapply Hparams; [|exact Hq2].
        rewrite E, app_length. simpl. lia. }
      destruct Hq2 as [q2 Hq2]. destruct (Hin l1 a l2 q2 E Hq2) as [F1 [F2 [F3 F4]]].
      assert (Ha : (a < ndim x)%nat) by (apply Hltr; rewrite E; apply in_app_iff; right; now left).
      exists q2. split; auto. split; auto. rewrite HNS, Ht, F2 by auto.
      replace (nth a h 0 + nth a (shp x) 0 - nth a h 0) with (nth a (shp x) 0) by lia. lia. }
    { rewrite LNS. auto. }
    { intros d Hd Hn. rewrite Hz. unfold h. rewrite widths_before_notin by auto. apply Hz. }
    exists y. split; auto. pose proof E2 as [X' [Sy [Ls [Hs HA]]]]. pose proof X' as [_ [Lh' [Lt' Hr']]].
    split; auto.
    assert (Lo : length (off p rest z) = ndim x) by (rewrite off_length; auto).
    assert (Main : forall j, valid (shp s) j -> at_ y (map2 Z.add j (off p rest z)) = at_ s j).
    { intros j V. pose proof (valid_length _ _ V) as Lj. rewrite Ls in Lj.
      rewrite HA.
      - f_equal. apply list_ext with (d := 0).
        + rewrite !map2_length_eq; rewrite ?map2_length_eq; lia.
        + rewrite map2_length_eq by (rewrite map2_length_eq; lia). rewrite map2_length_eq by lia.
          intros d Hd. rewrite nth_map2 with (da := 0) (db := 0) by (rewrite ?map2_length_eq; lia).
          rewrite nth_map2 with (da := 0) (db := 0) by lia. rewrite E3 by lia. lia.
      - split; [rewrite map2_length_eq; lia|]. intros d Hd.
        rewrite nth_map2 with (da := 0) (db := 0) by lia. rewrite <- E3 by lia.
        pose proof (valid_nth _ _ d V) as Vd. rewrite Ls in Vd. specialize (Vd Hd). rewrite Hs in Vd by auto. lia. }
    split; auto. intros Hne.
    assert (Ht' : forall d, (d < length NS)%nat -> nth d t' 0 = nth d NS 0).
    { apply E4; [exact Hne|]. intros d Hd Hn. rewrite LNS in Hd. rewrite HNS, Ht by auto.
      unfold w. rewrite widths_after_notin, Hz by auto. lia. }
    assert (Eoff : off p rest z = z).
    { clear - Hne Hz Hin Lz. unfold no_empty_mode in Hne. fold rest in Hne.
      assert (G : forall r l1 v, rest = l1 ++ r -> no_empty p r -> (forall a, In a r -> nth a v 0 = 0) -> off p r v = v).
      { induction r as [|a r IH]; intros l1 v E Hn Hv; simpl; auto. destruct Hn as [Hn1 Hn2].
        assert (Ev : match params p (length r) with
                | Some {| ap_before := b; ap_mode := MEmpty |} => upd a b v | _ => v end = v).
        { destruct (params p (length r)) as [[b aa m ? ? ?]|] eqn:Hq; auto. destruct m; auto.
          specialize (Hn1 _ eq_refl). simpl in Hn1. destruct ((b =? 0) && (aa =? 0)) eqn:Eb.
          - bdestr. subst b. rewrite <- (Hv a) by (now left). apply upd_nth.
          - discriminate Hn1; auto. }
        rewrite Ev. apply (IH (l1 ++ [a])); auto.
        - now rewrite <- app_assoc.
        - intros; apply Hv; now right. }
      apply (G rest []); auto. }
    assert (ES : shp y = shp s).
    { rewrite Sy. apply list_ext with (d := 0); auto. intros d Hd. rewrite Hs, Ht', E3, Eoff, Hz by auto. lia. }
    split; auto. intros j V. rewrite ES in V. rewrite <- Main by auto. f_equal.
    pose proof (valid_length _ _ V) as Lj. rewrite Ls in Lj. rewrite Eoff.
    apply list_ext with (d := 0); [rewrite map2_length_eq; lia|]. intros d Hd.
    rewrite nth_map2 with (da := 0) (db := 0) by lia. rewrite Hz. lia.
Qed.
End P.
