(** Filters and sums over the image: with circular padding the filter with the reversed kernel is the
    adjoint, with symmetric padding palindromic filters are self-adjoint; totals. *)
From Coq Require Import Permutation.
From Verif Require Export FilterCommute ReduceProofs IndexLemmas EdgeAffine EdgeConst EdgeLinear.
Open Scope Z_scope.

(** The offset at which the pixel seen from j at offset o looks back at j: on axis a_r, the opposite
    offset; with symmetric padding the same offset when a mirrored copy was seen. *)
Definition back1 {F : ofield} (m : mode F) (n k j o : Z) : Z :=
  match m with
  | MSymmetric => if (j + o - k / 2) mod (2 * n) <? n then k - 1 - o else o
  | _ => k - 1 - o
  end.
Definition back {F : ofield} (al : list nat) (ms : list (mode F)) (ks sh j o : list Z) : list Z :=
  map (fun r => back1 (nth r ms MUnknown) (nth (nth r al 0%nat) sh 0) (nth r ks 0) (nth (nth r al 0%nat) j 0) (nth r o 0)) (seq 0 (length al)).

Section FA.
Variable F : ofield.
Add Field Ffa : (f_field F).
Notation T := (tensor F).

(** *** sums over all indices *)
Lemma lsum_app (l m : list F) : lsum (l ++ m) = fadd (lsum l) (lsum m).
Proof. unfold lsum. induction l as [|a l IH]; cbn [app fold_right]; [ring|]. rewrite IH. ring. Qed.
Lemma fsum_lsum n (f : Z -> F) : fsum n f = lsum (map f (zrange n)).
Proof.
  destruct (Z.le_gt_cases n 0) as [H|H].
  - replace (zrange n) with (@nil Z) by (unfold zrange; replace (Z.to_nat n) with 0%nat by lia; reflexivity).
    unfold fsum. replace (Z.to_nat n) with 0%nat by lia. reflexivity.
  - unfold fsum, zrange. clear H. induction (Z.to_nat n) as [|k IH]; [reflexivity|]. cbn [fsumn]. rewrite IH.
    replace (S k) with (k + 1)%nat by lia. rewrite zseq_app, map_app, lsum_app. f_equal. unfold lsum. cbn. ring.
Qed.
Lemma bsum_lsum s : forall f : list Z -> F, bsum s f = lsum (map f (tindices s)).
Proof.
  induction s as [|n s IH]; intros f; cbn [bsum tindices].
  - unfold lsum. cbn. ring.
  - rewrite fsum_lsum. induction (zrange n) as [|k l IHl]; [reflexivity|]. cbn [flat_map map]. rewrite map_app, lsum_app, <- IHl.
    unfold lsum at 1. cbn [fold_right]. f_equal. rewrite IH, map_map. reflexivity.
Qed.
Lemma bsum_bij s (g h : list Z -> list Z) (f : list Z -> F) :
  (forall i, valid s i -> valid s (g i) /\ h (g i) = i) -> (forall i, valid s i -> valid s (h i) /\ g (h i) = i) ->
  bsum s (fun i => f (g i)) = bsum s f.
Proof.
  intros G H. rewrite !bsum_lsum. rewrite <- (map_map g f). apply lsum_perm, Permutation_map.
  apply NoDup_Permutation; [|apply NoDup_tindices|].
  - assert (N := NoDup_tindices s). assert (I : forall i, In i (tindices s) -> h (g i) = i) by (intros i Hi; apply G; now apply In_tindices).
    revert N I. induction (tindices s) as [|a l IH]; intros N I; cbn [map]; [constructor|]. inversion N; subst. constructor.
    + intros C. apply in_map_iff in C. destruct C as [b [E Hb]]. apply (f_equal h) in E. rewrite !I in E by (try (now left); now right). congruence.
    + apply IH; auto. intros; apply I; now right.
  - intros i. rewrite in_map_iff. split.
    + intros [j [<- Hj]]. apply In_tindices. apply G. now apply In_tindices.
    + intros Hi. apply In_tindices in Hi. exists (h i). split; [apply H; auto|]. apply In_tindices. now apply H.
Qed.
Lemma bsum_app s t (f : list Z -> F) : bsum (s ++ t) f = bsum s (fun i => bsum t (fun o => f (i ++ o))).
Proof. revert f. induction s as [|n s IH]; intros f; cbn [app bsum]; [reflexivity|]. apply fsum_ext. intros k _. apply IH. Qed.
Lemma bsum_bij2 s t (g1 g2 h1 h2 : list Z -> list Z -> list Z) (f : list Z -> list Z -> F) :
  (forall i o, valid s i -> valid t o -> valid s (g1 i o) /\ valid t (g2 i o) /\ h1 (g1 i o) (g2 i o) = i /\ h2 (g1 i o) (g2 i o) = o) ->
  (forall i o, valid s i -> valid t o -> valid s (h1 i o) /\ valid t (h2 i o) /\ g1 (h1 i o) (h2 i o) = i /\ g2 (h1 i o) (h2 i o) = o) ->
  bsum s (fun i => bsum t (fun o => f (g1 i o) (g2 i o))) = bsum s (fun i => bsum t (fun o => f i o)).
Proof.
  intros G H. set (n := length s).
  assert (S : forall i o, valid s i -> firstn n (i ++ o) = i /\ skipn n (i ++ o) = o).
  { intros i o V. apply valid_length in V. unfold n. rewrite <- V. split; [rewrite firstn_app, Nat.sub_diag, firstn_all; cbn; apply app_nil_r|rewrite skipn_app, Nat.sub_diag, skipn_all; reflexivity]. }
  set (gg := fun z => g1 (firstn n z) (skipn n z) ++ g2 (firstn n z) (skipn n z)). set (hh := fun z => h1 (firstn n z) (skipn n z) ++ h2 (firstn n z) (skipn n z)).
  set (ff := fun z => f (firstn n z) (skipn n z)).
  assert (GG : forall z, valid (s ++ t) z -> valid (s ++ t) (gg z) /\ hh (gg z) = z).
  { intros z V. apply valid_app_inv in V as [i [o [-> [Vi Vo]]]]. unfold gg, hh. destruct (S i o Vi) as [-> ->]. destruct (G i o Vi Vo) as [A [B [C D]]].
    destruct (S (g1 i o) (g2 i o) A) as [-> ->]. rewrite C, D. split; auto. now apply valid_app. }
  assert (HH : forall z, valid (s ++ t) z -> valid (s ++ t) (hh z) /\ gg (hh z) = z).
  { intros z V. apply valid_app_inv in V as [i [o [-> [Vi Vo]]]]. unfold gg, hh. destruct (S i o Vi) as [-> ->]. destruct (H i o Vi Vo) as [A [B [C D]]].
    destruct (S (h1 i o) (h2 i o) A) as [-> ->]. rewrite C, D. split; auto. now apply valid_app. }
  pose proof (bsum_bij (s ++ t) gg hh ff GG HH) as E. rewrite !bsum_app in E.
  etransitivity; [|etransitivity; [exact E|]].
  - apply bsum_ext. intros i Vi. apply bsum_ext. intros o Vo. unfold ff, gg. destruct (S i o Vi) as [-> ->]. destruct (G i o Vi Vo) as [A _].
    destruct (S (g1 i o) (g2 i o) A) as [-> ->]. reflexivity.
  - apply bsum_ext. intros i Vi. apply bsum_ext. intros o Vo. unfold ff. destruct (S i o Vi) as [-> ->]. reflexivity.
Qed.

(** *** looking back *)
Definition mutual (m : mode F) : Prop := m = MCircular \/ m = MSymmetric.
Lemma back_one (m : mode F) n k j o : mutual m -> Z.odd k = true -> 0 <= j < n -> 0 <= o < k ->
  let i := spot m n (j + o - k / 2) in let o' := back1 m n k j o in
  0 <= o' < k /\ spot m n (i + o' - k / 2) = j /\ back1 m n k i o' = o.
Proof.
  intros Hm Ho Hj Hr. assert (K : k = 2 * (k / 2) + 1).
  { rewrite (Z.div_mod k 2) at 1 by lia. rewrite Zmod_odd, Ho. lia. }
  set (b := k / 2) in *. cbv zeta. destruct Hm as [-> | ->].
  - cbn [spot back1]. split; [lia|]. split; [|lia].
    rewrite <- Z.add_sub_assoc, Zplus_mod_idemp_l. replace (j + o - b + (k - 1 - o - b)) with j by lia. apply Z.mod_small; lia.
  - cbn [spot back1]. cbv zeta. fold b. pose proof (Z.mod_pos_bound (j + o - b) (2 * n) ltac:(lia)) as B. pose proof (Z.div_mod (j + o - b) (2 * n) ltac:(lia)) as E.
    set (t := (j + o - b) mod (2 * n)) in *. set (w := (j + o - b) / (2 * n)) in *. destruct (Z.ltb_spec t n).
    + replace (t + (k - 1 - o) - b) with (j + (- w) * (2 * n)) by lia. rewrite Z.mod_add, Z.mod_small by lia. destruct (Z.ltb_spec j n); lia.
    + replace (2 * n - 1 - t + o - b) with (2 * n - 1 - j + w * (2 * n)) by lia. rewrite Z.mod_add, Z.mod_small by lia. destruct (Z.ltb_spec (2 * n - 1 - j) n); lia.
Qed.
Lemma back_length al (ms : list (mode F)) ks sh j o : length (back al ms ks sh j o) = length al.
Proof. unfold back. now rewrite map_length, seq_length. Qed.
Lemma back_nth al (ms : list (mode F)) ks sh j o r : (r < length al)%nat -> nth r (back al ms ks sh j o) 0 =
  back1 (nth r ms MUnknown) (nth (nth r al 0%nat) sh 0) (nth r ks 0) (nth (nth r al 0%nat) j 0) (nth r o 0).
Proof.
  intros Hr. unfold back. set (f := fun r => _). rewrite (nth_indep _ 0 (f 0%nat)) by (rewrite map_length, seq_length; auto).
  rewrite map_nth, seq_nth by auto. reflexivity.
Qed.

Section Mutual.
Variables (al : list nat) (ms : list (mode F)) (ks sh : list Z).
Hypothesis N : NoDup al.
Hypothesis Hal : forall a, In a al -> (a < length sh)%nat.
Hypothesis Lm : length ms = length al.
Hypothesis Lk : length ks = length al.
Hypothesis Pos : forall a, In a al -> 1 <= nth a sh 0.
Hypothesis Mut : forall r, (r < length al)%nat -> mutual (nth r ms MUnknown) /\ Z.odd (nth r ks 0) = true.

Lemma mutual_copying m : In m ms -> copying m.
Proof.
  intros H. destruct (In_nth ms m MUnknown H) as [r [Hr <-]]. destruct (Mut r ltac:(lia)) as [[E|E] _]; rewrite E; unfold copying; tauto.
Qed.
Lemma look_back j o : valid sh j -> valid ks o ->
  valid sh (look al ms ks sh j o) /\ valid ks (back al ms ks sh j o) /\
  look al ms ks sh (look al ms ks sh j o) (back al ms ks sh j o) = j /\ back al ms ks sh (look al ms ks sh j o) (back al ms ks sh j o) = o.
Proof.
  intros Vj Vo. pose proof (valid_length _ _ Vj) as Lj. pose proof (valid_length _ _ Vo) as Lo.
  assert (In0 : forall r, (r < length al)%nat -> In (nth r al 0%nat) al) by (intros; now apply nth_In).
  assert (Hl : forall a, In a al -> (a < length j)%nat) by (intros a Ha; rewrite Lj; auto).
  assert (B : forall r, (r < length al)%nat ->
    let m := nth r ms MUnknown in let n := nth (nth r al 0%nat) sh 0 in let k := nth r ks 0 in let c := nth (nth r al 0%nat) j 0 in let t := nth r o 0 in
    let i := spot m n (c + t - k / 2) in let o' := back1 m n k c t in 0 <= o' < k /\ spot m n (i + o' - k / 2) = c /\ back1 m n k i o' = t).
  { intros r Hr. destruct (Mut r Hr) as [M1 M2]. apply back_one; auto.
    - apply (valid_nth sh j _ Vj). auto.
    - apply (valid_nth ks o _ Vo). lia. }
  split; [apply spot_valid; auto; [lia|apply mutual_copying]|]. split; [|split].
  - apply valid_iff. split; [rewrite back_length; lia|]. intros r Hr. rewrite Lk in Hr. rewrite back_nth by auto. now apply (B r).
  - apply list_ext with (d := 0); [now rewrite !look_length|]. intros d _.
    destruct (in_dec Nat.eq_dec d al) as [Hi|Hi]; [|now rewrite !look_notin by auto].
    destruct (In_pos d al 0%nat Hi) as [r [Hr <-]]. rewrite look_nth; rewrite ?look_length, ?back_length; auto. rewrite look_nth; auto; try lia. rewrite back_nth by auto. now apply (B r).
  - apply list_ext with (d := 0); [rewrite back_length; lia|]. intros r Hr. rewrite back_length in Hr. rewrite !back_nth by auto. rewrite look_nth; auto; try lia. now apply (B r).
Qed.
End Mutual.

Lemma weight_same (kers : list (list F)) : forall kers' o o', length kers' = length kers -> length o = length kers -> length o' = length kers ->
  (forall r, (r < length kers)%nat -> nth (Z.to_nat (nth r o 0)) (nth r kers []) f0 = nth (Z.to_nat (nth r o' 0)) (nth r kers' []) f0) ->
  weight kers o = weight kers' o'.
Proof.
  induction kers as [|k kers IH]; intros [|k' kers'] [|a o] [|b o'] L1 L2 L3 H; try discriminate; cbn [weight]; auto.
  f_equal; [exact (H 0%nat ltac:(cbn; lia))|]. apply IH; auto. intros r Hr. exact (H (S r) ltac:(cbn; lia)).
Qed.
Lemma eff_rev (k : list F) : eff_kernel (rev k) = rev (eff_kernel k).
Proof. destruct k as [|a k]; [reflexivity|]. cbn [eff_kernel]. destruct (rev (a :: k)) eqn:E; [|reflexivity]. apply (f_equal (@length F)) in E. rewrite rev_length in E. discriminate. Qed.
Lemma klen_rev (k : list F) : klen (rev k) = klen k.
Proof. unfold klen. now rewrite rev_length. Qed.

(** With kernels of odd length, every axis circular, or symmetric with a palindromic kernel. *)
Definition adjoint_axes (al : list nat) (ms : list (mode F)) (kers : list (list F)) : Prop :=
  forall r, (r < length al)%nat -> Z.odd (klen (eff_kernel (nth r kers []))) = true /\
    (nth r ms MUnknown = MCircular \/ nth r ms MUnknown = MSymmetric /\ rev (nth r kers []) = nth r kers []).

Lemma nth_eff (kers : list (list F)) r : (r < length kers)%nat -> nth r (map eff_kernel kers) [] = eff_kernel (nth r kers []).
Proof. intros Hr. rewrite (nth_indep _ [] (eff_kernel [])) by (rewrite map_length; lia). now rewrite map_nth. Qed.
Lemma nth_klen (kers : list (list F)) r : (r < length kers)%nat -> nth r (map klen kers) 0 = klen (nth r kers []).
Proof. intros Hr. rewrite (nth_indep _ 0 (klen (@nil F))) by (rewrite map_length; lia). now rewrite map_nth. Qed.
Lemma map_eff_rev (kers : list (list F)) : map eff_kernel (map (@rev F) kers) = map (@rev F) (map eff_kernel kers).
Proof. rewrite !map_map. apply map_ext. apply eff_rev. Qed.
Lemma map_klen_rev (kers : list (list F)) : map klen (map (@rev F) kers) = map klen kers.
Proof. rewrite map_map. apply map_ext. apply klen_rev. Qed.
Lemma look_sum al ms kers sh (f g : list Z -> F) : NoDup al -> (forall a, In a al -> (a < length sh)%nat) ->
  length ms = length al -> length kers = length al -> (forall a, In a al -> 1 <= nth a sh 0) -> adjoint_axes al ms kers ->
  let ek := map eff_kernel kers in let ks := map klen ek in
  bsum sh (fun j => bsum ks (fun o => fmul (weight ek o) (fmul (f (look al ms ks sh j o)) (g j)))) =
  bsum sh (fun i => bsum ks (fun o => fmul (weight (map (@rev F) ek) o) (fmul (f i) (g (look al ms ks sh i o))))).
Proof.
  intros Nd Hal Lm Lk0 Pos A ek ks.
  assert (Le : length ek = length al) by (unfold ek; rewrite map_length; lia). assert (Lk : length ks = length al) by (unfold ks; rewrite map_length; lia).
  assert (Ek : forall r, (r < length al)%nat -> nth r ek [] = eff_kernel (nth r kers [])) by (intros r Hr; apply nth_eff; lia).
  assert (Kr : forall r, (r < length al)%nat -> nth r ks 0 = klen (nth r ek [])) by (intros r Hr; apply nth_klen; lia).
  assert (Od : forall r, (r < length al)%nat -> mutual (nth r ms MUnknown) /\ Z.odd (nth r ks 0) = true).
  { intros r Hr. split; [destruct (A r Hr) as [_ [E|[E _]]]; rewrite E; unfold mutual; tauto|]. rewrite Kr, Ek by auto. now apply A. }
  assert (LB := look_back al ms ks sh Nd Hal Lm Lk Pos Od). symmetry.
  rewrite <- (bsum_bij2 sh ks (look al ms ks sh) (back al ms ks sh) (look al ms ks sh) (back al ms ks sh) _ LB LB).
  apply bsum_ext. intros j Vj. apply bsum_ext. intros o Vo. destruct (LB j o Vj Vo) as [L1 [L2 [L3 L4]]]. rewrite L3. f_equal.
  pose proof (valid_length _ _ Vo) as Lo. symmetry. apply weight_same; rewrite ?map_length, ?back_length; try lia.
  intros r Hr. rewrite Le in Hr. rewrite back_nth by auto. rewrite (nth_indep (map (@rev F) ek) [] (rev [])) by (rewrite map_length; lia). rewrite map_nth.
  assert (Rr : (r < length ks)%nat) by lia. pose proof (valid_nth _ _ _ Vo Rr) as Ro. rewrite Kr in * by auto. unfold klen in Ro.
  assert (Rv : nth (Z.to_nat (nth r o 0)) (nth r ek []) f0 = nth (Z.to_nat (klen (nth r ek []) - 1 - nth r o 0)) (rev (nth r ek [])) f0).
  { rewrite rev_nth by (unfold klen; lia). f_equal. unfold klen. lia. }
  destruct (A r Hr) as [_ [E|[E Pa]]]; rewrite E; cbn [back1]; auto.
  destruct (_ <? _); auto. rewrite Ek, <- eff_rev, Pa by auto. reflexivity.
Qed.

Theorem filter_adjoint fuel junk fuel' junk' (f g : pool F) (x y : T) ax al kers p p' ms :
  built (length al) kers (repeat 1 (length al)) (Some p) f -> built (length al) (map (@rev F) kers) (repeat 1 (length al)) (Some p') g ->
  same_call F fuel p x ax al ms kers (repeat 1 (length al)) -> same_call F fuel' p' y ax al ms (map (@rev F) kers) (repeat 1 (length al)) ->
  shp y = shp x -> adjoint_axes al ms kers ->
  exists u v, snd (sep_forward fuel junk f x ax) = Ok u /\ snd (sep_forward fuel' junk' g y ax) = Ok v /\ shp u = shp x /\ shp v = shp x /\
    bsum (shp x) (fun i => fmul (at_ u i) (at_ y i)) = bsum (shp x) (fun i => fmul (at_ x i) (at_ v i)).
Proof.
  intros B1 B2 C1 C2 Sy A. destruct (built_strides F _ _ _ _ _ B1) as [K1 _]. pose proof C1 as [[O1 O2 O3] N0 P0 P1 _ PF _ _]. unfold ndim in *.
  assert (Lm : length ms = length al) by (apply (expand_length _ _ _ (pf_mode _ _ _ PF))).
  assert (Cm : forall m, In m ms -> copying m).
  { intros m H. destruct (In_nth ms m MUnknown H) as [r [Hr <-]]. destruct (A r ltac:(lia)) as [_ [-> |[-> _]]]; unfold copying; tauto. }
  destruct (filter_copying F fuel junk f x ax al kers p ms B1 C1 Cm) as [u [U1 [U2 U3]]].
  destruct (filter_copying F fuel' junk' g y ax al (map (@rev F) kers) p' ms B2 C2 Cm) as [v [V1 [V2 V3]]]. rewrite Sy in *.
  exists u, v. do 4 (split; auto). rewrite map_eff_rev, map_klen_rev in V3.
  etransitivity; [|etransitivity; [apply (look_sum al ms kers (shp x) (at_ x) (at_ y)); auto; lia|]].
  - apply bsum_ext. intros j Vj. rewrite U3 by auto. transitivity (fmul (at_ y j) (bsum (map klen (map eff_kernel kers)) (fun o =>
      fmul (weight (map eff_kernel kers) o) (at_ x (look al ms (map klen (map eff_kernel kers)) (shp x) j o))))); [ring|]. rewrite <- bsum_mul. apply bsum_ext. intros o Vo. ring.
  - apply bsum_ext. intros j Vj. rewrite V3 by auto. rewrite <- bsum_mul. apply bsum_ext. intros o Vo. ring.
Qed.

Lemma wsum_rev (k : list F) : wsum (rev k) = wsum k.
Proof.
  unfold wsum. assert (H : forall l : list F, fold_right fadd f0 (rev l) = fold_right fadd f0 l).
  { intros l. apply lsum_perm. symmetry. apply Permutation_rev. }
  apply H.
Qed.
(** Totals. *)
Lemma look_total al ms kers sh (f : list Z -> F) : NoDup al -> (forall a, In a al -> (a < length sh)%nat) ->
  length ms = length al -> length kers = length al -> (forall a, In a al -> 1 <= nth a sh 0) ->
  adjoint_axes al ms kers \/ ms = repeat MCircular (length al) ->
  let ek := map eff_kernel kers in let ks := map klen ek in
  bsum sh (fun j => bsum ks (fun o => fmul (weight ek o) (f (look al ms ks sh j o)))) = fmul (fprod (map gain kers)) (bsum sh f).
Proof.
  intros Nd Hal Lm Lk0 Pos A. cbv zeta.
  assert (G : map wsum (map eff_kernel kers) = map gain kers) by (rewrite map_map; apply map_ext; apply gain_eff).
  destruct A as [A| ->].
  - etransitivity; [|etransitivity; [apply (look_sum al ms kers sh f (fun _ => f1)); auto|]].
    + apply bsum_ext. intros j Vj. apply bsum_ext. intros o Vo. ring.
    + rewrite <- bsum_mul. apply bsum_ext. intros i Vi. rewrite (bsum_ext F _ _ (fun o => fmul (f i) (weight (map (@rev F) (map eff_kernel kers)) o))) by (intros; ring).
      rewrite bsum_mul, <- (map_klen_rev (map eff_kernel kers)), weight_gain, map_map. rewrite (map_ext _ wsum) by apply wsum_rev. rewrite G. ring.
  - rewrite (bsum_swap F). set (ek := map eff_kernel kers) in *. set (ks := map klen ek) in *. assert (Lk : length ks = length al) by (unfold ks, ek; rewrite !map_length; lia).
    rewrite <- G. fold ek. rewrite <- weight_gain. fold ks.
    transitivity (bsum ks (fun o => fmul (bsum sh f) (weight ek o))); [|rewrite bsum_mul; ring].
    apply bsum_ext. intros o Vo. rewrite bsum_mul. pose proof (valid_length _ _ Vo) as Lo.
    assert (E : bsum sh (fun j => f (look al (repeat (@MCircular F) (length al)) ks sh j o)) = bsum sh f); [|rewrite E; ring].
    set (back_o := map2 (fun k t => 2 * (k / 2) - t) ks o). assert (Lb : length back_o = length al) by (unfold back_o; rewrite map2_length; lia).
    assert (R : forall o1 o2 j, length o1 = length al -> length o2 = length al -> (forall r, (r < length al)%nat -> nth r o1 0 + nth r o2 0 = 2 * (nth r ks 0 / 2)) -> valid sh j ->
      valid sh (look al (repeat (@MCircular F) (length al)) ks sh j o1) /\
      look al (repeat (@MCircular F) (length al)) ks sh (look al (repeat (@MCircular F) (length al)) ks sh j o1) o2 = j).
    { intros o1 o2 j L1 L2 E Vj. pose proof (valid_length _ _ Vj) as Lj. split; [apply spot_valid; auto; intros m H; apply repeat_spec in H; subst; unfold copying; tauto|].
      assert (Hl : forall a, In a al -> (a < length j)%nat) by (intros a Ha; rewrite Lj; auto).
      apply list_ext with (d := 0); [now rewrite !look_length|]. intros d _.
      destruct (in_dec Nat.eq_dec d al) as [Hi|Hi]; [|now rewrite !look_notin by auto].
      destruct (In_pos d al 0%nat Hi) as [r [Hr <-]]. rewrite look_nth; rewrite ?look_length; auto. rewrite look_nth; auto.
      rewrite !(nth_indep _ (@MUnknown F) (@MCircular F)) by (rewrite repeat_length; auto). rewrite !nth_repeat. cbn [spot].
      rewrite <- Z.add_sub_assoc, Zplus_mod_idemp_l. specialize (E r Hr). assert (Hs : (nth r al 0%nat < length sh)%nat) by auto.
      pose proof (valid_nth _ _ _ Vj Hs). replace (nth (nth r al 0%nat) j 0 + nth r o1 0 - nth r ks 0 / 2 + (nth r o2 0 - nth r ks 0 / 2)) with (nth (nth r al 0%nat) j 0) by lia.
      apply Z.mod_small. auto. }
    assert (Nb : forall r, (r < length al)%nat -> nth r back_o 0 = 2 * (nth r ks 0 / 2) - nth r o 0).
    { intros r Hr. unfold back_o. rewrite nth_map2 with (da := 0) (db := 0) by lia. reflexivity. }
    apply (bsum_bij sh (fun j => look al (repeat (@MCircular F) (length al)) ks sh j o) (fun j => look al (repeat (@MCircular F) (length al)) ks sh j back_o)).
    + intros j Vj. apply R; auto; [lia|]. intros r Hr. rewrite Nb by auto. lia.
    + intros j Vj. apply R; auto; [lia|]. intros r Hr. rewrite Nb by auto. lia.
Qed.
Theorem filter_total fuel junk (f : pool F) (x : T) ax al kers p ms :
  built (length al) kers (repeat 1 (length al)) (Some p) f -> same_call F fuel p x ax al ms kers (repeat 1 (length al)) ->
  adjoint_axes al ms kers \/ ms = repeat MCircular (length al) ->
  exists u, snd (sep_forward fuel junk f x ax) = Ok u /\ shp u = shp x /\
    bsum (shp x) (at_ u) = fmul (fprod (map gain kers)) (bsum (shp x) (at_ x)).
Proof.
  intros B1 C1 A. destruct (built_strides F _ _ _ _ _ B1) as [K1 _]. pose proof C1 as [[O1 O2 O3] N0 P0 P1 _ PF _ _]. unfold ndim in *.
  assert (Lm : length ms = length al) by (apply (expand_length _ _ _ (pf_mode _ _ _ PF))).
  assert (Cm : forall m, In m ms -> copying m).
  { intros m H. destruct A as [A| ->]; [|apply repeat_spec in H; subst; unfold copying; tauto].
    destruct (In_nth ms m MUnknown H) as [r [Hr <-]]. destruct (A r ltac:(lia)) as [_ [-> |[-> _]]]; unfold copying; tauto. }
  destruct (filter_copying F fuel junk f x ax al kers p ms B1 C1 Cm) as [u [U1 [U2 U3]]]. exists u. do 2 (split; auto).
  rewrite (bsum_ext F (shp x) _ _ U3). apply look_total; auto; lia.
Qed.

(** Edge components. *)
Section Edges.
Variable trunc : F -> Z.
Lemma eff_id (k : list F) : k <> [] -> eff_kernel k = k.
Proof. destruct k; [congruence|reflexivity]. Qed.
Theorem component_total fuel junk ker smooth raw normalize p m shared (e : edge_filter F) (x : T) ea ax ax' a al k :
  edge_init (NItem ker) smooth normalize (Some p) shared = Ok e -> ker <> [] ->
  check_axes (Z.of_nat (ndim x)) ea = Ok [Z.of_nat a] -> In a al ->
  edge_image fuel p m x ax al k -> check_axes (Z.of_nat (ndim x)) ax' = Ok (map Z.of_nat al) -> klen ker <= k ->
  expand (length (without a al)) smooth = Some raw -> (forall s, In s raw -> klen s <= k) ->
  m = MCircular \/ m = MSymmetric /\ (forall s, In s (used_kernel trunc ker :: smoothers normalize raw) -> Z.odd (klen (eff_kernel s)) = true /\ rev s = s) ->
  exists y, snd (component trunc fuel junk e x ea ax') = Ok y /\ shp y = shp x /\
    bsum (shp x) (at_ y) = fmul (fmul (wsum (used_kernel trunc ker)) (fprod (map gain (smoothers normalize raw)))) (bsum (shp x) (at_ x)).
Proof.
  intros HI Hk Ha Hin EI Hax Hlk Hr Hs Hm.
  assert (Cm : copying m) by (destruct Hm as [-> |[-> _]]; unfold copying; tauto).
  destruct (component_copying F trunc fuel junk ker smooth raw normalize p m shared e x ea ax ax' a al k HI Hk Cm Ha Hin EI Hax Hlk Hr Hs) as [y [Y1 [Y2 Y3]]].
  exists y. do 2 (split; auto). cbv zeta in Y3. rewrite (bsum_ext F (shp x) _ _ Y3). pose proof EI as [[A1 A2 A3] P0 Pos1 U M FU]. unfold ndim in *.
  destruct (edge_init_built F _ _ _ _ _ _ HI) as [_ [_ [_ I4]]]. specialize (I4 _ _ Hr). destruct (built_strides F _ _ _ _ _ I4) as [K1 _].
  set (sm := smoothers normalize raw) in *. set (S := map eff_kernel sm) in *. set (w := without a al) in *. set (u := used_kernel trunc ker) in *.
  assert (Ku : klen u = klen ker) by apply used_klen.
  assert (Hu : u <> []) by (intros E; rewrite E in Ku; destruct ker; [congruence|unfold klen in Ku; cbn in Ku; lia]).
  assert (W : forall b, In b w -> In b al /\ b <> a).
  { intros b Hb. unfold w, without in Hb. apply filter_In in Hb as [H1 H2]. split; auto. intros ->. now rewrite Nat.eqb_refl in H2. }
  transitivity (bsum (shp x) (fun j => bsum (map klen (map eff_kernel (u :: sm))) (fun o => fmul (weight (map eff_kernel (u :: sm)) o)
    (at_ x (look (a :: w) (m :: repeat m (length w)) (map klen (map eff_kernel (u :: sm))) (shp x) j o))))).
  - apply bsum_ext. intros j Vj. cbn [map bsum]. rewrite (eff_id u Hu), Ku. fold S.
    rewrite (bsum_ext F (map klen S) _ (fun o => fsum (klen ker) (fun q => fmul (weight S o) (fmul (nth (Z.to_nat q) u f0)
        (at_ x (upd a (spot m (nth a (shp x) 0) (nth a j 0 + q - klen ker / 2)) (look w (repeat m (length w)) (map klen S) (shp x) j o))))))).
    2:{ intros o Vo. now rewrite fsum_mul. }
    rewrite bsum_fsum. apply fsum_ext. intros q Hq. apply bsum_ext. intros o Vo. cbn [weight look]. ring.
  - etransitivity; [apply look_total|].
    + constructor; [intros I; now apply (proj2 (W a I))|]. unfold w, without. now apply NoDup_filter.
    + intros b [<- |Hb]; [auto|]. apply A2. now apply W.
    + cbn. now rewrite repeat_length.
    + cbn [length]. fold sm. lia.
    + intros b [<- |Hb]; [auto|]. apply Pos1. now apply W.
    + destruct Hm as [-> |[-> Hm]]; [right; reflexivity|left]. intros r Hr'. cbn [length] in Hr'.
      assert (Is : In (nth r (u :: sm) []) (u :: sm)) by (apply nth_In; cbn [length]; lia). destruct (Hm _ Is). split; auto. right. split; auto.
      change (@MSymmetric F :: repeat MSymmetric (length w)) with (repeat (@MSymmetric F) (Datatypes.S (length w))).
      rewrite (nth_indep _ MUnknown MSymmetric) by (rewrite repeat_length; lia). apply nth_repeat.
    + cbn [map EdgeLinear.fprod fold_right]. replace (gain u) with (wsum u); [reflexivity|]. destruct u; [congruence|reflexivity].
Qed.
Theorem named_component_total fuel junk normalize p m shared (e : edge_filter F) (x : T) ker smooth ea ax ax' a al : truncates trunc ->
  named normalize (Some p) shared e ker smooth ->
  check_axes (Z.of_nat (ndim x)) ea = Ok [Z.of_nat a] -> In a al ->
  edge_image fuel p m x ax al 5 -> check_axes (Z.of_nat (ndim x)) ax' = Ok (map Z.of_nat al) ->
  m = MCircular \/ m = MSymmetric /\ ker = laplace_kernel /\ smooth = [] ->
  exists y, snd (component trunc fuel junk e x ea ax') = Ok y /\ shp y = shp x /\ bsum (shp x) (at_ y) = f0.
Proof.
  intros TR N Ha Hin EI Hax Hm. destruct (named_len _ _ _ _ _ _ _ N) as [L1 L2]. pose proof (named_used F trunc _ _ _ _ _ _ TR N) as NU.
  assert (Hk : ker <> []) by (destruct N; discriminate).
  assert (W0 : wsum ker = f0).
  { pose proof (named_balanced F trunc _ _ _ _ _ _ TR N) as B. unfold balanced in B. rewrite ?NU in B. apply B. }
  destruct (component_total fuel junk ker (NItem smooth) (repeat smooth (length (without a al))) normalize p m shared e x ea ax ax' a al 5) as [y [Y1 [Y2 Y3]]]; auto.
  { now apply named_init in N. }
  { intros s Hs. apply repeat_spec in Hs. now subst. }
  { destruct Hm as [-> |[-> [-> ->]]]; [now left|right]. split; auto. intros s [<- |Hs].
    - rewrite NU. split; reflexivity.
    - assert (s = []) as ->; [|split; reflexivity]. unfold smoothers in Hs. destruct normalize; [|now apply repeat_spec in Hs].
      apply in_map_iff in Hs. destruct Hs as [t [<- Ht]]. apply repeat_spec in Ht. now subst. }
  exists y. do 2 (split; auto). rewrite Y3, NU, W0. ring.
Qed.
End Edges.
End FA.
