(** Two poolings without padding, one after the other, are one pooling. *)
From Coq Require Import Permutation.
From Verif Require Export PoolPropLemmas.
Open Scope Z_scope.

Section Spec.
Context {F : ofield}.
(** Entry i of a kernel, zero outside. *)
Definition entry (k : list F) (i : Z) : F := if (0 <=? i) && (i <? klen k) then nth (Z.to_nat i) k f0 else f0.
(** The kernel k2 spread out by s and convolved with k1. *)
Definition spread_conv (k1 : list F) (s : Z) (k2 : list F) : list F :=
  map (fun t => fsum (klen k2) (fun j => fmul (entry k2 j) (entry k1 (t - s * j)))) (zrange (klen k1 + s * (klen k2 - 1))).
(** An empty kernel leaves its axis alone. *)
Definition in_turn (k1 : list F) (s : Z) (k2 : list F) : list F :=
  match k1, k2 with [], _ => k2 | _, [] => k1 | _, _ => spread_conv k1 s k2 end.
Definition in_turn_stride (k1 : list F) (s1 : Z) (k2 : list F) (s2 : Z) : Z :=
  match k1, k2 with [], _ => s2 | _, [] => s1 | _, _ => s1 * s2 end.
End Spec.

Section Twice.
Variable F : ofield.
Add Field Fpt : (f_field F).
Notation T := (tensor F).

Lemma entry_in (k : list F) i : 0 <= i < klen k -> entry k i = nth (Z.to_nat i) k f0.
Proof. intros H. unfold entry. destruct (Z.leb_spec 0 i), (Z.ltb_spec i (klen k)); auto; lia. Qed.
Lemma entry_out (k : list F) i : i < 0 \/ klen k <= i -> entry k i = f0.
Proof. intros H. unfold entry. destruct (Z.leb_spec 0 i), (Z.ltb_spec i (klen k)); auto; lia. Qed.
Lemma klen_nonneg (k : list F) : 0 <= klen k. Proof. unfold klen. lia. Qed.
Lemma klen_cons_pos (k : list F) : k <> [] -> 1 <= klen k.
Proof. destruct k; [congruence|]. intros _. unfold klen. simpl length. lia. Qed.
Lemma klen_spread (k1 : list F) s (k2 : list F) : 1 <= klen k1 -> 1 <= klen k2 -> 1 <= s -> klen (spread_conv k1 s k2) = klen k1 + s * (klen k2 - 1).
Proof. intros H1 H2 H3. unfold klen at 1, spread_conv. rewrite map_length, zrange_length. nia. Qed.
Lemma entry_spread (k1 : list F) s (k2 : list F) t : 1 <= klen k1 -> 1 <= klen k2 -> 1 <= s -> 0 <= t < klen k1 + s * (klen k2 - 1) ->
  nth (Z.to_nat t) (spread_conv k1 s k2) f0 = fsum (klen k2) (fun j => fmul (entry k2 j) (entry k1 (t - s * j))).
Proof.
  intros H1 H2 H3 H. set (G := fun t => fsum (klen k2) (fun j => fmul (entry k2 j) (entry k1 (t - s * j)))).
  change (nth (Z.to_nat t) (map G (zrange (klen k1 + s * (klen k2 - 1)))) f0 = G t).
  rewrite (nth_indep _ f0 (G 0)) by (rewrite map_length, zrange_length; lia). rewrite map_nth. f_equal. rewrite nth_zrange; lia.
Qed.

(** One axis. *)
Lemma spread_sum (k1 : list F) s (k2 : list F) (g : Z -> F) : 1 <= klen k1 -> 1 <= klen k2 -> 1 <= s ->
  fsum (klen (spread_conv k1 s k2)) (fun t => fmul (nth (Z.to_nat t) (spread_conv k1 s k2) f0) (g t)) =
  fsum (klen k2) (fun j => fmul (nth (Z.to_nat j) k2 f0) (fsum (klen k1) (fun i => fmul (nth (Z.to_nat i) k1 f0) (g (s * j + i))))).
Proof.
  intros H1 H2 H3. rewrite klen_spread by auto.
  rewrite (fsum_ext F _ _ (fun t => fsum (klen k2) (fun j => fmul (entry k2 j) (fmul (entry k1 (t - s * j)) (g t))))).
  2:{ intros t Ht. rewrite entry_spread by auto. rewrite <- fsum_mul_r. apply fsum_ext. intros; ring. }
  rewrite fsum_swap. apply fsum_ext. intros j Hj. rewrite fsum_mul. rewrite entry_in by auto. f_equal.
  replace (klen k1 + s * (klen k2 - 1)) with (s * j + (klen k1 + s * (klen k2 - 1 - j))) by ring.
  rewrite fsum_app by nia. rewrite (fsum_zero F (s * j)) by (intros t Ht; rewrite entry_out by lia; ring).
  rewrite fsum_app by nia. rewrite (fsum_zero F (s * (klen k2 - 1 - j))) by (intros t Ht; rewrite entry_out by lia; ring).
  rewrite (fsum_ext F (klen k1) _ (fun i => fmul (nth (Z.to_nat i) k1 f0) (g (s * j + i)))); [ring|].
  intros i Hi. rewrite entry_in by lia. do 3 f_equal. lia.
Qed.

(** All axes.  Offsets combine as s * o2 + o1. *)
Fixpoint combine_off (ss o2 o1 : list Z) : list Z :=
  match ss, o2, o1 with s :: ss', b :: o2', a :: o1' => (s * b + a) :: combine_off ss' o2' o1' | _, _, _ => [] end.
Fixpoint spreads (k1 : list (list F)) (ss : list Z) (k2 : list (list F)) : list (list F) :=
  match k1, ss, k2 with a :: k1', s :: ss', b :: k2' => spread_conv a s b :: spreads k1' ss' k2' | _, _, _ => [] end.
Lemma bsum_chain (k1 : list (list F)) : forall ss k2 (h : list Z -> F), length ss = length k1 -> length k2 = length k1 ->
  (forall k, In k k1 -> 1 <= klen k) -> (forall k, In k k2 -> 1 <= klen k) -> (forall s, In s ss -> 1 <= s) ->
  bsum (map klen (spreads k1 ss k2)) (fun o => fmul (weight (spreads k1 ss k2) o) (h o)) =
  bsum (map klen k2) (fun o2 => fmul (weight k2 o2) (bsum (map klen k1) (fun o1 => fmul (weight k1 o1) (h (combine_off ss o2 o1))))).
Proof.
  induction k1 as [|a k1 IH]; intros [|s ss] [|b k2] h L1 L2 H1 H2 H3; try discriminate.
  - cbn. ring.
  - cbn [spreads map bsum weight]. 
    rewrite (fsum_ext F _ _ (fun t => fmul (nth (Z.to_nat t) (spread_conv a s b) f0)
       (bsum (map klen (spreads k1 ss k2)) (fun o => fmul (weight (spreads k1 ss k2) o) (h (t :: o)))))).
    2:{ intros t Ht. rewrite <- bsum_mul. apply bsum_ext. intros o Vo. ring. }
    rewrite spread_sum; [|apply H1; now left|apply H2; now left|apply H3; now left].
    apply fsum_ext. intros j Hj. rewrite <- fsum_mul.
    rewrite (fsum_ext F _ _ (fun i => bsum (map klen k2) (fun o2 => fmul (nth (Z.to_nat j) b f0) (fmul (weight k2 o2)
       (fmul (nth (Z.to_nat i) a f0) (bsum (map klen k1) (fun o1 => fmul (weight k1 o1) (h ((s * j + i) :: combine_off ss o2 o1))))))))).
    2:{ intros i Hi. rewrite IH; [|now injection L1|now injection L2|intros; apply H1; now right|intros; apply H2; now right|intros; apply H3; now right].
        rewrite <- !bsum_mul. apply bsum_ext. intros o Vo. ring. }
    rewrite <- ?bsum_fsum. apply bsum_ext. intros o2 V2. rewrite !fsum_mul. rewrite <- (Rmul_assoc (F_R (f_field F))).
    do 2 f_equal. apply fsum_ext. intros i Hi. rewrite <- bsum_mul. apply bsum_ext. intros o1 V1. cbn [combine_off]. ring.
Qed.
Lemma combine_length ss : forall o2 o1, length o2 = length ss -> length o1 = length ss -> length (combine_off ss o2 o1) = length ss.
Proof. induction ss as [|s ss IH]; intros [|b o2] [|a o1] L2 L1; try discriminate; cbn; auto. Qed.
Lemma combine_nth ss : forall o2 o1 r, length o2 = length ss -> length o1 = length ss -> (r < length ss)%nat ->
  nth r (combine_off ss o2 o1) 0 = nth r ss 1 * nth r o2 0 + nth r o1 0.
Proof.
  induction ss as [|s ss IH]; intros [|b o2] [|a o1] r L2 L1 Hr; try discriminate; cbn [length] in *; try lia.
  destruct r as [|r]; cbn [combine_off nth]; auto. apply IH; lia.
Qed.
Lemma place_twice al s1 s2 j o2 o1 : NoDup al -> (forall a, In a al -> (a < length j)%nat) -> length s1 = length al -> length s2 = length al ->
  length o2 = length al -> length o1 = length al ->
  place al s1 (place al s2 j o2) o1 = place al (map2 Z.mul s1 s2) j (combine_off s1 o2 o1).
Proof.
  intros N B L1 L2 L3 L4. apply list_ext with (d := 0); [now rewrite !place_length|]. intros d _.
  destruct (in_dec Nat.eq_dec d al) as [Hi|Hi]; [|now rewrite !place_notin by auto].
  destruct (In_pos d al 0%nat Hi) as [r [Hr <-]].
  rewrite !place_nth; rewrite ?place_length, ?map2_length, ?combine_length; auto; try lia.
  rewrite combine_nth by lia. rewrite nth_map2 with (da := 1) (db := 1) by lia. ring.
Qed.

Lemma spread_one_l (k : list F) : spread_conv [f1] 1 k = k.
Proof.
  destruct k as [|c k]; [reflexivity|]. set (K := c :: k). assert (P : 1 <= klen K) by (apply klen_cons_pos; discriminate).
  assert (L : klen (spread_conv [f1] 1 K) = klen K) by (rewrite klen_spread; change (klen [@f1 F]) with 1; lia).
  apply list_ext with (d := f0); [unfold klen in L; lia|]. intros i Hi. assert (Hi2 : 0 <= Z.of_nat i < klen K) by (unfold klen in *; lia).
  rewrite <- (Nat2Z.id i) at 1. rewrite entry_spread; try (change (klen [@f1 F]) with 1; lia); auto.
  rewrite (fsum_ext F _ _ (fun j => if Z.eqb j (Z.of_nat i) then entry K j else f0)).
  - rewrite (fsum_single F _ (Z.of_nat i)) by (auto; intros k0 _ Hk0; destruct (Z.eqb_spec k0 (Z.of_nat i)); congruence). rewrite Z.eqb_refl. rewrite entry_in by auto. now rewrite Nat2Z.id.
  - intros j Hj. destruct (Z.eqb_spec j (Z.of_nat i)) as [->|Hne].
    + replace (Z.of_nat i - 1 * Z.of_nat i) with 0 by lia. rewrite (entry_in [f1] 0) by (change (klen [@f1 F]) with 1; lia). cbn [nth Z.to_nat]. ring.
    + rewrite (entry_out [f1]) by (change (klen [@f1 F]) with 1; lia). ring.
Qed.
Lemma spread_one_r (k : list F) s : k <> [] -> 1 <= s -> spread_conv k s [f1] = k.
Proof.
  intros Hk Hs. assert (P : 1 <= klen k) by (apply klen_cons_pos; auto).
  assert (L : klen (spread_conv k s [f1]) = klen k) by (rewrite klen_spread; change (klen [@f1 F]) with 1; lia).
  apply list_ext with (d := f0); [unfold klen in L; lia|]. intros i Hi. assert (Hi2 : 0 <= Z.of_nat i < klen k) by (unfold klen in *; lia).
  rewrite <- (Nat2Z.id i) at 1. rewrite entry_spread; try (change (klen [@f1 F]) with 1; lia); auto.
  change (klen [@f1 F]) with 1. rewrite fsum_1. rewrite (entry_in [f1] 0) by (change (klen [@f1 F]) with 1; lia).
  replace (Z.of_nat i - s * 0) with (Z.of_nat i) by lia. rewrite entry_in by auto. rewrite Nat2Z.id. cbn [nth Z.to_nat]. ring.
Qed.
Lemma eff_pos (k : list F) : 1 <= klen (eff_kernel k).
Proof. apply klen_cons_pos. destruct k; discriminate. Qed.
Lemma eff_in_turn (k1 : list F) s k2 : (k1 <> [] -> 1 <= s) ->
  eff_kernel (in_turn k1 s k2) = spread_conv (eff_kernel k1) (eff_stride k1 s) (eff_kernel k2).
Proof.
  intros H. destruct k1 as [|a k1]; [cbn [in_turn eff_kernel eff_stride]; now rewrite spread_one_l|].
  assert (1 <= s) by (apply H; discriminate).
  destruct k2 as [|b k2]; cbn [in_turn eff_kernel eff_stride]; [rewrite spread_one_r; auto; discriminate|].
  destruct (spread_conv (a :: k1) s (b :: k2)) eqn:E; auto. exfalso.
  assert (L : klen (spread_conv (a :: k1) s (b :: k2)) = klen (a :: k1) + s * (klen (b :: k2) - 1))
   by (apply klen_spread; auto; apply klen_cons_pos; discriminate).
  rewrite E in L. assert (1 <= klen (a :: k1)) by (apply klen_cons_pos; discriminate). assert (1 <= klen (b :: k2)) by (apply klen_cons_pos; discriminate).
  change (klen []) with 0 in L. nia.
Qed.
Lemma eff_in_turn_stride (k1 : list F) s1 k2 s2 : (k1 <> [] -> 1 <= s1) ->
  eff_stride (in_turn k1 s1 k2) (in_turn_stride k1 s1 k2 s2) = eff_stride k1 s1 * eff_stride k2 s2.
Proof.
  intros H. destruct k1 as [|a k1]; [cbn [in_turn in_turn_stride eff_stride]; now rewrite Z.mul_1_l|].
  assert (1 <= s1) by (apply H; discriminate).
  destruct k2 as [|b k2]; cbn [in_turn in_turn_stride eff_stride]; [now rewrite Z.mul_1_r|].
  destruct (spread_conv (a :: k1) s1 (b :: k2)) eqn:E; auto. exfalso.
  assert (L : klen (spread_conv (a :: k1) s1 (b :: k2)) = klen (a :: k1) + s1 * (klen (b :: k2) - 1))
   by (apply klen_spread; auto; apply klen_cons_pos; discriminate).
  rewrite E in L. assert (1 <= klen (a :: k1)) by (apply klen_cons_pos; discriminate). assert (1 <= klen (b :: k2)) by (apply klen_cons_pos; discriminate).
  change (klen []) with 0 in L. nia.
Qed.
Lemma spreads_length k1 : forall ss k2, length ss = length k1 -> length k2 = length k1 -> length (spreads k1 ss k2) = length k1.
Proof. induction k1 as [|a k1 IH]; intros [|s ss] [|b k2] L1 L2; try discriminate; cbn; auto. Qed.
Lemma spreads_nth k1 : forall ss k2 r, length ss = length k1 -> length k2 = length k1 -> (r < length k1)%nat ->
  nth r (spreads k1 ss k2) [] = spread_conv (nth r k1 []) (nth r ss 1) (nth r k2 []).
Proof.
  induction k1 as [|a k1 IH]; intros [|s ss] [|b k2] r L1 L2 Hr; try discriminate; cbn [length] in *; try lia.
  destruct r as [|r]; cbn [spreads nth]; auto. apply IH; lia.
Qed.
Lemma eff_nth2 (kers : list (list F)) r : (r < length kers)%nat -> nth r (map eff_kernel kers) [] = eff_kernel (nth r kers []).
Proof. intros H. rewrite (nth_indep _ [] (eff_kernel [])) by (now rewrite map_length). apply map_nth. Qed.

Definition pool_length (k : list F) (s n : Z) : Z := (n - klen (eff_kernel k)) / eff_stride k s + 1.
Lemma pool_valid2 fuel junk (m : pool F) (x : T) ax al kers sts : on_axes x ax al -> built (length al) kers sts None m ->
  (forall r, (r < length al)%nat -> klen (nth r kers []) <= nth (nth r al 0%nat) (shp x) 0) ->
  exists y, snd (sep_forward fuel junk m x ax) = Ok y /\ ndim y = ndim x /\
    (forall r, (r < length al)%nat -> nth (nth r al 0%nat) (shp y) 0 = pool_length (nth r kers []) (nth r sts 1) (nth (nth r al 0%nat) (shp x) 0)) /\
    (forall d, ~ In d al -> nth d (shp y) 0 = nth d (shp x) 0) /\
    forall j, valid (shp y) j -> at_ y j = correlation al kers sts x j.
Proof.
  intros OA B H. destruct (pool_valid F fuel junk m x ax al kers sts OA B H) as [y [Y1 [Y2 [Y3 [Y4 [Y5 Y6]]]]]].
  exists y. split; auto. split; auto. split; [|auto]. intros r Hr. unfold pool_length. destruct (nth r kers []) as [|c k] eqn:E.
  - rewrite Y4 by auto. cbn [eff_kernel eff_stride]. change (klen [@f1 F]) with 1. rewrite Z.div_1_r. lia.
  - rewrite Y3 by (auto; rewrite E; discriminate). rewrite E. reflexivity.
Qed.
Lemma built_strides n kers sts pd (m : pool F) : built n kers sts pd m -> length kers = n /\ length sts = n /\
  forall r, (r < n)%nat -> nth r kers [] <> [] -> 1 <= nth r sts 1.
Proof.
  intros B. destruct (built_par F _ _ _ _ _ B) as [[A1 [A2 [A3 A4]]] _]. split; auto. split; auto. intros r Hr. apply A4, Hr.
Qed.

Theorem pool_twice fuel junk fuel1 junk1 fuel2 junk2 (m m1 m2 : pool F) (x : T) ax al k1 s1 k2 s2 kers sts : on_axes x ax al ->
  built (length al) k1 s1 None m1 -> built (length al) k2 s2 None m2 -> built (length al) kers sts None m ->
  (forall r, (r < length al)%nat -> nth r kers [] = in_turn (nth r k1 []) (nth r s1 1) (nth r k2 []) /\
     nth r sts 1 = in_turn_stride (nth r k1 []) (nth r s1 1) (nth r k2 []) (nth r s2 1) /\
     klen (nth r kers []) <= nth (nth r al 0%nat) (shp x) 0) ->
  exists y z w, snd (sep_forward fuel1 junk1 m1 x ax) = Ok y /\ snd (sep_forward fuel2 junk2 m2 y ax) = Ok z /\
    snd (sep_forward fuel junk m x ax) = Ok w /\ teq z w.
Proof.
  intros OA B1 B2 B H. destruct (built_strides _ _ _ _ _ B1) as [K1 [S1 P1]]. destruct (built_strides _ _ _ _ _ B2) as [K2 [S2 P2]].
  destruct (built_strides _ _ _ _ _ B) as [K [S P]].
  assert (EK : forall r, (r < length al)%nat -> eff_kernel (nth r kers []) = spread_conv (eff_kernel (nth r k1 [])) (eff_stride (nth r k1 []) (nth r s1 1)) (eff_kernel (nth r k2 []))).
  { intros r Hr. destruct (H r Hr) as [-> _]. apply eff_in_turn. auto. }
  assert (ES : forall r, (r < length al)%nat -> eff_stride (nth r kers []) (nth r sts 1) = eff_stride (nth r k1 []) (nth r s1 1) * eff_stride (nth r k2 []) (nth r s2 1)).
  { intros r Hr. destruct (H r Hr) as [-> [-> _]]. apply eff_in_turn_stride. auto. }
  assert (Q1 : forall r, (r < length al)%nat -> 1 <= eff_stride (nth r k1 []) (nth r s1 1)).
  { intros r Hr. destruct (nth r k1 []) eqn:E; cbn [eff_stride]; [lia|]. apply P1; auto. congruence. }
  assert (Q2 : forall r, (r < length al)%nat -> 1 <= eff_stride (nth r k2 []) (nth r s2 1)).
  { intros r Hr. destruct (nth r k2 []) eqn:E; cbn [eff_stride]; [lia|]. apply P2; auto. congruence. }
  assert (EL : forall r, (r < length al)%nat -> klen (eff_kernel (nth r kers [])) =
     klen (eff_kernel (nth r k1 [])) + eff_stride (nth r k1 []) (nth r s1 1) * (klen (eff_kernel (nth r k2 [])) - 1)).
  { intros r Hr. rewrite EK by auto. apply klen_spread; auto using eff_pos. }
  assert (Z0 : forall k : list F, klen k <= klen (eff_kernel k)) by (intros [|c k]; [unfold klen; cbn; lia|cbn; lia]).
  assert (Z1 : forall k : list F, k <> [] -> klen k = klen (eff_kernel k)) by (intros [|c k] E; [congruence|reflexivity]).
  assert (IT : forall a s (b : list F), in_turn a s b = [] -> a = [] \/ (a <> [] /\ b <> [])) by (intros [|? ?] s [|? ?]; cbn; auto; intros; right; split; discriminate).
  (* sizes *)
  assert (SZ : forall r, (r < length al)%nat -> nth r k1 [] = [] /\ nth r k2 [] = [] \/
     klen (eff_kernel (nth r kers [])) <= nth (nth r al 0%nat) (shp x) 0).
  { intros r Hr. destruct (H r Hr) as [E1 [_ E2]]. destruct (nth r kers []) as [|c k] eqn:E.
    - left. pose proof (EL r Hr) as G. rewrite E in G. symmetry in E1. destruct (nth r k1 []) as [|a q1] eqn:Ea.
      + cbn [in_turn] in E1. auto.
      + exfalso. destruct (nth r k2 []) as [|b q2] eqn:Eb; [discriminate|]. cbn [in_turn] in E1.
        assert (J : klen (spread_conv (a :: q1) (nth r s1 1) (b :: q2)) = 0) by (rewrite E1; reflexivity).
        rewrite klen_spread in J; try (apply klen_cons_pos; discriminate); [|apply P1; auto; rewrite Ea; discriminate].
        assert (1 <= klen (a :: q1)) by (apply klen_cons_pos; discriminate). assert (1 <= klen (b :: q2)) by (apply klen_cons_pos; discriminate).
        assert (1 <= nth r s1 1) by (apply P1; auto; rewrite Ea; discriminate). nia.
    - right. exact E2. }
  destruct (pool_valid2 fuel1 junk1 m1 x ax al k1 s1 OA B1) as [y [Y1 [Y2 [Y3 [Y4 Y5]]]]].
  { intros r Hr. destruct (SZ r Hr) as [[-> _]|G]; [destruct (H r Hr) as [_ [_ G]]; pose proof (klen_nonneg (nth r kers [])); change (klen (@nil F)) with 0; lia|].
    rewrite EL in G by auto. pose proof (Z0 (nth r k1 [])). pose proof (Q1 r Hr). pose proof (eff_pos (nth r k2 [])). nia. }
  assert (OY : on_axes y ax al) by (destruct OA; split; rewrite ?Y2; auto).
  assert (LY : forall r, (r < length al)%nat -> klen (nth r k2 []) <= nth (nth r al 0%nat) (shp y) 0 ).
  { intros r Hr. rewrite Y3 by auto. unfold pool_length. destruct (SZ r Hr) as [[E1 E2]|G].
    - rewrite E1, E2. destruct (H r Hr) as [_ [_ G]]. pose proof (klen_nonneg (nth r kers [])). cbn [eff_kernel eff_stride].
      change (klen [@f1 F]) with 1. change (klen (@nil F)) with 0. rewrite Z.div_1_r. lia.
    - rewrite EL in G by auto. pose proof (Z0 (nth r k2 [])). pose proof (Q1 r Hr) as Qr.
      assert (klen (eff_kernel (nth r k2 [])) - 1 <= (nth (nth r al 0%nat) (shp x) 0 - klen (eff_kernel (nth r k1 []))) / eff_stride (nth r k1 []) (nth r s1 1)) by (apply Z.div_le_lower_bound; lia).
      lia. }
  destruct (pool_valid2 fuel2 junk2 m2 y ax al k2 s2 OY B2 LY) as [z [V1 [V2 [V3 [V4 V5]]]]].
  destruct (pool_valid2 fuel junk m x ax al kers sts OA B) as [w [W1 [W2 [W3 [W4 W5]]]]].
  { intros r Hr. apply H, Hr. }
  exists y, z, w. split; auto. split; auto. split; auto.
  pose proof OA as [O1 O2 O3].
  assert (SH : shp z = shp w).
  { apply list_ext with (d := 0); [unfold ndim in *; lia|]. intros d _. destruct (in_dec Nat.eq_dec d al) as [Hi|Hi].
    - destruct (In_pos d al 0%nat Hi) as [r [Hr <-]]. rewrite V3, W3, Y3 by auto. unfold pool_length. rewrite ES, EL by auto. f_equal.
      pose proof (Q1 r Hr) as G1. pose proof (Q2 r Hr) as G2.
      set (n := nth (nth r al 0%nat) (shp x) 0) in *. set (a := klen (eff_kernel (nth r k1 []))) in *. set (b := klen (eff_kernel (nth r k2 []))) in *.
      set (s := eff_stride (nth r k1 []) (nth r s1 1)) in *. set (t := eff_stride (nth r k2 []) (nth r s2 1)) in *.
      rewrite <- Z.div_div by lia. f_equal. replace (n - (a + s * (b - 1))) with (n - a + (1 - b) * s) by ring. rewrite Z.div_add by lia. lia.
    - now rewrite V4, W4, Y4 by auto. }
  split; auto. intros j Vj. rewrite V5, W5 by (rewrite ?SH in *; auto). unfold correlation.
  assert (LE1 : length (map eff_kernel k1) = length al) by (now rewrite map_length).
  assert (LE2 : length (map eff_kernel k2) = length al) by (now rewrite map_length).
  assert (LT1 : length (map2 eff_stride k1 s1) = length al) by (rewrite map2_length; lia).
  assert (LT2 : length (map2 eff_stride k2 s2) = length al) by (rewrite map2_length; lia).
  assert (GK : map eff_kernel kers = spreads (map eff_kernel k1) (map2 eff_stride k1 s1) (map eff_kernel k2)).
  { apply list_ext with (d := []); [rewrite spreads_length, !map_length by lia; lia|]. rewrite map_length. intros r Hr.
    rewrite spreads_nth by lia. rewrite !eff_nth2 by lia. rewrite nth_map2 with (da := []) (db := 1) by lia. apply EK. lia. }
  assert (GS : map2 eff_stride kers sts = map2 Z.mul (map2 eff_stride k1 s1) (map2 eff_stride k2 s2)).
  { apply list_ext with (d := 1); [rewrite !map2_length; lia|]. rewrite map2_length. intros r Hr.
    rewrite nth_map2 with (da := []) (db := 1) by lia. rewrite nth_map2 with (da := 1) (db := 1) by lia.
    rewrite !nth_map2 with (da := []) (db := 1) by lia. apply ES. lia. }
  rewrite GK, GS. rewrite bsum_chain; try lia.
  - apply bsum_ext. intros o2 Vo2. f_equal. rewrite Y5.
    + unfold correlation. apply bsum_ext. intros o1 Vo1. f_equal. f_equal.
      pose proof (valid_length _ _ Vo1) as X1. pose proof (valid_length _ _ Vo2) as X2. rewrite !map_length in X1, X2.
      apply place_twice; auto; try lia. intros a Ha. rewrite (valid_length _ _ Vj). unfold ndim in *. rewrite V2, Y2. auto.
    + assert (Lj := valid_length _ _ Vj). unfold ndim in *. pose proof (valid_length _ _ Vo2) as Lo. rewrite !map_length in Lo.
      apply valid_iff. rewrite place_length. split; [lia|]. intros d Hd. destruct (in_dec Nat.eq_dec d al) as [Hi|Hi].
      * destruct (In_pos d al 0%nat Hi) as [r [Hr <-]]. rewrite place_nth; auto; try lia; [|intros; rewrite Lj, V2, Y2; auto].
        assert (N1 := valid_nth _ _ (nth r al 0%nat) Vj). assert (N2 := valid_nth _ _ r Vo2). rewrite V3 in N1 by auto.
        assert (R : (r < length (map klen (map eff_kernel k2)))%nat) by (rewrite !map_length; lia).
        specialize (N2 R). rewrite (nth_indep _ 0 (klen (@nil F)) R) in N2. rewrite map_nth, eff_nth2 in N2 by lia.
        rewrite (nth_map2 eff_stride k2 s2 r [] 1 1) by lia. unfold pool_length in N1.
        assert (B0 : (nth r al 0 < length (shp z))%nat) by (unfold ndim in *; rewrite V2, Y2; apply O2; auto). specialize (N1 B0).
        pose proof (Q2 r Hr). set (t := eff_stride (nth r k2 []) (nth r s2 1)) in *. set (n := nth (nth r al 0%nat) (shp y) 0) in *.
        set (b := klen (eff_kernel (nth r k2 []))) in *. pose proof (Z.mul_div_le (n - b) t). nia.
      * rewrite place_notin by auto. assert (N1 := valid_nth _ _ d Vj). rewrite V4 in N1 by auto. apply N1. lia.
  - intros k Hk. apply in_map_iff in Hk. destruct Hk as [q [<- _]]. apply eff_pos.
  - intros k Hk. apply in_map_iff in Hk. destruct Hk as [q [<- _]]. apply eff_pos.
  - intros s Hs. apply In_nth with (d := 1) in Hs. destruct Hs as [r [Hr <-]]. rewrite nth_map2 with (da := []) (db := 1) by lia. apply Q1. lia.
Qed.
End Twice.
