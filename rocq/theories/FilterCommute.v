(** Filters commute: without padding, and with circular padding. *)
From Verif Require Export FilterCopy AvgTwice.
Open Scope Z_scope.

Section FCm.
Variable F : ofield.
Add Field Ffcm : (f_field F).
Notation T := (tensor F).

Lemma bsum_swap ns : forall ms (f : list Z -> list Z -> F), bsum ns (fun o => bsum ms (f o)) = bsum ms (fun p => bsum ns (fun o => f o p)).
Proof.
  induction ns as [|n ns IH]; intros ms f; cbn [bsum]; [reflexivity|].
  rewrite bsum_fsum. apply fsum_ext. intros k Hk. apply (IH ms (fun o => f (k :: o))).
Qed.
Lemma fsum_trim n m (f : Z -> F) : 0 <= n <= m -> (forall k, n <= k < m -> f k = f0) -> fsum m f = fsum n f.
Proof.
  intros H Z0. replace m with (n + (m - n)) by lia. rewrite fsum_app by lia. rewrite (fsum_zero F (m - n)); [ring|].
  intros k Hk. apply Z0. lia.
Qed.
Lemma conv_half (a b : list F) t : 0 <= t -> fsum (klen b) (fun j => fmul (entry b j) (entry a (t - 1 * j))) = fsum (t + 1) (fun j => fmul (entry b j) (entry a (t - j))).
Proof.
  intros Ht. pose proof (klen_nonneg F b) as Hb. rewrite <- (fsum_trim (klen b) (klen b + t + 1)).
  - rewrite <- (fsum_trim (t + 1) (klen b + t + 1)).
    + apply fsum_ext. intros j Hj. now rewrite Z.mul_1_l.
    + lia.
    + intros k Hk. rewrite (entry_out F a); [ring|lia].
  - lia.
  - intros k Hk. rewrite (entry_out F b); [ring|lia].
Qed.
Lemma conv_comm (a b : list F) : a <> [] -> b <> [] -> spread_conv a 1 b = spread_conv b 1 a.
Proof.
  intros Ha Hb. assert (Pa := klen_cons_pos F a Ha). assert (Pb := klen_cons_pos F b Hb).
  assert (L1 := klen_spread F a 1 b Pa Pb ltac:(lia)). assert (L2 := klen_spread F b 1 a Pb Pa ltac:(lia)).
  apply list_ext with (d := f0); [unfold klen in *; lia|]. intros i Hi. assert (Hi2 : 0 <= Z.of_nat i < klen a + klen b - 1) by (unfold klen in *; lia).
  rewrite <- (Nat2Z.id i). set (t := Z.of_nat i) in *. rewrite !entry_spread by lia. rewrite !conv_half by lia.
  rewrite (fsum_rev F) by lia. apply fsum_ext. intros j Hj. replace (t + 1 - 1 - j) with (t - j) by lia. replace (t - (t - j)) with j by lia. ring.
Qed.
Lemma in_turn_comm (a b : list F) : in_turn a 1 b = in_turn b 1 a.
Proof. destruct a as [|u a], b as [|v b]; cbn [in_turn]; auto. apply conv_comm; discriminate. Qed.
Lemma in_turn_one (a b : list F) : in_turn_stride a 1 b 1 = 1.
Proof. destruct a as [|u a], b as [|v b]; reflexivity. Qed.

Fixpoint in_turns (k1 k2 : list (list F)) : list (list F) :=
  match k1, k2 with a :: k1', b :: k2' => in_turn a 1 b :: in_turns k1' k2' | _, _ => [] end.
Lemma in_turns_length k1 : forall k2, length k2 = length k1 -> length (in_turns k1 k2) = length k1.
Proof. induction k1 as [|a k1 IH]; intros [|b k2] L; try discriminate; cbn; auto. Qed.
Lemma in_turns_nth k1 : forall k2 r, length k2 = length k1 -> (r < length k1)%nat -> nth r (in_turns k1 k2) [] = in_turn (nth r k1 []) 1 (nth r k2 []).
Proof.
  induction k1 as [|a k1 IH]; intros [|b k2] [|r] L Hr; try discriminate; cbn [in_turns nth length] in *; auto; try lia. apply IH; lia.
Qed.

(** Without padding. *)
Theorem valid_commute fuel1 junk1 fuel2 junk2 fuel3 junk3 fuel4 junk4 (m1 m2 : pool F) (x : T) ax al k1 k2 : on_axes x ax al ->
  built (length al) k1 (repeat 1 (length al)) None m1 -> built (length al) k2 (repeat 1 (length al)) None m2 ->
  (forall r, (r < length al)%nat -> klen (in_turn (nth r k1 []) 1 (nth r k2 [])) <= nth (nth r al 0%nat) (shp x) 0) ->
  exists y z y' z', snd (sep_forward fuel1 junk1 m1 x ax) = Ok y /\ snd (sep_forward fuel2 junk2 m2 y ax) = Ok z /\
    snd (sep_forward fuel3 junk3 m2 x ax) = Ok y' /\ snd (sep_forward fuel4 junk4 m1 y' ax) = Ok z' /\ teq z z'.
Proof.
  intros OA B1 B2 H. destruct (built_strides F _ _ _ _ _ B1) as [K1 _]. destruct (built_strides F _ _ _ _ _ B2) as [K2 _].
  set (kers := in_turns k1 k2). assert (Lk : length kers = length al) by (unfold kers; rewrite in_turns_length; lia).
  destruct (sep_init_ok F (length al) (NList kers) (NList (repeat (Some 1) (length al))) None kers (repeat (Some 1) (length al))) as [m [M _]].
  - cbn. now rewrite Lk, Nat.eqb_refl.
  - cbn. now rewrite repeat_length, Nat.eqb_refl.
  - intros s Hs. apply repeat_spec in Hs. injection Hs as ->. lia.
  - discriminate.
  - assert (B : built (length al) kers (map2 real_stride kers (repeat (Some 1) (length al))) None m).
    { apply (built_init (length al) kers (NList kers) (NList (repeat (Some 1) (length al)))); auto.
      - cbn. now rewrite Lk, Nat.eqb_refl.
      - cbn. now rewrite repeat_length, Nat.eqb_refl. }
    assert (S1 : forall r, (r < length al)%nat -> nth r (map2 real_stride kers (repeat (Some 1) (length al))) 1 = 1).
    { intros r Hr. rewrite nth_map2 with (da := []) (db := Some 1) by (rewrite ?repeat_length; lia). now rewrite nth_repeat. }
    destruct (pool_twice F 0%nat (fun _ => f0) fuel1 junk1 fuel2 junk2 m m1 m2 x ax al k1 _ k2 _ kers _ OA B1 B2 B) as [y [z [w [Y1 [Y2 [Y3 Y4]]]]]].
    { intros r Hr. rewrite S1, !nth_repeat, in_turn_one by auto. unfold kers. rewrite in_turns_nth by lia. auto. }
    destruct (pool_twice F 0%nat (fun _ => f0) fuel3 junk3 fuel4 junk4 m m2 m1 x ax al k2 _ k1 _ kers _ OA B2 B1 B) as [y' [z' [w' [Y1' [Y2' [Y3' Y4']]]]]].
    { intros r Hr. rewrite S1, !nth_repeat, in_turn_one by auto. unfold kers. rewrite in_turns_nth by lia. split; [apply in_turn_comm|auto]. }
    rewrite Y3 in Y3'. injection Y3' as <-. exists y, z, y', z'. do 4 (split; auto). destruct Y4 as [E1 E2], Y4' as [E1' E2']. split; [congruence|].
    intros j Vj. rewrite E2, E2' by congruence. reflexivity.
Qed.

(** With circular padding. *)
Lemma look_circular al (n : nat) ks1 ks2 sh j o1 o2 : NoDup al -> n = length al -> (forall a, In a al -> (a < length j)%nat) ->
  (forall a, In a al -> 1 <= nth a sh 0) ->
  length ks1 = length al -> length ks2 = length al -> length o1 = length al -> length o2 = length al ->
  look al (repeat (@MCircular F) n) ks1 sh (look al (repeat (@MCircular F) n) ks2 sh j o2) o1 =
  look al (repeat (@MCircular F) n) ks2 sh (look al (repeat (@MCircular F) n) ks1 sh j o1) o2.
Proof.
  intros N -> B P L1 L2 L3 L4. apply list_ext with (d := 0); [now rewrite !look_length|]. intros d _.
  destruct (in_dec Nat.eq_dec d al) as [Hi|Hi]; [|now rewrite !look_notin by auto].
  destruct (In_pos d al 0%nat Hi) as [r [Hr <-]]. rewrite !look_nth; rewrite ?look_length, ?repeat_length; auto.
  rewrite !(nth_indep _ (@MUnknown F) (@MCircular F)) by (rewrite repeat_length; auto). rewrite !nth_repeat. cbn [spot].
  set (q := nth (nth r al 0%nat) sh 0). assert (q <> 0) by (specialize (P (nth r al 0%nat) Hi); unfold q; lia).
  rewrite <- !Z.add_sub_assoc. rewrite !Zplus_mod_idemp_l. f_equal. lia.
Qed.
Theorem circular_commute fuel1 junk1 junk1' fuel2 junk2 junk2' (m1 m2 : pool F) (x : T) ax al k1 k2 p1 p2 :
  built (length al) k1 (repeat 1 (length al)) (Some p1) m1 -> built (length al) k2 (repeat 1 (length al)) (Some p2) m2 ->
  same_call F fuel1 p1 x ax al (repeat MCircular (length al)) k1 (repeat 1 (length al)) ->
  same_call F fuel2 p2 x ax al (repeat MCircular (length al)) k2 (repeat 1 (length al)) ->
  exists y z y' z', snd (sep_forward fuel1 junk1 m1 x ax) = Ok y /\ snd (sep_forward fuel2 junk2 m2 y ax) = Ok z /\
    snd (sep_forward fuel2 junk2' m2 x ax) = Ok y' /\ snd (sep_forward fuel1 junk1' m1 y' ax) = Ok z' /\ teq z z' /\ shp z = shp x.
Proof.
  intros B1 B2 C1 C2. assert (Cm : forall m : mode F, In m (repeat MCircular (length al)) -> copying m) by (intros m H; apply repeat_spec in H; subst; unfold copying; tauto).
  destruct (built_strides F _ _ _ _ _ B1) as [K1 _]. destruct (built_strides F _ _ _ _ _ B2) as [K2 _].
  destruct (filter_copying F fuel1 junk1 m1 x ax al k1 p1 _ B1 C1 Cm) as [y [Y1 [Y2 Y3]]].
  destruct (filter_copying F fuel2 junk2' m2 x ax al k2 p2 _ B2 C2 Cm) as [y' [Y1' [Y2' Y3']]].
  destruct (filter_copying F fuel2 junk2 m2 y ax al k2 p2 _ B2 (same_call_shape F _ _ _ _ _ _ _ _ _ Y2 C2) Cm) as [z [Z1 [Z2 Z3]]].
  destruct (filter_copying F fuel1 junk1' m1 y' ax al k1 p1 _ B1 (same_call_shape F _ _ _ _ _ _ _ _ _ Y2' C1) Cm) as [z' [Z1' [Z2' Z3']]].
  exists y, z, y', z'. do 4 (split; auto). split; [|congruence]. split; [congruence|]. intros j Vj.
  assert (Vx : valid (shp x) j) by (rewrite <- Y2, <- Z2; exact Vj). pose proof C1 as [[O1 O2 O3] N0 P0 P1 _ _ _ _]. unfold ndim in *.
  rewrite Z3 by (rewrite Y2; auto). rewrite Z3' by (rewrite Y2'; auto). rewrite Y2, Y2'.
  assert (G : forall ks o, length ks = length al -> length o = length al -> valid (shp x) (look al (repeat (@MCircular F) (length al)) ks (shp x) j o)).
  { intros ks o L1 L2. apply spot_valid; auto. now rewrite repeat_length. }
  rewrite (bsum_ext F (map klen (map eff_kernel k2)) _ (fun o2 => bsum (map klen (map eff_kernel k1)) (fun o1 => fmul (fmul (weight (map eff_kernel k2) o2) (weight (map eff_kernel k1) o1))
     (at_ x (look al (repeat (@MCircular F) (length al)) (map klen (map eff_kernel k1)) (shp x) (look al (repeat (@MCircular F) (length al)) (map klen (map eff_kernel k2)) (shp x) j o2) o1))))).
  2:{ intros o2 V2. pose proof (valid_length _ _ V2) as L2. rewrite !map_length in L2. rewrite Y3 by (apply G; rewrite ?map_length; lia).
      rewrite <- bsum_mul. apply bsum_ext. intros o1 V1. ring. }
  rewrite bsum_swap. apply bsum_ext. intros o1 V1. pose proof (valid_length _ _ V1) as L1. rewrite !map_length in L1.
  rewrite Y3' by (apply G; rewrite ?map_length; lia). rewrite <- bsum_mul. apply bsum_ext. intros o2 V2.
  pose proof (valid_length _ _ V2) as L2. rewrite !map_length in L2. rewrite look_circular; rewrite ?map_length; auto; try lia; try ring.
  intros a Ha. rewrite (valid_length _ _ Vx). auto.
Qed.
End FCm.
