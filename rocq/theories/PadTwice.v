(** Padding in two steps: when padding a padded axis again by the same mode gives what one
    call with the summed widths gives.  Used by PropsTwice.v. *)
From Coq Require Import Permutation Sorted.
From Verif Require Import StatsProofs.
From Verif Require Export PadFlip PadSeq.

(** The two parameter sets differ in their widths only. *)
Definition same_kind {F : ofield} (q q' : axis_params F) : Prop :=
  ap_mode q' = ap_mode q /\ ap_const q' = ap_const q /\ ap_stat q' = ap_stat q.
(** The first step: widths b and a on an axis of length n, after which the padding can be resumed. *)
Definition resumable {F : ofield} (q : axis_params F) (n b a : Z) : Prop :=
  match ap_mode q with
  | MReplicate | MConstant | MSmooth | MStat SMax | MStat SMin => True
  | MStat SMean | MStat SMedian => ap_stat q = (None, None)
  | MCircular => exists k, b + a = k * n
  | MSymmetric | MAntisymmetric | MOddSymmetric => exists k l, b = k * n /\ a = l * n
  | MReflect | MOddReflect => exists k l, b = k * (n - 1) /\ a = l * (n - 1)
  | _ => False
  end.
(** p1 followed by p2 has, on each of the axes al, the widths of p. *)
Definition adds {F : ofield} (p1 p2 p : padder F) (al : list nat) : Prop :=
  last_axes p1 al = last_axes p al /\ last_axes p2 al = last_axes p al /\
  forall d q, axis_par p (last_axes p al) d = Some q -> exists q1 q2,
    axis_par p1 (last_axes p al) d = Some q1 /\ axis_par p2 (last_axes p al) d = Some q2 /\ same_kind q q1 /\ same_kind q q2 /\
    0 <= ap_before q1 /\ 0 <= ap_after q1 /\ 0 <= ap_before q2 /\ 0 <= ap_after q2 /\
    ap_before q = ap_before q1 + ap_before q2 /\ ap_after q = ap_after q1 + ap_after q2.

Section T.
Variable F : ofield.
Add Field Ftw : (f_field F).
Notation T := (tensor F).
Open Scope F_scope.

Lemma shift_many (g : Z -> F) P c : (forall t, g (t + P)%Z = g t + c) -> forall k t, g (t + k * P)%Z = g t + fofZ k * c.
Proof.
  intros H. assert (N : forall (k : nat) t, g (t + Z.of_nat k * P)%Z = g t + fofZ (Z.of_nat k) * c).
  { induction k as [|k IH]; intros t.
    - cbn [Z.of_nat]. rewrite fofZ_0. replace (t + 0 * P)%Z with t by lia. ring.
    - rewrite Nat2Z.inj_succ. unfold Z.succ. rewrite fofZ_succ. replace (t + (Z.of_nat k + 1) * P)%Z with (t + Z.of_nat k * P + P)%Z by lia.
      rewrite H, IH. ring. }
  intros k t. destruct (Z.le_gt_cases 0 k) as [Hk|Hk].
  - specialize (N (Z.to_nat k) t). now rewrite Z2Nat.id in N by lia.
  - specialize (N (Z.to_nat (- k)) (t + k * P)%Z). rewrite Z2Nat.id in N by lia.
    replace (t + k * P + - k * P)%Z with t in N by lia. rewrite N, fofZ_opp. ring.
Qed.
Lemma shift_unique (g h : Z -> F) P c : (0 < P)%Z -> (forall t, g (t + P)%Z = g t + c) -> (forall t, h (t + P)%Z = h t + c) ->
  (forall t, (0 <= t < P)%Z -> g t = h t) -> forall t, g t = h t.
Proof.
  intros HP Hg Hh H t. pose proof (shift_many g P c Hg (t / P) (t mod P)) as G. pose proof (shift_many h P c Hh (t / P) (t mod P)) as K.
  assert (E : (t mod P + t / P * P)%Z = t) by (pose proof (Z.div_mod t P); lia). rewrite E in G, K. rewrite G, K, H; auto.
  apply Z.mod_pos_bound. lia.
Qed.
Lemma even_odd k : exists i, k = (2 * i)%Z \/ k = (2 * i + 1)%Z.
Proof. exists (k / 2)%Z. pose proof (Z.div_mod k 2 ltac:(lia)). pose proof (Z.mod_pos_bound k 2 ltac:(lia)). lia. Qed.

(** ** The extensions, one by one *)
Definition resumes (e : Z -> (Z -> F) -> Z -> F) (n b a : Z) : Prop :=
  forall f t, e (b + n + a)%Z (fun u => e n f (u - b)%Z) t = e n f (t - b)%Z.
Lemma replicate_resumes n b a : (1 <= n -> 0 <= b -> 0 <= a -> resumes ext_replicate n b a)%Z.
Proof. intros Hn Hb Ha f t. unfold ext_replicate. f_equal. lia. Qed.
Lemma constant_resumes u v n b a : (0 <= n -> 0 <= b -> 0 <= a -> resumes (ext_constant u v) n b a)%Z.
Proof.
  intros Hn Hb Ha f t. unfold ext_constant. destruct (Z.ltb_spec t 0); destruct (Z.ltb_spec (t - b) 0); try lia; auto.
  - destruct (Z.ltb_spec t (b + n + a)); [auto|lia].
  - destruct (Z.ltb_spec t (b + n + a)), (Z.ltb_spec (t - b) n); auto; lia.
Qed.
Lemma circular_resumes n b a k : (1 <= n -> 0 <= b -> 0 <= a -> b + a = k * n -> resumes ext_circular n b a)%Z.
Proof.
  intros Hn Hb Ha E f t. unfold ext_circular. f_equal.
  replace (b + n + a)%Z with ((k + 1) * n)%Z by lia. assert (Hk : (0 <= k)%Z) by nia.
  pose proof (Z.div_mod t ((k + 1) * n) ltac:(nia)) as D. set (m := (t mod ((k + 1) * n))%Z) in *.
  rewrite D. replace ((k + 1) * n * (t / ((k + 1) * n)) + m - b)%Z with (m - b + (k + 1) * (t / ((k + 1) * n)) * n)%Z by ring.
  now rewrite Z.mod_add by lia.
Qed.
Lemma smooth_resumes n b a : (1 <= n -> 0 <= b -> 0 <= a -> resumes ext_smooth n b a)%Z.
Proof.
  intros Hn Hb Ha f t. unfold ext_smooth.
  destruct (Z.eqb_spec n 1) as [->|N1].
  { destruct (Z.eqb_spec (b + 1 + a) 1); auto. destruct (t <? 0)%Z; [ring|]. destruct (t <? b + 1 + a)%Z; ring. }
  destruct (Z.eqb_spec (b + n + a) 1); [lia|].
  destruct (Z.ltb_spec t 0).
  { destruct (Z.ltb_spec (0 - b) 0), (Z.ltb_spec (1 - b) 0), (Z.ltb_spec (t - b) 0), (Z.ltb_spec (0 - b) n), (Z.ltb_spec (1 - b) n); try lia;
      rewrite ?fofZ_sub, ?fofZ_0, ?fofZ_1; try ring.
    - assert (b = 1)%Z as -> by lia. replace (1 - 1)%Z with 0%Z by lia. rewrite fofZ_1. ring.
    - assert (b = 0)%Z as -> by lia. replace (0 - 0)%Z with 0%Z by lia. replace (1 - 0)%Z with 1%Z by lia. rewrite fofZ_0. ring. }
  destruct (Z.ltb_spec t (b + n + a)); [auto|].
  destruct (Z.ltb_spec (t - b) 0); [lia|]. destruct (Z.ltb_spec (t - b) n); [lia|].
  destruct (Z.ltb_spec (b + n + a - 1 - b) 0); [lia|]. destruct (Z.ltb_spec (b + n + a - 2 - b) 0); [lia|].
  destruct (Z.ltb_spec (b + n + a - 1 - b) n), (Z.ltb_spec (b + n + a - 2 - b) n); try lia.
  - assert (a = 0)%Z as -> by lia. replace (b + n + 0 - 1 - b)%Z with (n - 1)%Z by lia. replace (b + n + 0 - 2 - b)%Z with (n - 2)%Z by lia.
    replace (t - (b + n + 0 - 1))%Z with (t - b - (n - 1))%Z by lia. ring.
  - assert (a = 1)%Z as -> by lia. replace (b + n + 1 - 2 - b)%Z with (n - 1)%Z by lia. replace (b + n + 1 - 1 - b)%Z with n by lia.
    replace (t - (b + n + 1 - 1))%Z with (t - b - (n - 1) - 1)%Z by lia. replace (n - (n - 1))%Z with 1%Z by lia. rewrite (fofZ_sub F (t - b - (n - 1)) 1), fofZ_1. ring.
  - replace (b + n + a - 1 - b - (n - 1))%Z with a by lia. replace (b + n + a - 2 - b - (n - 1))%Z with (a - 1)%Z by lia.
    replace (t - (b + n + a - 1))%Z with (t - b - (n - 1) - a)%Z by lia. rewrite (fofZ_sub F (t - b - (n - 1)) a), (fofZ_sub F a 1), fofZ_1. ring.
Qed.

(** *** Reflections: the extension is the only one with its mirror and shift laws. *)
Lemma neg_mod P t : (0 < P -> (- 1 - t) mod P = P - 1 - t mod P)%Z.
Proof.
  intros HP. pose proof (Z.div_mod t P ltac:(lia)) as D. pose proof (Z.mod_pos_bound t P HP) as B.
  symmetry. apply Z.mod_unique with (- (t / P) - 1)%Z; lia.
Qed.
(** g is mirrored (up to the sign s) about -1/2 and has period 2n; likewise about 0 with period 2(n-1). *)
Lemma symmetric_mirror n (f : Z -> F) : (1 <= n)%Z -> forall t, ext_symmetric n f (- 1 - t) = ext_symmetric n f t.
Proof.
  intros Hn t; unfold ext_symmetric. rewrite neg_mod by lia. pose proof (Z.mod_pos_bound t (2 * n) ltac:(lia)).
  set (m := (t mod (2 * n))%Z) in *. cbv zeta. destruct (Z.ltb_spec m n), (Z.ltb_spec (2 * n - 1 - m) n); try lia; f_equal; lia.
Qed.
Lemma symmetric_shift n (f : Z -> F) : (1 <= n)%Z -> forall t, ext_symmetric n f (t + 2 * n) = ext_symmetric n f t + 0.
Proof.
  intros Hn t; unfold ext_symmetric. replace (t + 2 * n)%Z with (t + 1 * (2 * n))%Z by lia. rewrite Z.mod_add by lia. cbv zeta. destruct (_ <? _)%Z; ring.
Qed.
Lemma antisymmetric_mirror n (f : Z -> F) : (1 <= n)%Z -> forall t, ext_antisymmetric n f (- 1 - t) = - ext_antisymmetric n f t.
Proof.
  intros Hn t; unfold ext_antisymmetric. rewrite neg_mod by lia. pose proof (Z.mod_pos_bound t (2 * n) ltac:(lia)).
  set (m := (t mod (2 * n))%Z) in *. cbv zeta. destruct (Z.ltb_spec m n), (Z.ltb_spec (2 * n - 1 - m) n); try lia.
  - f_equal. f_equal. lia.
  - replace (2 * n - 1 - (2 * n - 1 - m))%Z with m by lia. ring_simplify. reflexivity.
Qed.
Lemma antisymmetric_shift n (f : Z -> F) : (1 <= n)%Z -> forall t, ext_antisymmetric n f (t + 2 * n) = ext_antisymmetric n f t + 0.
Proof.
  intros Hn t; unfold ext_antisymmetric. replace (t + 2 * n)%Z with (t + 1 * (2 * n))%Z by lia. rewrite Z.mod_add by lia. cbv zeta. destruct (_ <? _)%Z; ring.
Qed.
Lemma reflect_mirrored n (f : Z -> F) : (2 <= n)%Z -> forall t, ext_reflect n f (- t) = ext_reflect n f t.
Proof.
  intros Hn t; unfold ext_reflect. destruct (Z.eqb_spec n 1); [auto|]. pose proof (Z.mod_pos_bound t (2 * n - 2) ltac:(lia)).
  set (m := (t mod (2 * n - 2))%Z) in *. cbv zeta. destruct (Z.eq_dec m 0) as [E|E].
  - rewrite Z.mod_opp_l_z by (fold m; lia). rewrite E. reflexivity.
  - rewrite Z.mod_opp_l_nz by (fold m; lia). fold m. destruct (Z.ltb_spec m n), (Z.ltb_spec (2 * n - 2 - m) n); try lia; f_equal; lia.
Qed.
Lemma reflect_shift n (f : Z -> F) : (2 <= n)%Z -> forall t, ext_reflect n f (t + 2 * (n - 1)) = ext_reflect n f t + 0.
Proof.
  intros Hn t; unfold ext_reflect. destruct (Z.eqb_spec n 1); [lia|].
  replace (t + 2 * (n - 1))%Z with (t + 1 * (2 * n - 2))%Z by lia. rewrite Z.mod_add by lia. cbv zeta. destruct (_ <? _)%Z; ring.
Qed.
(** Uniqueness *)
Lemma symmetric_unique n (g : Z -> F) : (1 <= n)%Z -> (forall t, g (- 1 - t)%Z = g t) -> (forall t, g (t + 2 * n)%Z = g t) ->
  forall t, ext_symmetric n g t = g t.
Proof.
  intros Hn M P. apply (shift_unique _ _ (2 * n) 0); [lia|now apply symmetric_shift|intros t; rewrite P; ring|].
  intros t Ht. unfold ext_symmetric. rewrite Z.mod_small by lia. cbv zeta. destruct (Z.ltb_spec t n); auto.
  replace (2 * n - 1 - t)%Z with (- 1 - t + 2 * n)%Z by lia. now rewrite P, M.
Qed.
Lemma antisymmetric_unique n (g : Z -> F) : (1 <= n)%Z -> (forall t, g (- 1 - t)%Z = - g t) -> (forall t, g (t + 2 * n)%Z = g t) ->
  forall t, ext_antisymmetric n g t = g t.
Proof.
  intros Hn M P. apply (shift_unique _ _ (2 * n) 0); [lia|now apply antisymmetric_shift|intros t; rewrite P; ring|].
  intros t Ht. unfold ext_antisymmetric. rewrite Z.mod_small by lia. cbv zeta. destruct (Z.ltb_spec t n); auto.
  replace (2 * n - 1 - t)%Z with (- 1 - t + 2 * n)%Z by lia. rewrite P, M. ring.
Qed.
Lemma reflect_unique n (g : Z -> F) : (2 <= n)%Z -> (forall t, g (- t)%Z = g t) -> (forall t, g (t + 2 * (n - 1))%Z = g t) ->
  forall t, ext_reflect n g t = g t.
Proof.
  intros Hn M P. apply (shift_unique _ _ (2 * (n - 1)) 0); [lia|now apply reflect_shift|intros t; rewrite P; ring|].
  intros t Ht. unfold ext_reflect. destruct (Z.eqb_spec n 1); [lia|]. rewrite Z.mod_small by lia. cbv zeta. destruct (Z.ltb_spec t n); auto.
  replace (2 * n - 2 - t)%Z with (- t + 2 * (n - 1))%Z by lia. now rewrite P, M.
Qed.
Lemma odd_symmetric_unique n (g : Z -> F) : (1 <= n)%Z -> (forall t, g (- 1 - t)%Z = fofZ 2 * g 0%Z - g t) ->
  (forall t, g (t + 2 * n)%Z = g t + fofZ 2 * (g (n - 1)%Z - g 0%Z)) -> forall t, ext_odd_symmetric n g t = g t.
Proof.
  intros Hn M P. apply (shift_unique _ _ (2 * n) (fofZ 2 * (g (n - 1)%Z - g 0%Z))); [lia|intros; now apply ext_odd_symmetric_shift|exact P|].
  intros t Ht. unfold ext_odd_symmetric. rewrite Z.mod_small, Z.div_small by lia. cbv zeta. rewrite fofZ_0. destruct (Z.ltb_spec t n); [ring|].
  replace (2 * n - 1 - t)%Z with (- 1 - t + 2 * n)%Z by lia. rewrite P, M. ring.
Qed.
Lemma odd_reflect_unique n (g : Z -> F) : (2 <= n)%Z -> (forall t, g (- t)%Z = fofZ 2 * g 0%Z - g t) ->
  (forall t, g (t + 2 * (n - 1))%Z = g t + fofZ 2 * (g (n - 1)%Z - g 0%Z)) -> forall t, ext_odd_reflect n g t = g t.
Proof.
  intros Hn M P. apply (shift_unique _ _ (2 * (n - 1)) (fofZ 2 * (g (n - 1)%Z - g 0%Z))); [lia|intros; apply ext_odd_reflect_shift; lia|exact P|].
  intros t Ht. unfold ext_odd_reflect. destruct (Z.eqb_spec n 1); [lia|]. rewrite Z.mod_small, Z.div_small by lia. cbv zeta. rewrite fofZ_0. destruct (Z.ltb_spec t n); [ring|].
  replace (2 * n - 2 - t)%Z with (- t + 2 * (n - 1))%Z by lia. rewrite P, M. ring.
Qed.

Lemma symmetric_resumes n k l : (1 <= n -> 0 <= k * n -> 0 <= l * n -> resumes ext_symmetric n (k * n) (l * n))%Z.
Proof.
  intros Hn Hk Hl f. set (G := ext_symmetric n f).
  pose proof (shift_many G _ _ (symmetric_shift n f Hn)) as S. pose proof (symmetric_mirror n f Hn) as M. fold G in M.
  apply (symmetric_unique (k * n + n + l * n) (fun u => G (u - k * n)%Z)); [lia|intros t..].
  - rewrite <- M. replace (- 1 - (- 1 - t - k * n))%Z with (t - k * n + k * (2 * n))%Z by lia. rewrite S. ring.
  - replace (t + 2 * (k * n + n + l * n) - k * n)%Z with (t - k * n + (k + 1 + l) * (2 * n))%Z by lia. rewrite S. ring.
Qed.
Lemma antisymmetric_resumes n k l : (1 <= n -> 0 <= k * n -> 0 <= l * n -> resumes ext_antisymmetric n (k * n) (l * n))%Z.
Proof.
  intros Hn Hk Hl f. set (G := ext_antisymmetric n f).
  pose proof (shift_many G _ _ (antisymmetric_shift n f Hn)) as S. pose proof (antisymmetric_mirror n f Hn) as M. fold G in M.
  apply (antisymmetric_unique (k * n + n + l * n) (fun u => G (u - k * n)%Z)); [lia|intros t..].
  - rewrite <- M. replace (- 1 - t - k * n)%Z with (- 1 - (t - k * n) + (- k) * (2 * n))%Z by lia. rewrite S. ring.
  - replace (t + 2 * (k * n + n + l * n) - k * n)%Z with (t - k * n + (k + 1 + l) * (2 * n))%Z by lia. rewrite S. ring.
Qed.
Lemma reflect_resumes n k l : (1 <= n -> 0 <= k * (n - 1) -> 0 <= l * (n - 1) -> resumes ext_reflect n (k * (n - 1)) (l * (n - 1)))%Z.
Proof.
  intros Hn Hk Hl f. destruct (Z.eq_dec n 1) as [->|N1].
  { intros t. replace (k * (1 - 1))%Z with 0%Z by lia. replace (l * (1 - 1))%Z with 0%Z by lia. reflexivity. }
  assert (H2 : (2 <= n)%Z) by lia. set (G := ext_reflect n f).
  pose proof (shift_many G _ _ (reflect_shift n f H2)) as S. pose proof (reflect_mirrored n f H2) as M. fold G in M.
  apply (reflect_unique (k * (n - 1) + n + l * (n - 1)) (fun u => G (u - k * (n - 1))%Z)); [lia|intros t..].
  - rewrite <- M. replace (- (- t - k * (n - 1)))%Z with (t - k * (n - 1) + k * (2 * (n - 1)))%Z by lia. rewrite S. ring.
  - replace (t + 2 * (k * (n - 1) + n + l * (n - 1) - 1) - k * (n - 1))%Z with (t - k * (n - 1) + (k + 1 + l) * (2 * (n - 1)))%Z by lia. rewrite S. ring.
Qed.
Lemma odd_symmetric_resumes n k l : (1 <= n -> 0 <= k * n -> 0 <= l * n -> resumes ext_odd_symmetric n (k * n) (l * n))%Z.
Proof.
  intros Hn Hk Hl f. set (G := ext_odd_symmetric n f). set (D := f (n - 1)%Z - f 0%Z).
  assert (Sh : forall t, G (t + 2 * n)%Z = G t + fofZ 2 * D) by (intros; now apply ext_odd_symmetric_shift).
  pose proof (shift_many G _ _ Sh) as S.
  assert (M : forall t, G (- 1 - t)%Z = fofZ 2 * f 0%Z - G t) by (intros; now apply ext_odd_symmetric_mirror).
  assert (E0 : G 0%Z = f 0%Z) by (apply ext_odd_symmetric_orig; lia). assert (E1 : G (n - 1)%Z = f (n - 1)%Z) by (apply ext_odd_symmetric_orig; lia).
  assert (V : forall j, G (j * n - 1)%Z = f 0%Z + fofZ j * D).
  { intros j. destruct (even_odd j) as [i [->| ->]].
    - replace (2 * i * n - 1)%Z with (- 1 - 0 + i * (2 * n))%Z by lia. rewrite S, M, E0, fofZ_mul. change (@fofZ F 2) with (f1 + f1 : F). ring.
    - replace ((2 * i + 1) * n - 1)%Z with (n - 1 + i * (2 * n))%Z by lia. rewrite S, E1, fofZ_add, fofZ_mul, fofZ_1. unfold D. ring. }
  assert (V0 : G (- (k * n))%Z = f 0%Z - fofZ k * D).
  { replace (- (k * n))%Z with (- 1 - (k * n - 1))%Z by lia. rewrite M, V. change (@fofZ F 2) with (f1 + f1 : F). ring. }
  assert (V1 : G (n + l * n - 1)%Z = f 0%Z + fofZ (l + 1) * D) by (rewrite <- V; f_equal; lia).
  apply (odd_symmetric_unique (k * n + n + l * n) (fun u => G (u - k * n)%Z)); [lia|intros t..].
  - replace (0 - k * n)%Z with (- (k * n))%Z by lia. rewrite V0. replace (- 1 - t - k * n)%Z with (- 1 - (t - k * n) + (- k) * (2 * n))%Z by lia.
    rewrite S, M, fofZ_opp. ring.
  - replace (t + 2 * (k * n + n + l * n) - k * n)%Z with (t - k * n + (k + (l + 1)) * (2 * n))%Z by lia. rewrite S.
    replace (k * n + n + l * n - 1 - k * n)%Z with (n + l * n - 1)%Z by lia. replace (0 - k * n)%Z with (- (k * n))%Z by lia.
    rewrite V0, V1, (fofZ_add F k). ring.
Qed.
Lemma odd_reflect_resumes n k l : (1 <= n -> 0 <= k * (n - 1) -> 0 <= l * (n - 1) -> resumes ext_odd_reflect n (k * (n - 1)) (l * (n - 1)))%Z.
Proof.
  intros Hn Hk Hl f. destruct (Z.eq_dec n 1) as [->|N1].
  { intros t. replace (k * (1 - 1))%Z with 0%Z by lia. replace (l * (1 - 1))%Z with 0%Z by lia. reflexivity. }
  assert (H2 : (2 <= n)%Z) by lia. set (G := ext_odd_reflect n f). set (D := f (n - 1)%Z - f 0%Z).
  assert (Sh : forall t, G (t + 2 * (n - 1))%Z = G t + fofZ 2 * D) by (intros; apply ext_odd_reflect_shift; lia).
  pose proof (shift_many G _ _ Sh) as S.
  assert (M : forall t, G (- t)%Z = fofZ 2 * f 0%Z - G t) by (intros; apply ext_odd_reflect_mirror; lia).
  assert (E0 : G 0%Z = f 0%Z) by (apply ext_odd_reflect_orig; lia). assert (E1 : G (n - 1)%Z = f (n - 1)%Z) by (apply ext_odd_reflect_orig; lia).
  assert (V : forall j, G (j * (n - 1))%Z = f 0%Z + fofZ j * D).
  { intros j. destruct (even_odd j) as [i [->| ->]].
    - replace (2 * i * (n - 1))%Z with (0 + i * (2 * (n - 1)))%Z by lia. rewrite S, E0, fofZ_mul. ring.
    - replace ((2 * i + 1) * (n - 1))%Z with (n - 1 + i * (2 * (n - 1)))%Z by lia. rewrite S, E1, fofZ_add, fofZ_mul, fofZ_1. unfold D. ring. }
  assert (V0 : G (- (k * (n - 1)))%Z = f 0%Z - fofZ k * D).
  { rewrite M, V. change (@fofZ F 2) with (f1 + f1 : F). ring. }
  assert (V1 : G ((l + 1) * (n - 1))%Z = f 0%Z + fofZ (l + 1) * D) by apply V.
  apply (odd_reflect_unique (k * (n - 1) + n + l * (n - 1)) (fun u => G (u - k * (n - 1))%Z)); [lia|intros t..].
  - replace (0 - k * (n - 1))%Z with (- (k * (n - 1)))%Z by lia. rewrite V0. replace (- t - k * (n - 1))%Z with (- (t - k * (n - 1)) + (- k) * (2 * (n - 1)))%Z by lia.
    rewrite S, M, fofZ_opp. ring.
  - replace (t + 2 * (k * (n - 1) + n + l * (n - 1) - 1) - k * (n - 1))%Z with (t - k * (n - 1) + (k + (l + 1)) * (2 * (n - 1)))%Z by lia. rewrite S.
    replace (k * (n - 1) + n + l * (n - 1) - 1 - k * (n - 1))%Z with ((l + 1) * (n - 1))%Z by lia. replace (0 - k * (n - 1))%Z with (- (k * (n - 1)))%Z by lia.
    rewrite V0, V1, (fofZ_add F k). ring.
Qed.

(** *** Statistics *)
Lemma clip_grow n m w : (1 <= n <= m -> clip_window n w <= clip_window m w)%Z.
Proof. intros. destruct w; cbn; lia. Qed.
Lemma clip_pos n w : (1 <= n -> 1 <= clip_window n w <= n)%Z.
Proof. intros. destruct w; cbn; lia. Qed.
Lemma in_map_zrange (g : Z -> F) w v : In v (map g (zrange w)) <-> exists k, (0 <= k < w)%Z /\ g k = v.
Proof.
  rewrite in_map_iff. split; intros [k [H1 H2]]; exists k; [split; auto; now apply In_zrange|split; auto; now apply In_zrange].
Qed.
Section Extreme.
Variable R : F -> F -> Prop.
Hypothesis R_anti : forall x y, R x y -> R y x -> x = y.
Hypothesis R_refl : forall x, R x x.
Variable st : list F -> F.
Hypothesis st_in : forall l, l <> [] -> In (st l) l.
Hypothesis st_ext : forall l e, l <> [] -> In e l -> R e (st l).
Lemma st_unique l v : In v l -> (forall e, In e l -> R e v) -> st l = v.
Proof.
  intros Hv H. assert (l <> []) by (intros ->; destruct Hv). apply R_anti; [now apply H, st_in|now apply st_ext].
Qed.
Lemma extreme_resumes wb wa n b a : (1 <= n -> 0 <= b -> 0 <= a -> resumes (ext_stat st wb wa) n b a)%Z.
Proof.
  intros Hn Hb Ha f t. set (N := (b + n + a)%Z). set (g := fun u => ext_stat st wb wa n f (u - b)%Z).
  set (L := st (map f (zrange (clip_window n wb)))). set (Rt := st (map (fun k => f (n - clip_window n wa + k)%Z) (zrange (clip_window n wa)))).
  pose proof (clip_pos n wb Hn) as CB. pose proof (clip_pos n wa Hn) as CA.
  pose proof (clip_pos N wb ltac:(lia)) as CB'. pose proof (clip_pos N wa ltac:(lia)) as CA'.
  assert (NeB : map f (zrange (clip_window n wb)) <> []) by (apply map_zrange_ne; lia).
  assert (NeA : map (fun k => f (n - clip_window n wa + k)%Z) (zrange (clip_window n wa)) <> []) by (apply map_zrange_ne; lia).
  assert (LI : exists k, (0 <= k < clip_window n wb)%Z /\ f k = L) by (apply in_map_zrange, st_in; auto).
  assert (RI : exists k, (0 <= k < clip_window n wa)%Z /\ f (n - clip_window n wa + k)%Z = Rt).
  { apply (in_map_zrange (fun k => f (n - clip_window n wa + k)%Z)), st_in; auto. }
  assert (LU : forall u, (0 <= u < clip_window n wb)%Z -> R (f u) L) by (intros u Hu; apply st_ext; auto; apply in_map_zrange; eauto).
  assert (RU : forall u, (n - clip_window n wa <= u < n)%Z -> R (f u) Rt).
  { intros u Hu. apply st_ext; auto. apply in_map_iff. exists (u - (n - clip_window n wa))%Z. split; [f_equal; lia|apply In_zrange; lia]. }
  assert (G0 : forall u, (u < b)%Z -> g u = L). { intros u Hu. unfold g, ext_stat. destruct (Z.ltb_spec (u - b) 0); [auto|lia]. }
  assert (G1 : forall u, (b <= u < b + n)%Z -> g u = f (u - b)%Z).
  { intros u Hu. unfold g, ext_stat. destruct (Z.ltb_spec (u - b) 0); [lia|]. destruct (Z.ltb_spec (u - b) n); [auto|lia]. }
  assert (G2 : forall u, (b + n <= u)%Z -> g u = Rt).
  { intros u Hu. unfold g, ext_stat. destruct (Z.ltb_spec (u - b) 0); [lia|]. destruct (Z.ltb_spec (u - b) n); [lia|auto]. }
  change (ext_stat st wb wa N g t = g t). unfold ext_stat. destruct (Z.ltb_spec t 0).
  - rewrite G0 by lia. apply st_unique.
    + apply in_map_zrange. destruct (Z.eq_dec b 0) as [E|E].
      * destruct LI as [k [Hk <-]]. exists k. pose proof (clip_grow n N wb ltac:(lia)). split; [lia|]. rewrite G1 by lia. f_equal. lia.
      * exists 0%Z. split; [lia|]. apply G0. lia.
    + intros e He. apply in_map_zrange in He as [u [Hu <-]].
      destruct (Z.lt_ge_cases u b); [rewrite G0 by lia; apply R_refl|].
      destruct (Z.lt_ge_cases u (b + n)).
      * rewrite G1 by lia. apply LU. destruct wb; cbn in *; lia.
      * rewrite G2 by lia. destruct RI as [k [Hk <-]]. apply LU. destruct wb; cbn in *; lia.
  - destruct (Z.ltb_spec t N); [auto|]. rewrite G2 by lia. cbv zeta. set (w := clip_window N wa) in *. apply st_unique.
    + apply (in_map_zrange (fun k => g (N - w + k)%Z)). destruct (Z.eq_dec a 0) as [E|E].
      * destruct RI as [k [Hk <-]]. pose proof (clip_grow n N wa ltac:(lia)) as CG. fold w in CG.
        exists (b + (n - clip_window n wa + k) - (N - w))%Z. split; [lia|]. rewrite G1 by lia. f_equal. lia.
      * exists (w - 1)%Z. split; [lia|]. apply G2. lia.
    + intros e He. apply (in_map_zrange (fun k => g (N - w + k)%Z)) in He as [k [Hk <-]]. set (u := (N - w + k)%Z).
      assert (Hu : (N - w <= u < N)%Z) by lia. clearbody u.
      destruct (Z.le_gt_cases (b + n) u); [rewrite G2 by lia; apply R_refl|].
      destruct (Z.le_gt_cases b u).
      * rewrite G1 by lia. apply RU. destruct wa; cbn in *; lia.
      * rewrite G0 by lia. destruct LI as [v [Hv <-]]. apply RU. destruct wa; cbn in *; lia.
Qed.
End Extreme.

Section Central.
Variable st : list F -> F.
Hypothesis st_perm : forall l l', l <> [] -> Permutation l l' -> st l = st l'.
Hypothesis st_more : forall l k, l <> [] -> st (repeat (st l) k ++ l) = st l.
Lemma map_zrange_split (g : Z -> F) b m : (0 <= b -> 0 <= m -> map g (zrange (b + m)) = map g (zrange b) ++ map (fun k => g (b + k)%Z) (zrange m))%Z.
Proof.
  intros Hb Hm. apply nth_ext with (d := g 0%Z) (d' := g 0%Z).
  - rewrite app_length, !map_length, !zrange_length. lia.
  - intros k Hk. rewrite map_length, zrange_length in Hk. rewrite map_nth, nth_zrange by lia.
    destruct (Nat.lt_ge_cases k (Z.to_nat b)).
    + rewrite app_nth1 by (now rewrite map_length, zrange_length). rewrite map_nth, nth_zrange by lia. auto.
    + rewrite app_nth2 by (now rewrite map_length, zrange_length). rewrite map_length, zrange_length.
      rewrite (nth_indep _ _ ((fun k => g (b + k)%Z) 0%Z)) by (rewrite map_length, zrange_length; lia).
      rewrite (map_nth (fun k => g (b + k)%Z)), nth_zrange by lia. f_equal. lia.
Qed.
Lemma map_zrange_const (g : Z -> F) v m : (forall k, (0 <= k < m)%Z -> g k = v) -> map g (zrange m) = repeat v (Z.to_nat m).
Proof.
  intros H. rewrite (map_ext_in g (fun _ => v)) by (intros k Hk; apply H; now apply In_zrange).
  rewrite <- (zrange_length m). generalize (zrange m). induction l; cbn; [auto|now f_equal].
Qed.
Lemma central_resumes n b a : (1 <= n -> 0 <= b -> 0 <= a -> resumes (ext_stat st None None) n b a)%Z.
Proof.
  intros Hn Hb Ha f t. set (N := (b + n + a)%Z). set (g := fun u => ext_stat st None None n f (u - b)%Z).
  set (L := map f (zrange n)). assert (NeL : L <> []) by (apply map_zrange_ne; lia).
  assert (EL : map (fun k => f (n - n + k)%Z) (zrange n) = L) by (apply map_ext; intros; f_equal; lia).
  assert (G0 : forall u, (u < b)%Z -> g u = st L). { intros u Hu. unfold g, ext_stat. destruct (Z.ltb_spec (u - b) 0); [auto|lia]. }
  assert (G1 : forall u, (b <= u < b + n)%Z -> g u = f (u - b)%Z).
  { intros u Hu. unfold g, ext_stat. destruct (Z.ltb_spec (u - b) 0); [lia|]. destruct (Z.ltb_spec (u - b) n); [auto|lia]. }
  assert (G2 : forall u, (b + n <= u)%Z -> g u = st L).
  { intros u Hu. unfold g, ext_stat. destruct (Z.ltb_spec (u - b) 0); [lia|]. destruct (Z.ltb_spec (u - b) n); [lia|]. cbn [clip_window]. now rewrite EL. }
  assert (E : st (map g (zrange N)) = st L).
  { transitivity (st (repeat (st L) (Z.to_nat a + Z.to_nat b) ++ L)); [|now apply st_more].
    apply st_perm; [apply map_zrange_ne; lia|]. unfold N. rewrite !map_zrange_split by lia.
    rewrite (map_zrange_const g (st L) b) by (intros; apply G0; lia).
    rewrite (map_zrange_const (fun k => g (b + n + k)%Z) (st L) a) by (intros; apply G2; lia).
    rewrite (map_ext_in (fun k => g (b + k)%Z) f) by (intros k Hk; apply In_zrange in Hk; rewrite G1 by lia; f_equal; lia).
    fold L. rewrite repeat_app, <- (app_assoc (repeat (st L) (Z.to_nat a))). apply Permutation_app_comm. }
  assert (E' : st (map (fun k => g (N - N + k)%Z) (zrange N)) = st L).
  { rewrite <- E. f_equal. apply map_ext. intros; f_equal; lia. }
  change (ext_stat st None None N g t = g t). unfold ext_stat. cbn [clip_window]. cbv zeta. rewrite E, E'.
  destruct (Z.ltb_spec t 0); [now rewrite G0 by lia|]. destruct (Z.ltb_spec t N); [auto|now rewrite G2 by lia].
Qed.
End Central.

Lemma skipn_cons (l : list F) : forall i, (i < length l)%nat -> skipn i l = nth i l f0 :: skipn (S i) l.
Proof. induction l as [|c l IH]; intros [|i] Hi; cbn in Hi; try lia; auto. apply IH. lia. Qed.
Lemma median_more (l : list F) k : l <> [] -> lmedian (repeat (lmedian l) k ++ l) = lmedian l.
Proof.
  intros Hl. assert (Ll : (0 < length l)%nat) by (destruct l; [congruence|cbn; lia]).
  unfold lmedian at 1. set (v := lmedian l). set (s := lsort l). set (i := ((length l - 1) / 2)%nat).
  pose proof (lsort_perm F l) as P. fold s in P. pose proof (lsort_sorted F l) as So. fold s in So. pose proof (Permutation_length P) as Ls.
  assert (Hi : (i < length l)%nat) by (unfold i; apply Nat.div_lt_upper_bound; lia).
  assert (Ev : nth i s f0 = v) by reflexivity.
  assert (Es : s = firstn i s ++ v :: skipn (S i) s).
  { rewrite <- (firstn_skipn i s) at 1. f_equal. rewrite <- Ev. apply skipn_cons. now rewrite <- Ls. }
  set (s' := firstn i s ++ repeat v k ++ v :: skipn (S i) s).
  assert (SS : StronglySorted (fun a b => fle a b) s).
  { apply Sorted_StronglySorted; [intros x y z; apply fle_trans|exact So]. }
  assert (So' : Sorted (fun a b => fleb a b = true) s').
  { apply StronglySorted_Sorted. unfold s'. clear - SS Es.
    rewrite Es in SS. revert SS. generalize (firstn i s) (skipn (S i) s). intros l1 l2.
    induction l1 as [|c l1 IH]; cbn; intros H.
    - induction k as [|k IHk]; cbn; [exact H|]. constructor; [exact IHk|]. inversion H; subst.
      apply Forall_app. split; [apply Forall_forall; intros z Hz; apply repeat_spec in Hz; subst; apply fle_refl|].
      constructor; [apply fle_refl|exact H3].
    - inversion H; subst. constructor; [now apply IH|]. rewrite Forall_app in *. destruct H3 as [A B]. split; auto.
      apply Forall_app. split; auto. inversion B; subst. apply Forall_forall. intros z Hz. apply repeat_spec in Hz. now subst. }
  assert (Ps : Permutation (repeat v k ++ l) s').
  { unfold s'. transitivity (repeat v k ++ s); [now apply Permutation_app_head|]. rewrite Es at 1. apply Permutation_app_swap_app. }
  rewrite (lsort_unique F _ _ Ps So'). rewrite app_length, repeat_length. unfold s'.
  set (j := ((k + length l - 1) / 2)%nat).
  assert (Hj : (i <= j <= i + k)%nat).
  { unfold i, j. split; [apply Nat.div_le_mono; lia|].
    pose proof (Nat.div_mod (length l - 1) 2 ltac:(lia)) as D. pose proof (Nat.mod_upper_bound (length l - 1) 2 ltac:(lia)) as B.
    assert (((k + length l - 1) / 2 < (length l - 1) / 2 + k + 1)%nat); [|lia].
    apply Nat.div_lt_upper_bound; lia. }
  rewrite app_nth2; rewrite firstn_length, Nat.min_l by lia; [|lia].
  destruct (Nat.lt_ge_cases (j - i) k) as [H|H].
  - rewrite app_nth1 by (now rewrite repeat_length). rewrite (nth_indep _ f0 v) by (now rewrite repeat_length). apply nth_repeat.
  - rewrite app_nth2 by (now rewrite repeat_length). rewrite repeat_length. replace (j - i - k)%nat with 0%nat by lia. reflexivity.
Qed.
Lemma mean_more (l : list F) k : l <> [] -> lmean (repeat (lmean l) k ++ l) = lmean l.
Proof.
  intros Hl. assert (Hn : @fofZ F (Z.of_nat (length l)) <> f0) by (now apply len_neq0).
  assert (Hm : @fofZ F (Z.of_nat (length (repeat (lmean l) k ++ l))) <> f0) by (apply len_neq0; destruct l; [congruence|]; intros E; apply app_eq_nil in E as [_ E]; discriminate).
  assert (Es : lsum (repeat (lmean l) k ++ l) = fofZ (Z.of_nat k) * lmean l + lsum l).
  { generalize (lmean l) as v. intros v. clear. induction k as [|k IH].
    - cbn [repeat app Z.of_nat]. rewrite fofZ_0. ring.
    - cbn [repeat app]. change (lsum (v :: repeat v k ++ l)) with (v + lsum (repeat v k ++ l)). rewrite IH, Nat2Z.inj_succ. unfold Z.succ. rewrite fofZ_succ. ring. }
  assert (El : lsum l = fofZ (Z.of_nat (length l)) * lmean l) by (unfold lmean; field; auto).
  unfold lmean at 1. rewrite Es, El. rewrite app_length, repeat_length, Nat2Z.inj_add, fofZ_add in *. field. auto.
Qed.
Lemma stat_resumes s wb wa n b a : (1 <= n -> 0 <= b -> 0 <= a -> match s with SMean | SMedian => (wb, wa) = (None, None) | _ => True end ->
  resumes (ext_stat (stat_fun s) wb wa) n b a)%Z.
Proof.
  intros Hn Hb Ha Hs. destruct s.
  - inversion Hs. subst. apply central_resumes; auto; [apply (stat_perm F SMean)|apply mean_more].
  - inversion Hs. subst. apply central_resumes; auto; [apply (stat_perm F SMedian)|apply median_more].
  - apply (extreme_resumes (fun x y => fle x y)); auto using fle_refl, fle_antisym.
    + intros l Hl. now apply lmax_is_max.
    + intros l e Hl. now apply lmax_is_max.
  - apply (extreme_resumes (fun x y => fle y x)); auto using fle_refl, fle_antisym.
    + intros l Hl. now apply lmin_is_min.
    + intros l e Hl. now apply lmin_is_min.
Qed.

(** ** Padder.forward *)
Lemma mode_resumes (q : axis_params F) e e' pb pa pb' pa' n b a : resumable q n b a -> (0 <= n)%Z -> (1 <= n)%Z \/ empty_ok (ap_mode q) = true -> (0 <= b)%Z -> (0 <= a)%Z ->
  mode_ext (ap_mode q) pb pa (ap_const q) (ap_end q) (ap_stat q) = Some e ->
  mode_ext (ap_mode q) pb' pa' (ap_const q) (ap_end q) (ap_stat q) = Some e' -> e' = e /\ resumes e n b a.
Proof.
  intros R H0 Hn Hb Ha He He'. unfold resumable in R. unfold mode_ext in He, He'.
  destruct (ap_mode q) eqn:Em; try contradiction; inv He; inv He'; (split; [reflexivity|]);
    cbn in Hn; try (assert (H1 : (1 <= n)%Z) by (destruct Hn; [auto|discriminate]));
    try (match type of R with exists _ _, _ => destruct R as [k [l [-> ->]]] end).
  - now apply replicate_resumes.
  - now apply smooth_resumes.
  - destruct R as [k R]. now apply circular_resumes with k.
  - now apply symmetric_resumes.
  - now apply reflect_resumes.
  - now apply antisymmetric_resumes.
  - now apply odd_reflect_resumes.
  - now apply odd_symmetric_resumes.
  - apply stat_resumes; auto. match goal with |- context [match ?m with _ => _ end] => destruct m end; auto; rewrite R; reflexivity.
  - now apply constant_resumes.
Qed.
Theorem padding_resumed fuel junk junk' junk'' (p1 p2 p12 : padder F) (x : T) ax d q1 q2 q : one_axis fuel p12 x ax d q ->
  params p1 0 = Some q1 -> params p2 0 = Some q2 -> same_kind q q1 -> same_kind q q2 ->
  (0 <= ap_before q1)%Z -> (0 <= ap_after q1)%Z -> (0 <= ap_before q2)%Z -> (0 <= ap_after q2)%Z ->
  (ap_before q = ap_before q1 + ap_before q2)%Z -> (ap_after q = ap_after q1 + ap_after q2)%Z ->
  resumable q (nth d (shp x) 0%Z) (ap_before q1) (ap_after q1) ->
  exists y z z', padder_forward fuel junk p1 x ax = Ok y /\ padder_forward fuel junk' p2 y ax = Ok z /\
    padder_forward fuel junk'' p12 x ax = Ok z' /\ teq z z'.
Proof.
  intros O P1 P2 [K1 [C1 S1]] [K2 [C2 S2]] B1 A1 B2 A2 Eb Ea R.
  destruct O as [O1 O2 O3 O4 O5 O6 O7 O8]. set (n := nth d (shp x) 0%Z) in *.
  assert (Hn0 : (0 <= n)%Z) by (apply O1; auto).
  assert (O : one_axis fuel p12 x ax d q) by (constructor; auto).
  assert (Q1 : one_axis fuel p1 x ax d q1).
  { constructor; auto; [rewrite K1; auto|]. intros c Hc. specialize (O8 c Hc). lia. }
  assert (Hm : ap_mode q <> MPeriodize) by (intros E; unfold resumable in R; now rewrite E in R).
  assert (Hr : ap_mode q <> MLinearRamp) by (intros E; unfold resumable in R; now rewrite E in R).
  assert (Ex : exists e, forall pb pa ev, mode_ext (ap_mode q) pb pa (ap_const q) ev (ap_stat q) = Some e).
  { clear - R Hr. unfold resumable in R. destruct (ap_mode q); try contradiction; eexists; intros; reflexivity. }
  destruct Ex as [e He].
  destruct (one_axis_ext F fuel junk p1 x ax d q1 e Q1) as [y [Hy [Sy Ay]]]; [congruence|rewrite K1, C1, S1; apply He|].
  fold n in Sy, Ay.
  assert (Ny : nth d (shp y) 0%Z = (ap_before q1 + n + ap_after q1)%Z) by (rewrite Sy, nth_upd_eq; auto).
  assert (Dy : ndim y = ndim x) by (unfold ndim; now rewrite Sy, upd_length).
  assert (Q2 : one_axis fuel p2 y ax d q2).
  { constructor; rewrite ?Dy; auto.
    - intros c Hc. destruct (Nat.eq_dec d c); [subst c; rewrite Ny; lia|]. rewrite Sy, nth_upd_ne; auto.
    - rewrite Ny, K2. destruct O7; [left; lia|auto].
    - intros c Hc. specialize (O8 c Hc). destruct (Nat.eq_dec d c); [subst c; rewrite Ny; fold n in O8; lia|]. rewrite Sy, nth_upd_ne by auto. lia. }
  destruct (one_axis_ext F fuel junk' p2 y ax d q2 e Q2) as [z [Hz [Sz Az]]]; [congruence|rewrite K2, C2, S2; apply He|].
  destruct (one_axis_ext F fuel junk'' p12 x ax d q e O) as [z' [Hz' [Sz' Az']]]; [congruence|apply He|].
  exists y, z, z'. do 3 (split; [auto|]). fold n in Sz', Az'. rewrite Ny in Sz, Az.
  assert (Es : shp z = shp z') by (rewrite Sz, Sz', Sy, upd_upd; f_equal; lia).
  split; [exact Es|]. intros j V. rewrite Az, Az' by (congruence || auto).
  destruct (mode_resumes q e e 0 0 0 0 n (ap_before q1) (ap_after q1) R Hn0 O7 B1 A1 (He _ _ _) (He _ _ _)) as [_ RS].
  transitivity (e (ap_before q1 + n + ap_after q1)%Z (fun u => e n (fun v => at_ x (upd d v j)) (u - ap_before q1)%Z) (nth d j 0%Z - ap_before q2)%Z).
  - apply (mode_ext_extl F _ _ _ _ _ _ _ _ (He 0%Z 0%Z (ap_end q))); [destruct O7; [left; lia|auto]|].
    assert (Ld : (d < length j)%nat) by (rewrite (valid_length _ _ V), Sz, upd_length, Sy, upd_length; exact O3).
    intros u Hu. assert (Vu : valid (shp y) (upd d u j)).
    { apply (valid_upd_back (shp y) j d u (ap_before q2 + (ap_before q1 + n + ap_after q1) + ap_after q2)%Z); [now rewrite <- Sz|lia]. }
    rewrite Ay by auto. rewrite nth_upd_eq by auto.
    apply (mode_ext_extl F _ _ _ _ _ _ _ _ (He 0%Z 0%Z (ap_end q)) O7). intros v Hv. now rewrite upd_upd.
  - rewrite RS. f_equal. lia.
Qed.

(** *** Several axes, modes that copy *)
Lemma axis_par_none (p : padder F) rest d : ~ In d rest -> axis_par p rest d = None.
Proof. induction rest as [|c r IH]; cbn; intros H; auto. destruct (Nat.eqb_spec d c); [subst; tauto|]. apply IH. tauto. Qed.
Lemma copied_resumed (m : mode F) (c : Z -> Z -> Z) (e : Z -> (Z -> F) -> Z -> F) :
  (forall fuel junk (p : padder F) (x : T) ax al, pad_call fuel p x ax al -> all_axes p x al (fun q n => ap_mode q = m /\ (1 <= n)%Z) ->
    exists y, padder_forward fuel junk p x ax = Ok y /\ shp y = grown p al (shp x) /\
      forall j, valid (shp y) j -> at_ y j = at_ x (from c p al (shp x) j)) ->
  m <> MPeriodize -> (forall n f t, (1 <= n)%Z -> e n f t = f (c n t)) -> (forall n t, (1 <= n)%Z -> (0 <= c n t < n)%Z) ->
  forall fuel junk junk' junk'' (p1 p2 p : padder F) (x : T) ax al, pad_call fuel p x ax al ->
  all_axes p x al (fun q n => ap_mode q = m /\ (1 <= n)%Z) -> adds p1 p2 p al ->
  (forall d q q1, axis_par p (last_axes p al) d = Some q -> axis_par p1 (last_axes p al) d = Some q1 ->
     resumes e (nth d (shp x) 0%Z) (ap_before q1) (ap_after q1)) ->
  exists y z z', padder_forward fuel junk p1 x ax = Ok y /\ padder_forward fuel junk' p2 y ax = Ok z /\
    padder_forward fuel junk'' p x ax = Ok z' /\ teq z z'.
Proof.
  intros CP Hm He Hc fuel junk junk' junk'' p1 p2 p x ax al PC AA (L1 & L2 & AD) RS.
  pose proof PC as [P1 P2 P3 P4 P5 P6].
  assert (In_some : forall d, In d (last_axes p al) -> exists q q1 q2, axis_par p (last_axes p al) d = Some q /\
    axis_par p1 (last_axes p al) d = Some q1 /\ axis_par p2 (last_axes p al) d = Some q2 /\ ap_mode q = m /\ (1 <= nth d (shp x) 0)%Z /\ same_kind q q1 /\ same_kind q q2 /\
    (0 <= ap_before q1)%Z /\ (0 <= ap_after q1)%Z /\ (0 <= ap_before q2)%Z /\ (0 <= ap_after q2)%Z /\
    (ap_before q = ap_before q1 + ap_before q2)%Z /\ (ap_after q = ap_after q1 + ap_after q2)%Z).
  { intros d Hd. destruct (AA d Hd) as (q & Eq & _ & _ & Em & Hn). destruct (AD d q Eq) as (q1 & q2 & W). exists q, q1, q2. tauto. }
  assert (NP : forall d q, axis_par p (last_axes p al) d = Some q -> ap_mode q <> MPeriodize).
  { intros d q E. destruct (AA d) as (q' & E' & _ & _ & Em & _); [eapply axis_par_some_in; eauto|]. assert (q = q') as -> by congruence. now rewrite Em. }
  assert (NP1 : forall d q, axis_par p1 (last_axes p al) d = Some q -> ap_mode q <> MPeriodize).
  { intros d q E. destruct (In_some d) as (q' & q1 & q2 & E1 & E2 & _ & Em & _ & [K _] & _); [eapply axis_par_some_in; eauto|]. assert (q = q1) as -> by congruence. now rewrite K, Em. }
  assert (NP2 : forall d q, axis_par p2 (last_axes p al) d = Some q -> ap_mode q <> MPeriodize).
  { intros d q E. destruct (In_some d) as (q' & q1 & q2 & E1 & E3 & E2 & Em & _ & _ & [K _] & _); [eapply axis_par_some_in; eauto|]. assert (q = q2) as -> by congruence. now rewrite K, Em. }
  assert (Os : out_shape p (shp x) al = grown p al (shp x)) by (apply out_shape_grown; auto).
  assert (Os1 : out_shape p1 (shp x) al = grown p1 al (shp x)) by (apply out_shape_grown; [auto|rewrite L1; auto]).
  assert (Dec : forall d, In d (last_axes p al) \/ axis_par p (last_axes p al) d = None /\ axis_par p1 (last_axes p al) d = None /\ axis_par p2 (last_axes p al) d = None).
  { intros d. destruct (in_dec Nat.eq_dec d (last_axes p al)); [now left|]. right. rewrite !axis_par_none by auto. auto. }
  assert (PC1 : pad_call fuel p1 x ax al).
  { constructor; auto. intros d Hd. rewrite Os1. specialize (P6 d Hd). rewrite Os in P6. unfold grown in *. unfold ndim in Hd. rewrite nth_map_seq in * by auto. rewrite L1.
    destruct (Dec d) as [I|(E & E1 & _)]; [|now rewrite E1; rewrite E in P6].
    destruct (In_some d I) as (q & q1 & q2 & E & E1 & E2 & W). rewrite E in P6. rewrite E1. lia. }
  destruct (CP fuel junk p1 x ax al PC1) as [y [Hy [Sy Ay]]].
  { intros d Hd. rewrite L1 in *. destruct (In_some d Hd) as (q & q1 & q2 & E & E1 & E2 & Em & Hn & [K _] & W). exists q1. rewrite K. tauto. }
  assert (Dy : length (shp y) = length (shp x)) by (rewrite Sy; unfold grown; now rewrite map_length, seq_length).
  assert (Ny : forall d, (d < length (shp x))%nat -> nth d (shp y) 0%Z = match axis_par p1 (last_axes p al) d with Some q => (ap_before q + nth d (shp x) 0 + ap_after q)%Z | None => nth d (shp x) 0%Z end).
  { intros d Hd. rewrite Sy. unfold grown. rewrite nth_map_seq by auto. now rewrite L1. }
  assert (Os2 : out_shape p2 (shp y) al = grown p2 al (shp y)) by (apply out_shape_grown; [auto|rewrite L2; auto]).
  assert (Sg : grown p2 al (shp y) = grown p al (shp x)).
  { apply list_ext with (d := 0%Z); unfold grown; rewrite !map_length, !seq_length; [auto|]. intros d Hd. rewrite Dy in Hd. rewrite !nth_map_seq by (rewrite ?Dy; auto). rewrite L2, Ny by auto.
    destruct (Dec d) as [I|(E & E1 & E2)]; [|now rewrite E, E1, E2].
    destruct (In_some d I) as (q & q1 & q2 & E & E1 & E2 & W). rewrite E, E1, E2. lia. }
  assert (PC2 : pad_call fuel p2 y ax al).
  { constructor; unfold ndim; rewrite ?Dy; auto.
    - intros d Hd. rewrite Ny by auto. specialize (P2 d Hd). destruct (Dec d) as [I|(E & E1 & E2)]; [|now rewrite E1].
      destruct (In_some d I) as (q & q1 & q2 & E & E1 & E2 & W). rewrite E1. lia.
    - intros d Hd. rewrite Os2, Sg, <- Os. now apply P6. }
  destruct (CP fuel junk' p2 y ax al PC2) as [z [Hz [Sz Az]]].
  { intros d Hd. rewrite L2 in *. destruct (In_some d Hd) as (q & q1 & q2 & E & E1 & E2 & Em & Hn & [K _] & [K' _] & W). exists q2. rewrite K'.
    assert (Hd' : (d < length (shp x))%nat) by (apply P4; eapply last_axes_in; eauto). rewrite Ny, E1 by auto. split; auto. split; [tauto|]. split; [tauto|]. split; [auto|lia]. }
  destruct (CP fuel junk'' p x ax al PC AA) as [z' [Hz' [Sz' Az']]].
  exists y, z, z'. do 3 (split; [auto|]). split; [congruence|]. intros j V.
  rewrite Az, Az' by (congruence || auto).
  assert (Lj : length j = length (shp x)) by (rewrite (valid_length _ _ V), Sz, Sg; unfold grown; now rewrite map_length, seq_length).
  assert (Nj : forall d, (d < length (shp x))%nat -> nth d (from c p2 al (shp y) j) 0%Z =
     match axis_par p2 (last_axes p al) d with Some q => c (nth d (shp y) 0%Z) (nth d j 0%Z - ap_before q)%Z | None => nth d j 0%Z end).
  { intros d Hd. unfold from. rewrite nth_map_seq by (now rewrite Dy). now rewrite L2. }
  rewrite Ay.
  - f_equal. unfold from at 1 3. apply map_ext_in. intros d Hd. apply in_seq in Hd. rewrite L1.
    destruct (Dec d) as [I|(E & E1 & E2)]; [|rewrite E1, E, Nj, E2 by lia; auto].
    destruct (In_some d I) as (q & q1 & q2 & E & E1 & E2 & Em & Hn & _ & _ & W). rewrite E1, E, Nj, E2, Ny, E1 by lia.
    pose proof (RS d q q1 E E1 (fun t => fofZ t) (nth d j 0%Z - ap_before q2)%Z) as Q. rewrite !He in Q by lia. apply fofZ_inj in Q. rewrite Q. f_equal. lia.
  - apply valid_iff. split; [unfold from; now rewrite map_length, seq_length|]. intros d Hd. rewrite Dy in Hd. rewrite Nj by auto.
    destruct (Dec d) as [I|(E & E1 & E2)].
    + destruct (In_some d I) as (q & q1 & q2 & E & E1 & E2 & Em & Hn & W). rewrite E2. apply Hc. rewrite Ny, E1 by auto. lia.
    + rewrite E2, Ny, E1 by auto. assert (Hd2 : (d < length (shp z))%nat) by (rewrite Sz, Sg; unfold grown; rewrite map_length, seq_length; auto).
      pose proof (valid_nth _ _ d V Hd2) as B. rewrite Sz, Sg in B. unfold grown in B. rewrite nth_map_seq, E in B by auto. exact B.
Qed.
Theorem copies_resumed fuel junk junk' junk'' (p1 p2 p : padder F) (x : T) ax al m : pad_call fuel p x ax al ->
  m = MReplicate \/ m = MCircular \/ m = MSymmetric \/ m = MReflect ->
  all_axes p x al (fun q n => ap_mode q = m /\ (1 <= n)%Z) -> adds p1 p2 p al ->
  (forall d q q1, axis_par p (last_axes p al) d = Some q -> axis_par p1 (last_axes p al) d = Some q1 ->
     resumable q (nth d (shp x) 0%Z) (ap_before q1) (ap_after q1)) ->
  exists y z z', padder_forward fuel junk p1 x ax = Ok y /\ padder_forward fuel junk' p2 y ax = Ok z /\
    padder_forward fuel junk'' p x ax = Ok z' /\ teq z z'.
Proof.
  intros PC Hm AA AD RS.
  assert (G : forall e, (forall pb pa cv ev sl, mode_ext m pb pa cv ev sl = Some e) -> forall d q q1, axis_par p (last_axes p al) d = Some q -> axis_par p1 (last_axes p al) d = Some q1 ->
     resumes e (nth d (shp x) 0%Z) (ap_before q1) (ap_after q1)).
  { intros e He d q q1 E E1. destruct (AA d) as (q' & E' & _ & _ & Em & Hn); [eapply axis_par_some_in; eauto|]. assert (q' = q) as -> by congruence.
    destruct AD as (L1 & L2 & AD). destruct (AD d q E) as (q1' & q2 & F1 & F2 & W). assert (q1' = q1) as -> by congruence.
    apply (mode_resumes q e e 0 0 0 0 (nth d (shp x) 0%Z)); try rewrite Em; auto; try lia. }
  destruct Hm as [->|[->|[->| ->]]].
  - eapply (copied_resumed MReplicate c_replicate ext_replicate); [exact (replicate_copy F)|discriminate|auto|unfold c_replicate; lia|eauto..].
  - eapply (copied_resumed MCircular c_circular ext_circular); [exact (circular_copy F)|discriminate|auto|unfold c_circular; intros; apply Z.mod_pos_bound; lia|eauto..].
  - eapply (copied_resumed MSymmetric c_symmetric ext_symmetric); [exact (symmetric_copy F)|discriminate| | |eauto..].
    + intros. unfold ext_symmetric, c_symmetric. cbv zeta. destruct (_ <? _)%Z; auto.
    + unfold c_symmetric. intros. pose proof (Z.mod_pos_bound t (2 * n) ltac:(lia)). cbv zeta. destruct (Z.ltb_spec (t mod (2 * n)) n); lia.
  - eapply (copied_resumed MReflect c_reflect ext_reflect); [exact (reflect_copy F)|discriminate| | |eauto..].
    + intros. unfold ext_reflect, c_reflect. cbv zeta. destruct (_ =? _)%Z; auto. destruct (_ <? _)%Z; auto.
    + unfold c_reflect. intros. destruct (Z.eqb_spec n 1); [lia|]. pose proof (Z.mod_pos_bound t (2 * n - 2) ltac:(lia)). cbv zeta. destruct (Z.ltb_spec (t mod (2 * n - 2)) n); lia.
Qed.
End T.
