(** Index tuples select one axis; the width check accepts torch's width lists. *)
From Verif Require Import UtilModel BaseLemmas TensorLemmas IndexLemmas PadUtilProofs.

(** The axis number named by a Python index. *)
Definition names_axis (nd : nat) (dim : Z) (a : nat) : Prop :=
  (a < nd)%nat /\ (dim = Z.of_nat a \/ dim = Z.of_nat a - Z.of_nat nd).

Lemma make_idx_upd_py s dim nd a : names_axis nd dim a ->
  make_idx_py s dim nd = upd a s (repeat sfull nd).
Proof.
  intros [H D]. unfold make_idx_py.
  assert (E : (if dim <? 0 then Z.of_nat nd + dim else dim) = Z.of_nat a).
  { destruct (Z.ltb_spec dim 0); destruct D; lia. }
  rewrite E. rewrite Nat2Z.id.
  replace (Z.to_nat (Z.of_nat nd - Z.of_nat a - 1)) with (nd - a - 1)%nat by lia.
  replace (repeat sfull nd) with (repeat sfull (a + S (nd - a - 1))) by (f_equal; lia).
  generalize (nd - a - 1)%nat as k. clear. induction a; intros k; [reflexivity|]. cbn. f_equal. apply IHa.
Qed.

Theorem make_idx_one s dim nd a : names_axis nd dim a ->
  length (make_idx_py s dim nd) = nd /\
  forall d, (d < nd)%nat -> nth d (make_idx_py s dim nd) sfull = if Nat.eqb d a then s else sfull.
Proof.
  intros N. pose proof N as [H _]. rewrite (make_idx_upd_py s dim nd a N). split.
  - now rewrite upd_length, repeat_length.
  - intros d Hd. destruct (Nat.eqb_spec d a) as [->|Ne].
    + apply nth_upd_eq. now rewrite repeat_length.
    + rewrite nth_upd_ne by auto. apply nth_repeat.
Qed.

Theorem make_idx_get {A} (x : tensor A) lo hi dim a : nonneg (shp x) -> names_axis (ndim x) dim a ->
  0 <= lo <= hi -> hi <= nth a (shp x) 0 ->
  exists y, tget x (make_idx_py (srng lo hi) dim (ndim x)) = Ok y /\ shp y = upd a (hi - lo) (shp x) /\
    forall i, valid (shp y) i -> at_ y i = at_ x (upd a (lo + nth a i 0) i).
Proof.
  intros NN N Hl Hh. pose proof N as [Ha _]. rewrite (make_idx_upd_py _ _ _ a N). unfold tget.
  rewrite upd_length, repeat_length. unfold ndim in *. rewrite Nat.eqb_refl. eexists; split; [reflexivity|].
  cbn [shp at_].
  set (R := map2 resolve (shp x) (upd a (srng lo hi) (repeat sfull (length (shp x))))).
  assert (LR : length R = length (shp x)).
  { unfold R. rewrite map2_length, upd_length, repeat_length. lia. }
  assert (ER : forall d, (d < length (shp x))%nat -> nth d R (mkR 0 0 1) =
    if Nat.eqb d a then mkR lo (hi - lo) 1 else mkR 0 (nth d (shp x) 0) 1).
  { intros d Hd. unfold R. rewrite (nth_map2 _ _ _ _ 0 sfull) by (rewrite ?upd_length, ?repeat_length; auto).
    destruct (Nat.eqb_spec d a) as [->|Ne].
    - rewrite nth_upd_eq by now rewrite repeat_length. apply resolve_srng; lia.
    - rewrite nth_upd_ne by auto. rewrite nth_repeat. apply resolve_sfull.
      unfold nonneg in NN. rewrite Forall_forall in NN. apply NN. apply nth_In; auto. }
  assert (ES : map r_len R = upd a (hi - lo) (shp x)).
  { apply list_ext with (d := 0); [now rewrite map_length, upd_length|].
    intros d Hd. rewrite map_length, LR in Hd.
    rewrite (nth_indep _ 0 (r_len (mkR 0 0 1))) by (now rewrite map_length, LR). rewrite map_nth, ER by auto.
    destruct (Nat.eqb_spec d a) as [->|Ne]; cbn.
    - now rewrite nth_upd_eq.
    - now rewrite nth_upd_ne by auto. }
  split; [exact ES|]. intros i V. f_equal.
  assert (Li : length i = length (shp x)) by (apply valid_length in V; rewrite map_length in V; lia).
  apply list_ext with (d := 0).
  { rewrite map2_length, upd_length. lia. }
  intros d Hd. rewrite map2_length in Hd. rewrite (nth_map2 _ _ _ _ (mkR 0 0 1) 0) by lia.
  rewrite ER by lia. destruct (Nat.eqb_spec d a) as [->|Ne]; unfold rpos; cbn.
  - rewrite nth_upd_eq by lia. lia.
  - rewrite nth_upd_ne by auto. lia.
Qed.

Theorem make_idx_out {A} (x : tensor A) s dim : (forall a, ~ names_axis (ndim x) dim a) ->
  tget x (make_idx_py s dim (ndim x)) = Err IndexError.
Proof.
  intros N. unfold tget. destruct (Nat.eqb_spec (length (make_idx_py s dim (ndim x))) (length (shp x))) as [E|]; auto.
  exfalso. unfold make_idx_py in E. rewrite !app_length, !repeat_length in E. cbn [length] in E. fold (ndim x) in E.
  destruct (Z.ltb_spec dim 0).
  - apply (N (Z.to_nat (Z.of_nat (ndim x) + dim))). split; lia.
  - apply (N (Z.to_nat dim)). split; lia.
Qed.

Theorem modify_idx_one s idx dim a : names_axis (length idx) dim a ->
  exists idx', modify_idx_py s idx dim = Ok idx' /\ length idx' = length idx /\
    forall d, (d < length idx)%nat -> nth d idx' sfull = if Nat.eqb d a then s else nth d idx sfull.
Proof.
  intros [H D]. unfold modify_idx_py.
  assert (E : (if dim <? 0 then dim + Z.of_nat (length idx) else dim) = Z.of_nat a).
  { destruct (Z.ltb_spec dim 0); destruct D; lia. }
  rewrite E. rewrite (proj2 (Z.leb_le _ _)), (proj2 (Z.ltb_lt _ _)) by lia. cbn [andb]. rewrite Nat2Z.id.
  eexists; split; [reflexivity|]. split; [apply upd_length|]. intros d Hd.
  destruct (Nat.eqb_spec d a) as [->|Ne]; [now apply nth_upd_eq|now rewrite nth_upd_ne by auto].
Qed.
Theorem modify_idx_out s idx dim : (forall a, ~ names_axis (length idx) dim a) ->
  modify_idx_py s idx dim = Err IndexError.
Proof.
  intros N. unfold modify_idx_py.
  destruct (Z.leb_spec 0 (if dim <? 0 then dim + Z.of_nat (length idx) else dim)); auto.
  destruct (Z.ltb_spec (if dim <? 0 then dim + Z.of_nat (length idx) else dim) (Z.of_nat (length idx))); auto.
  exfalso. destruct (Z.ltb_spec dim 0).
  - apply (N (Z.to_nat (dim + Z.of_nat (length idx)))). split; lia.
  - apply (N (Z.to_nat dim)). split; lia.
Qed.

(** ** _check_padding *)
Lemma pairs_of (l : list Z) k : length l = (2 * k)%nat ->
  exists p : list (Z * Z), length p = k /\ l = concat (flat p).
Proof.
  revert l. induction k; intros l H.
  - destruct l; [|discriminate]. now exists [].
  - destruct l as [|a [|b l]]; cbn in H; try lia. destruct (IHk l) as (p & L & ->); [lia|].
    exists ((a, b) :: p). split; [cbn; lia|reflexivity].
Qed.
Lemma ints_of l : forallb (fun p => match p with PInt z => 0 <=? z | PNoIndex => false end) l = true <->
  exists zs, l = map PInt zs /\ Forall (fun z => 0 <= z) zs.
Proof.
  induction l as [|[z|] l IH]; cbn.
  - split; auto. intros _. exists []. auto.
  - rewrite andb_true_iff, IH, Z.leb_le. split.
    + intros (H & zs & -> & F). exists (z :: zs). auto.
    + intros ([|w zs] & E & F); [discriminate|]. cbn in E. inv E. inv F. eauto.
  - split; [discriminate|]. intros ([|w zs] & E & F); discriminate.
Qed.
Lemma nonneg_flat p : Forall (fun z => 0 <= z) (concat (flat p)) <-> Forall (fun q => 0 <= fst q /\ 0 <= snd q) p.
Proof.
  induction p as [|[a b] p IH]; cbn; [split; auto|]. split.
  - intros H. inversion H as [|? ? H1 H2]; subst. inversion H2 as [|? ? H3 H4]; subst.
    constructor; [auto|now apply IH].
  - intros H. inversion H as [|? ? [H1 H2] H3]; subst. repeat constructor; auto. now apply IH.
Qed.

Theorem check_padding_iff nd pad :
  check_padding (Some nd) pad = Ok tt <->
  exists l, pad = PSeq (map PInt (torch_form l)) /\ (length l <= nd)%nat /\
    Forall (fun q => 0 <= fst q /\ 0 <= snd q) l.
Proof.
  unfold check_padding. destruct pad as [|l].
  { split; [discriminate|]. intros (l & E & _); discriminate. }
  split.
  - unfold assertb. destruct (Nat.eqb_spec (length l mod 2) 0) as [Ev|]; [|intros X; discriminate X].
    destruct (Nat.leb_spec (length l / 2) nd) as [Le|]; [|intros X; discriminate X].
    destruct (forallb _ l) eqn:E; [|intros X; discriminate X]. intros _. apply ints_of in E as (zs & -> & P).
    rewrite map_length in *.
    assert (Lz : length zs = (2 * (length zs / 2))%nat).
    { pose proof (Nat.div_mod (length zs) 2). lia. }
    destruct (pairs_of _ _ Lz) as (p & Lp & Ep). exists (rev p). unfold torch_form. rewrite rev_involutive, <- Ep.
    split; auto. rewrite rev_length. split; [lia|]. rewrite Ep in P. apply nonneg_flat in P.
    apply Forall_forall. intros q Hq. apply in_rev in Hq. rewrite Forall_forall in P. auto.
  - intros (p & E & Le & P). inv E. rewrite map_length.
    assert (L : length (torch_form p) = (2 * length p)%nat).
    { unfold torch_form. rewrite concat_flat_length, rev_length. auto. }
    rewrite L. replace ((2 * length p) mod 2)%nat with 0%nat by (rewrite Nat.mul_comm; symmetry; apply Nat.mod_mul; lia).
    replace ((2 * length p) / 2)%nat with (length p) by (rewrite Nat.mul_comm; symmetry; apply Nat.div_mul; lia).
    unfold assertb. rewrite Nat.eqb_refl, (proj2 (Nat.leb_le _ _) Le). cbn.
    replace (forallb _ _) with true; auto. symmetry. apply ints_of. exists (torch_form p). split; auto.
    unfold torch_form. apply nonneg_flat. apply Forall_forall. intros q Hq. apply in_rev in Hq.
    rewrite Forall_forall in P. auto.
Qed.

Theorem check_padding_no nd pad : check_padding nd pad <> Ok tt -> check_padding nd pad = Err AssertionError.
Proof.
  unfold check_padding, assertb. destruct nd; auto. destruct pad; auto.
  destruct (Nat.eqb _ _); cbn; auto. destruct (Nat.leb _ _); cbn; auto. destruct (forallb _ _); cbn; auto. congruence.
Qed.

(** Accepted widths convert to one pair of widths per axis. *)
Theorem check_padding_numpy nd zs : check_padding (Some nd) (PSeq (map PInt zs)) = Ok tt ->
  exists l, pw_torch_to_numpy zs (Some (Z.of_nat nd)) = Ok (flat l) /\ length l = nd /\
    Forall (fun q => 0 <= fst q /\ 0 <= snd q) l /\
    forall k, (2 * k + 1 < length zs)%nat ->
      nth (nd - 1 - k) l (0, 0) = (nth (2 * k) zs 0, nth (2 * k + 1) zs 0).
Proof.
  intros H. apply check_padding_iff in H as (p & E & Le & P).
  assert (Ez : zs = torch_form p).
  { injection E as E. clear - E. revert E. generalize (torch_form p).
    induction zs as [|z zs IH]; intros [|w l] H; cbn in H; try discriminate; auto. injection H as -> H. f_equal. auto. }
  subst zs. rewrite torch_numpy. eexists; split; [reflexivity|].
  assert (Lf : length (torch_form p) = (2 * length p)%nat).
  { unfold torch_form. rewrite concat_flat_length, rev_length. auto. }
  split; [rewrite app_length, repeat_length; lia|]. split.
  - apply Forall_app. split; auto. apply Forall_forall. intros q Hq. apply repeat_spec in Hq. subst q. cbn. lia.
  - intros k Hk. rewrite Lf in Hk. rewrite app_nth2 by (rewrite repeat_length; lia). rewrite repeat_length.
    replace (nd - 1 - k - Z.to_nat (Z.of_nat nd - Z.of_nat (length p)))%nat with (length p - S k)%nat by lia.
    rewrite <- rev_nth by lia. unfold torch_form.
    assert (Hk' : (k < length (rev p))%nat) by (rewrite rev_length; lia). revert Hk'. generalize (rev p). clear.
    intros q. revert k. induction q as [|[a b] q IH]; intros [|k] H; cbn [length] in H; try lia; auto.
    replace (2 * S k)%nat with (S (S (2 * k))) by lia. cbn [nth flat map concat app fst snd Nat.add].
    apply IH. lia.
Qed.

(** ** hdrvdp3 *)
Lemma all2_eqb l m : all2 Z.eqb l m = true <-> l = m.
Proof.
  revert m. induction l as [|a l IH]; intros [|b m]; cbn; split; intros H; try discriminate; auto.
  - apply andb_true_iff in H as [H1 H2]. apply Z.eqb_eq in H1. apply IH in H2. congruence.
  - inv H. rewrite Z.eqb_refl. now apply IH.
Qed.
Theorem hdrvdp3_iff {A} (x y : tensor A) :
  (shp x = shp y -> hdrvdp3 x y = Ok tt) /\ (shp x <> shp y -> hdrvdp3 x y = Err AssertionError).
Proof.
  unfold hdrvdp3, assertb. split; intros H.
  - apply all2_eqb in H. now rewrite H.
  - destruct (all2 _ _ _) eqn:E; auto. apply all2_eqb in E. contradiction.
Qed.

(** The tuples used by the padding model are the ones of a nonnegative axis. *)
Lemma make_idx_nat s d nd : (d < nd)%nat -> make_idx_py s (Z.of_nat d) nd = make_idx s d nd.
Proof.
  intros H. unfold make_idx_py, make_idx. destruct (Z.ltb_spec (Z.of_nat d) 0); [lia|]. rewrite Nat2Z.id.
  do 3 f_equal. lia.
Qed.
Lemma modify_idx_nat s idx d : (d < length idx)%nat -> modify_idx_py s idx (Z.of_nat d) = Ok (modify_idx s idx d).
Proof.
  intros H. unfold modify_idx_py, modify_idx. destruct (Z.ltb_spec (Z.of_nat d) 0); [lia|]. rewrite Nat2Z.id.
  now rewrite (proj2 (Z.leb_le _ _)), (proj2 (Z.ltb_lt _ _)) by lia.
Qed.
Lemma same_tuples s idx d nd : (d < nd)%nat -> length idx = nd ->
  make_idx_py s (Z.of_nat d) nd = make_idx s d nd /\ modify_idx_py s idx (Z.of_nat d) = Ok (modify_idx s idx d).
Proof. intros H <-. split; [now apply make_idx_nat|now apply modify_idx_nat]. Qed.
