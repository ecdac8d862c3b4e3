(** Pooling calls do not depend on earlier calls (C22). *)
From Verif Require Export PoolSame.
Open Scope Z_scope.

(** Calls of a pooling module; the result is ignored, the module state stays. *)
Inductive call (F : ofield) :=
| CForward (fuel : nat) (junk : list Z -> F) (x : tensor F) (ax : axes_arg)
| CAvg (fuel : nat) (junk : list Z -> F) (count_include_pad : bool) (x : tensor F) (ax : axes_arg)
| CPad (fuel : nat) (junk : list Z -> F) (x : tensor F) (ax : axes_arg).
Arguments CForward {F}. Arguments CAvg {F}. Arguments CPad {F}.
Definition do_call {F : ofield} (m : pool F) (c : call F) : pool F * res (tensor F) :=
  match c with
  | CForward fuel junk x ax => sep_forward fuel junk m x ax
  | CAvg fuel junk cip x ax => avg_forward fuel junk cip m x ax
  | CPad fuel junk x ax => pool_pad fuel junk m x ax
  end.
(** The state after a sequence of calls. *)
Definition after {F : ofield} (m : pool F) (cs : list (call F)) : pool F :=
  fold_left (fun m c => fst (do_call m c)) cs m.

(** Several modules that own the same Padder object p; a history says which module is called. *)
Definition shared_step {F : ofield} (mods : list (pool F)) (p : padder F) (ic : nat * call F) : padder F :=
  match nth_error mods (fst ic) with
  | None => p
  | Some m => match pl_padder (fst (do_call (set_padder m p) (snd ic))) with Some p' => p' | None => p end
  end.
Definition shared_after {F : ofield} (mods : list (pool F)) (p : padder F) (h : list (nat * call F)) : padder F :=
  fold_left (shared_step mods) h p.

Section H.
Variable F : ofield.
Notation T := (tensor F).

(** Equal up to padding widths. *)
Definition like (p p' : padder F) : Prop :=
  p_mode p = p_mode p' /\ p_const p = p_const p' /\ p_end p = p_end p' /\ p_stat p = p_stat p'.
Definition mlike (m m' : pool F) : Prop :=
  pl_kernel m = pl_kernel m' /\ pl_size m = pl_size m' /\ pl_stride m = pl_stride m' /\ pl_ndim m = pl_ndim m' /\
  match pl_padder m, pl_padder m' with
  | None, None => True
  | Some p, Some p' => like p p'
  | _, _ => False
  end.
Lemma like_refl p : like p p. Proof. repeat split. Qed.
Lemma mlike_refl m : mlike m m. Proof. unfold mlike. repeat split. destruct (pl_padder m); auto. apply like_refl. Qed.
Lemma like_trans a b c : like a b -> like b c -> like a c.
Proof. unfold like. intuition congruence. Qed.
Lemma mlike_trans a b c : mlike a b -> mlike b c -> mlike a c.
Proof.
  unfold mlike. intros [A1 [A2 [A3 [A4 A5]]]] [B1 [B2 [B3 [B4 B5]]]]. repeat split; try congruence.
  destruct (pl_padder a), (pl_padder b), (pl_padder c); auto; try contradiction. eapply like_trans; eauto.
Qed.
Lemma like_sym a b : like a b -> like b a. Proof. unfold like. intuition congruence. Qed.
Lemma mlike_sym a b : mlike a b -> mlike b a.
Proof.
  unfold mlike. intros [A1 [A2 [A3 [A4 A5]]]]. repeat split; try congruence.
  destruct (pl_padder a), (pl_padder b); auto. now apply like_sym.
Qed.

Lemma to_same_like p p' k s n : like p p' ->
  snd (to_same p k s n) = snd (to_same p' k s n) /\ like p (fst (to_same p k s n)) /\
  (snd (to_same p k s n) = Ok tt -> fst (to_same p k s n) = fst (to_same p' k s n)).
Proof.
  intros [L1 [L2 [L3 L4]]]. unfold to_same. destruct (nds_apply3 same_padding_width k s n) as [w|e].
  - rewrite <- L1, <- L2, <- L3, <- L4.
    destruct (align_ndim w (p_mode p) (p_const p) (p_end p) (p_stat p)); simpl; repeat split; auto; discriminate.
  - simpl. repeat split; auto. discriminate.
Qed.

Lemma pool_pad_like fuel junk m m' (x : T) ax : mlike m m' ->
  snd (pool_pad fuel junk m x ax) = snd (pool_pad fuel junk m' x ax) /\
  mlike m (fst (pool_pad fuel junk m x ax)) /\
  ((exists y, snd (pool_pad fuel junk m x ax) = Ok y) ->
   fst (pool_pad fuel junk m x ax) = fst (pool_pad fuel junk m' x ax)).
Proof.
  intros [A1 [A2 [A3 [A4 A5]]]]. pose proof (mlike_refl m) as R. unfold pool_pad.
  destruct (check_axes _ ax) as [axes|e].
  2:{ simpl. split; [auto|split; [auto|intros [y Hy]; discriminate]]. }
  destruct m as [k sz st pd nd]. destruct m' as [k' sz' st' pd' nd']. simpl in *. subst k' sz' st' nd'.
  destruct pd as [p|]; destruct pd' as [p'|]; try contradiction.
  - destruct (mapM _ axes) as [ns|e].
    + destruct (to_same_like p p' sz (some_spec st) (NList (map Some ns)) A5) as [E1 [E2 E3]].
      destruct (to_same p sz _ _) as [q r]. destruct (to_same p' sz _ _) as [q' r']. simpl in *. subst r'.
      unfold set_padder. simpl. destruct r as [[]|e].
      * specialize (E3 eq_refl). subst q'. split; auto. split; [|intros; auto]. unfold mlike. simpl. auto.
      * split; auto. split; [|intros [y Hy]; discriminate]. unfold mlike. simpl. auto.
    + simpl. split; [auto|split; [auto|intros [y Hy]; discriminate]].
  - simpl. split; [auto|split; auto].
Qed.

Lemma pool_loop_like (m m' : pool F) : pl_kernel m = pl_kernel m' -> pl_size m = pl_size m' -> pl_stride m = pl_stride m' ->
  forall axes (x : T) i, pool_loop m x i axes = pool_loop m' x i axes.
Proof.
  intros A1 A2 A3. induction axes as [|a axes IH]; intros x i; simpl; auto. rewrite A1, A2, A3.
  destruct (nds_get (pl_size m') i) as [ks|]; simpl; auto. destruct (ks =? 0); auto.
  destruct (nds_get (pl_stride m') i); simpl; auto. destruct (axis_nat (ndim x) a); simpl; auto.
  destruct (tunfold _ _ _ _); simpl; auto. destruct (nds_get (pl_kernel m') i); simpl; auto.
  destruct (tmatvec _ _); simpl; auto.
Qed.

Lemma sep_forward_like fuel junk m m' (x : T) ax : mlike m m' ->
  snd (sep_forward fuel junk m x ax) = snd (sep_forward fuel junk m' x ax) /\
  mlike m (fst (sep_forward fuel junk m x ax)) /\
  ((exists y, snd (sep_forward fuel junk m x ax) = Ok y) ->
   fst (sep_forward fuel junk m x ax) = fst (sep_forward fuel junk m' x ax)).
Proof.
  intros M. pose proof (mlike_refl m) as R. unfold sep_forward. destruct (check_axes _ ax) as [axes|e].
  2:{ simpl. split; [auto|split; [auto|intros [y Hy]; discriminate]]. }
  assert (En : pl_ndim m' = pl_ndim m) by (destruct M as [_ [_ [_ [E _]]]]; congruence). rewrite En.
  destruct (_ || _).
  2:{ simpl. split; [auto|split; [auto|intros [y Hy]; discriminate]]. }
  destruct (pool_pad_like fuel junk m m' x (AxSeq axes) M) as [E1 [E2 E3]].
  destruct (pool_pad fuel junk m x _) as [q r]. destruct (pool_pad fuel junk m' x _) as [q' r']. simpl in *. subst r'.
  destruct r as [xp|e]; simpl.
  - specialize (E3 (ex_intro _ xp eq_refl)). subst q'. auto.
  - split; [auto|split; [auto|intros [y Hy]; discriminate]].
Qed.

Lemma avg_forward_like fuel junk cip m m' (x : T) ax : mlike m m' ->
  snd (avg_forward fuel junk cip m x ax) = snd (avg_forward fuel junk cip m' x ax) /\
  mlike m (fst (avg_forward fuel junk cip m x ax)).
Proof.
  intros M. pose proof (mlike_refl m) as R. unfold avg_forward. destruct cip.
  { destruct (sep_forward_like fuel junk m m' x ax M) as [E1 [E2 _]]. auto. }
  destruct (check_axes _ ax) as [axes|e]; [|simpl; auto].
  assert (En : pl_size m' = pl_size m) by (destruct M as [_ [E _]]; congruence). rewrite En.
  destruct (mapM _ (zrange _)) as [sizes|e]; [|simpl; auto].
  destruct (distinctb axes); [|simpl; auto].
  destruct (sep_forward_like fuel junk m m' x (AxSeq axes) M) as [E1 [E2 E3]].
  destruct (sep_forward fuel junk m x _) as [q r]. destruct (sep_forward fuel junk m' x _) as [q' r']. simpl in *. subst r'.
  destruct r as [y|e]; simpl; auto. specialize (E3 (ex_intro _ y eq_refl)). subst q'. auto.
Qed.

Lemma do_call_like (m m' : pool F) c : mlike m m' -> snd (do_call m c) = snd (do_call m' c) /\ mlike m (fst (do_call m c)).
Proof.
  intros M. destruct c; simpl.
  - destruct (sep_forward_like fuel junk m m' x ax M) as [E1 [E2 _]]. auto.
  - apply avg_forward_like. auto.
  - destruct (pool_pad_like fuel junk m m' x ax M) as [E1 [E2 _]]. auto.
Qed.
Lemma after_like (m : pool F) cs : mlike m (after m cs).
Proof.
  unfold after. revert m. induction cs as [|c cs IH]; intros m; simpl; [apply mlike_refl|].
  eapply mlike_trans; [|apply IH]. apply (do_call_like m m). apply mlike_refl.
Qed.

Theorem history_independent (m : pool F) cs c : snd (do_call (after m cs) c) = snd (do_call m c).
Proof. symmetry. apply do_call_like. apply after_like. Qed.

Lemma shared_like mods (p : padder F) h : like p (shared_after mods p h).
Proof.
  unfold shared_after. revert p. induction h as [|ic h IH]; intros p; simpl; [apply like_refl|].
  eapply like_trans; [|apply IH]. unfold shared_step. destruct (nth_error mods (fst ic)) as [m|]; [|apply like_refl].
  destruct (do_call_like (set_padder m p) (set_padder m p) (snd ic) (mlike_refl _)) as [_ [_ [_ [_ [_ H]]]]].
  simpl in H. destruct (pl_padder (fst (do_call (set_padder m p) (snd ic)))); [auto|contradiction].
Qed.
Theorem shared_history_independent mods (p : padder F) h (m : pool F) c :
  snd (do_call (set_padder m (shared_after mods p h)) c) = snd (do_call (set_padder m p) c).
Proof.
  symmetry. apply do_call_like. repeat split; simpl; apply shared_like.
Qed.
End H.
