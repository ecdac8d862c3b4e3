(** Averaging filters bring images closer together: in the sum of squares (mse) and in the sum of absolute values. *)
From Verif Require Export FilterAdjoint SsimBlur MseProofs EdgeLossProofs.
Open Scope Z_scope.
Section BC.
Variable F : ofield.
Notation T := (tensor F).
Add Field Fbc : (f_field F).

Lemma bsum_abs ns (w v : list Z -> F) : (forall o, valid ns o -> fle f0 (w o)) ->
  fle (fabs (bsum ns (fun o => fmul (w o) (v o)))) (bsum ns (fun o => fmul (w o) (fabs (v o)))).
Proof.
  intros Hw. destruct (fabs_cases F (bsum ns (fun o => fmul (w o) (v o)))) as [[_ ->]|[_ ->]].
  - apply bsum_le. intros o Vo. apply fmul_le_l; auto. apply fabs_le.
  - replace (fopp (bsum ns (fun o => fmul (w o) (v o)))) with (bsum ns (fun o => fmul (w o) (fopp (v o)))).
    + apply bsum_le. intros o Vo. apply fmul_le_l; auto. apply fabs_le.
    + rewrite (bsum_ext F ns _ (fun o => fmul (fopp f1) (fmul (w o) (v o)))) by (intros; ring). rewrite bsum_mul. ring.
Qed.
Lemma bsum_sub ns (f g : list Z -> F) : bsum ns (fun o => fsub (f o) (g o)) = fsub (bsum ns f) (bsum ns g).
Proof. rewrite (bsum_ext F ns _ (fun o => fadd (f o) (fmul (fopp f1) (g o)))) by (intros; ring). rewrite bsum_add, bsum_mul. ring. Qed.
Lemma window_gain kers : window F kers -> fprod (map gain kers) = @f1 F.
Proof.
  induction kers as [|k kers IH]; intros W; [reflexivity|]. cbn [map fprod fold_right]. change (fold_right fmul f1 (map gain kers)) with (fprod (map (@gain F) kers)).
  rewrite IH by (intros k' Hk'; apply W; now right). destruct (W k (or_introl eq_refl)) as [[-> |E] _]; [cbn; ring|].
  rewrite <- (gain_eff F k). destruct k as [|e k]; [cbn; ring|]. cbn [eff_kernel]. rewrite E. ring.
Qed.

Theorem blur_contract fuel junk fuel' junk' (f : pool F) (x y : T) ax al kers p ms :
  built (length al) kers (repeat 1 (length al)) (Some p) f ->
  same_call F fuel p x ax al ms kers (repeat 1 (length al)) -> same_call F fuel' p y ax al ms kers (repeat 1 (length al)) -> shp y = shp x ->
  adjoint_axes F al ms kers \/ ms = repeat MCircular (length al) -> window F kers ->
  exists u v, snd (sep_forward fuel junk f x ax) = Ok u /\ snd (sep_forward fuel' junk' f y ax) = Ok v /\ shp u = shp x /\ shp v = shp x /\
    fle (bsum (shp x) (fun i => sq F (fsub (at_ u i) (at_ v i)))) (bsum (shp x) (fun i => sq F (fsub (at_ x i) (at_ y i)))) /\
    fle (bsum (shp x) (fun i => fabs (fsub (at_ u i) (at_ v i)))) (bsum (shp x) (fun i => fabs (fsub (at_ x i) (at_ y i)))).
Proof.
  intros B C C' S A W. destruct (built_strides F _ _ _ _ _ B) as [K1 _]. pose proof C as [[O1 O2 O3] N0 P0 P1 _ PF _ _]. unfold ndim in *.
  assert (Lm : length ms = length al) by (apply (expand_length _ _ _ (pf_mode _ _ _ PF))).
  assert (Cm : forall m, In m ms -> copying m).
  { intros m H. destruct A as [A| ->]; [|apply repeat_spec in H; subst; unfold copying; tauto].
    destruct (In_nth ms m MUnknown H) as [r [Hr <-]]. destruct (A r ltac:(lia)) as [_ [-> |[-> _]]]; unfold copying; tauto. }
  destruct (filter_copying F fuel junk f x ax al kers p ms B C Cm) as [u [U1 [U2 U3]]].
  destruct (filter_copying F fuel' junk' f y ax al kers p ms B C' Cm) as [v [V1 [V2 V3]]]. rewrite S in *.
  exists u, v. do 4 (split; auto).
  set (ek := map eff_kernel kers) in *. set (ks := map klen ek) in *. set (d := fun i => fsub (at_ x i) (at_ y i)).
  assert (D : forall j, valid (shp x) j -> fsub (at_ u j) (at_ v j) = bsum ks (fun o => fmul (weight ek o) (d (look al ms ks (shp x) j o)))).
  { intros j Vj. rewrite U3, V3 by auto. rewrite <- bsum_sub. apply bsum_ext. intros o Vo. unfold d. ring. }
  assert (Wn : forall o, valid ks o -> fle f0 (weight ek o)) by (intros o Vo; now apply (wt_nonneg F kers W)).
  assert (W1 : bsum ks (weight ek) = f1) by apply (wt_sum F kers W).
  assert (TT : forall h : list Z -> F, bsum (shp x) (fun j => bsum ks (fun o => fmul (weight ek o) (h (look al ms ks (shp x) j o)))) = bsum (shp x) h).
  { intros h. unfold ks, ek. rewrite (look_total F al ms kers (shp x) h); auto; try lia. rewrite window_gain by auto. ring. }
  split.
  - change (fun i => sq F (fsub (at_ x i) (at_ y i))) with (fun i => sq F (d i)). rewrite <- (TT (fun i => sq F (d i))). apply bsum_le. intros j Vj. rewrite D by auto. unfold sq. now apply bsum_square.
  - change (fun i => fabs (fsub (at_ x i) (at_ y i))) with (fun i => fabs (d i)). rewrite <- (TT (fun i => fabs (d i))). apply bsum_le. intros j Vj. rewrite D by auto. now apply bsum_abs.
Qed.

(** The scores. *)
Lemma all_block s : block_of s (seq 0 (length s)) [] (tindices s).
Proof.
  split; [apply NoDup_tindices|]. intros i. rewrite In_tindices. split; [|tauto]. intros V. split; auto. unfold outside. rewrite (valid_length _ _ V).
  replace (filter (fun d => negb (existsb (Nat.eqb d) (seq 0 (length s)))) (seq 0 (length s))) with (@nil nat); [reflexivity|].
  symmetry. apply filter_none. intros d Hd. apply negb_false_iff, existsb_exists. exists d. split; auto. apply Nat.eqb_refl.
Qed.
Lemma mse_all (a b : T) : shp a = shp b -> (forall n, In n (shp a) -> 1 <= n) ->
  exists z, mse_forward RMean a b AxNone = Ok z /\ shp z = [] /\
    at_ z [] = fdiv (bsum (shp a) (fun i => sq F (fsub (at_ a i) (at_ b i)))) (fofZ (zprod (shp a))).
Proof.
  intros H P. assert (R : reduced (ndim a) (seq 0 (ndim a)) = seq 0 (ndim a)) by (unfold reduced; destruct (ndim a); reflexivity).
  assert (OA : on_axes a AxNone (seq 0 (ndim a))).
  { split; [cbn [check_axes]; now rewrite zrange_seq|intros d Hd; apply in_seq in Hd; lia|apply seq_NoDup]. }
  destruct (mse_mean F a b AxNone _ OA H) as [z [Z1 [Z2 Z3]]].
  { intros d Hd. rewrite R in Hd. apply in_seq in Hd. assert (I : In (nth d (shp a) 0) (shp a)) by (apply nth_In; unfold ndim in *; lia). specialize (P _ I). lia. }
  rewrite R in *. exists z. split; auto. pose proof (all_block (shp a)) as AB. unfold ndim in *. split.
  - rewrite Z2. unfold outside. rewrite filter_none; [reflexivity|]. intros d Hd. apply negb_false_iff, existsb_exists. exists d. split; auto. apply Nat.eqb_refl.
  - rewrite (Z3 _ _ AB), bsum_lsum. f_equal. f_equal. f_equal. apply list_ext with (d := 0); rewrite map_length, seq_length; auto.
    intros k Hk. rewrite (nth_indep _ 0 (nth 0%nat (shp a) 0)) by (now rewrite map_length, seq_length).
    rewrite (map_nth (fun d => nth d (shp a) 0)). now rewrite seq_nth.
Qed.
Theorem mse_blur fuel junk fuel' junk' (f : pool F) (x y : T) ax al kers p ms :
  built (length al) kers (repeat 1 (length al)) (Some p) f ->
  same_call F fuel p x ax al ms kers (repeat 1 (length al)) -> same_call F fuel' p y ax al ms kers (repeat 1 (length al)) -> shp y = shp x ->
  (forall n, In n (shp x) -> 1 <= n) ->
  adjoint_axes F al ms kers \/ ms = repeat MCircular (length al) -> window F kers ->
  exists u v s t, snd (sep_forward fuel junk f x ax) = Ok u /\ snd (sep_forward fuel' junk' f y ax) = Ok v /\
    mse_forward RMean u v AxNone = Ok s /\ mse_forward RMean x y AxNone = Ok t /\ shp s = [] /\ shp t = [] /\ fle (at_ s []) (at_ t []).
Proof.
  intros B C C' S P A W. destruct (blur_contract fuel junk fuel' junk' f x y ax al kers p ms B C C' S A W) as [u [v [U1 [V1 [U2 [V2 [L _]]]]]]].
  destruct (mse_all u v) as [s [S1 [S2 S3]]]; [congruence|now rewrite U2|]. destruct (mse_all x y) as [t [T1 [T2 T3]]]; auto.
  exists u, v, s, t. do 6 (split; auto). rewrite S3, T3, U2, !(Fdiv_def (f_field F)).
  match goal with |- fle (fmul ?p ?q) (fmul ?r _) => replace (fmul p q) with (fmul q p) by ring; replace (fmul r q) with (fmul q r) by ring end.
  apply fmul_le_l; auto. apply flt_fle, finv_pos, fofZ_pos. pose proof (zprod_pos1 _ P). lia.
Qed.
End BC.
