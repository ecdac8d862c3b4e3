(** What SSIM computes without padding. *)
From Verif Require Export MsForward.
Open Scope Z_scope.

(** The SSIM of two windows with means m1, m2 and second moments e11, e22, e12; c is the sample
    covariance factor. *)
Definition ssim_at {F : ofield} (K1 K2 c m1 m2 e11 e22 e12 : F) : F :=
  fdiv (fmul (fadd (fmul two (fmul m1 m2)) (fmul K1 K1)) (fadd (fmul two (fmul c (fsub e12 (fmul m1 m2)))) (fmul K2 K2)))
       (fmul (fadd (fadd (fmul m1 m1) (fmul m2 m2)) (fmul K1 K1))
             (fadd (fadd (fmul c (fsub e11 (fmul m1 m1))) (fmul c (fsub e22 (fmul m2 m2)))) (fmul K2 K2))).

Section SV.
Variable F : ofield.
Notation T := (tensor F).

Theorem ssim_value fuel junk (s : ssim F) (x y : T) cax rax al rl kers score full : ssim_call fuel s x y cax rax al rl kers None -> rl <> [] ->
  snd (ssim_forward (sep_forward fuel junk) x y cax rax s) = Ok (score, full) ->
  let n := zprod (map klen kers) in
  let c := if ss_sample s then fdiv (fofZ n) (fofZ (n - 1)) else f1 in
  let E z j := correlation al kers (repeat 1 (length al)) z j in
  ndim full = ndim x /\
  (forall r, (r < length al)%nat -> nth (nth r al 0%nat) (shp full) 0 = nth (nth r al 0%nat) (shp x) 0 - Z.max 1 (klen (nth r kers [])) + 1) /\
  (forall d, ~ In d al -> nth d (shp full) 0 = nth d (shp x) 0) /\
  (forall j, valid (shp full) j -> at_ full j = ssim_at (ss_K1 s) (ss_K2 s) c (E x j) (E y j) (E (prodt x x) j) (E (prodt y y) j) (E (prodt x y) j)) /\
  shp score = outside rl (shp full) /\
  (forall j L, valid (shp score) j -> block_of (shp full) rl j L -> 0 < Z.of_nat (length L) /\ at_ score j = fdiv (lsum (map (at_ full) L)) (fofZ (Z.of_nat (length L)))).
Proof.
  intros SC Hr R n c E. destruct (ssim_main F fuel junk s x y cax rax al rl kers None SC) as [psh [osh [ws [c' [BF [Sc [_ M]]]]]]]. cbv zeta in M.
  destruct (scale_ok F s (length al) kers _ None (sl_blur _ _ _ _ _ _ _ _ _ _ SC) (sl_scale _ _ _ _ _ _ _ _ _ _ SC)) as [c2 [Sc1 [_ Sc3]]].
  rewrite (Sc1 (map Z.of_nat al) (map_length _ _)) in Sc. injection Sc as Sc. fold n in Sc3. fold c in Sc3. rewrite Sc3 in Sc. clear c2 Sc1 Sc3. subst c'.
  destruct M as [[score' [full' [cr [R' [Sf [V [Co [Pc M]]]]]]]]|[R' _]]; rewrite R in R'; [|discriminate]. injection R' as <- <-.
  assert (Pe : psh = shp x) by (rewrite <- (bf_psh _ _ _ _ _ _ _ _ _ _ BF x eq_refl); reflexivity).
  assert (Nf : ndim full = ndim x) by (unfold ndim; rewrite Sf; eapply (osh_len F); eauto).
  assert (Lf : forall a, In a al -> (a < ndim full)%nat) by (rewrite Nf; apply (oa_in _ _ _ (sl_content _ _ _ _ _ _ _ _ _ _ SC))).
  assert (Tc : teq full cr).
  { eapply (crop_teq F); [| | |exact Co]; [exact Lf|apply teq_refl|apply crop_of_refl; auto; apply (oa_distinct _ _ _ (sl_content _ _ _ _ _ _ _ _ _ _ SC))]. }
  split; [exact Nf|]. split; [|split; [|split; [|split]]].
  - intros r Hr'. rewrite Sf, (osh_al F _ _ _ _ _ _ _ _ _ _ BF) by auto. now rewrite Pe.
  - intros d Hd. rewrite Sf, (osh_other F _ _ _ _ _ _ _ _ _ _ BF) by auto. reflexivity.
  - intros j Vj. rewrite Sf in Vj. destruct (V j Vj) as [_ ->]. reflexivity.
  - pose proof (sl_reduce _ _ _ _ _ _ _ _ _ _ SC) as OR.
    destruct (tmean_val F cr rl false score) as [S _]; auto; [destruct Tc as [Tc _]; unfold ndim in *; rewrite <- Tc, Nf; apply (oa_in _ _ _ OR)|apply (oa_distinct _ _ _ OR)|].
    rewrite (reduced_some _ _ Hr) in S. rewrite S. f_equal. symmetry. apply Tc.
  - pose proof (sl_reduce _ _ _ _ _ _ _ _ _ _ SC) as OR. destruct Tc as [Tc Tv].
    assert (Lc : forall a, In a rl -> (a < ndim cr)%nat) by (unfold ndim in *; rewrite <- Tc, Nf; apply (oa_in _ _ _ OR)).
    destruct (tmean_ok F cr rl false Lc (oa_distinct _ _ _ OR)) as [y' [Y1 [Y2 Y3]]].
    { rewrite (reduced_some _ _ Hr). intros a Ha. assert (1 <= nth a (shp cr) 0); [|lia]. apply Pc, nth_In, Lc, Ha. }
    rewrite M in Y1. injection Y1 as <-. rewrite (reduced_some _ _ Hr) in Y2, Y3. intros j L Vj B. rewrite Tc in B.
    assert (Ll : Z.of_nat (length L) = red_count F cr rl).
    { apply (block_length (shp cr) rl j); auto; [apply (oa_distinct _ _ _ OR)|intros q Hq; specialize (Pc q Hq); lia|]. now rewrite <- Y2. }
    split.
    + rewrite Ll. apply count_pos. intros a Ha. assert (1 <= nth a (shp cr) 0); [|lia]. apply Pc, nth_In, Lc, Ha.
    + rewrite (Y3 j L B), Ll. f_equal. apply lsum_ext. intros i Hi. symmetry. apply Tv. rewrite Tc. apply (proj1 (proj2 B i) Hi).
Qed.
Theorem ssim_constructor (blur : pool F) pd pd0 K1 K2 sample crop n kers sts : built n kers sts pd0 blur ->
  exists s, ssim_init blur pd K1 K2 sample crop = Ok s /\
    built n kers (repeat 1 n) (match pd with None => pd0 | Some _ => pd end) (ss_blur s) /\
    nds_get (pl_stride (ss_blur s)) 0 = Ok 1 /\ pl_padder (ss_blur s) = (match pd with None => pd0 | Some _ => pd end) /\
    ss_K1 s = K1 /\ ss_K2 s = K2 /\ ss_sample s = sample /\ ss_crop s = crop.
Proof.
  intros B. assert (E : exists b, to_filter blur pd = Ok b /\ pl_stride b = NItem 1).
  { unfold to_filter, pool_align. destruct (pl_kernel blur) as [k|ks]; cbn; eexists; split; reflexivity. }
  destruct E as [b [E Es]]. unfold ssim_init. rewrite E. cbn [bind]. eexists. split; [reflexivity|].
  pose proof (built_filter _ _ _ _ _ _ _ B E) as B2. split; [exact B2|]. cbn [ss_blur ss_K1 ss_K2 ss_sample ss_crop].
  split; [now rewrite Es|]. split; [|auto]. destruct (built_par F _ _ _ _ _ B2) as [_ [Q _]]. exact Q.
Qed.
End SV.
