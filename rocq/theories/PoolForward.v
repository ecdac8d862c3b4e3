(** SeparablePoolNd: construction, forward without and with same padding, independence of
    earlier calls (C22, C36, C37). *)
From Verif Require Export PoolProofs.
Open Scope Z_scope.

(** The n per-axis values of a spec argument: a single item is used for every axis. *)
Definition expand {A} (n : nat) (s : nds A) : option (list A) :=
  match s with
  | NItem a => Some (repeat a n)
  | NList l => if Nat.eqb (length l) n then Some l else None
  end.
(** stride None means the kernel size *)
Definition real_stride {F : ofield} (k : list F) (s : option Z) : Z :=
  match s with None => klen k | Some s => s end.

(** A call whose axes argument denotes the distinct axes al. *)
Record on_axes {A} (x : tensor A) (ax : axes_arg) (al : list nat) : Prop := {
  oa_args : check_axes (Z.of_nat (ndim x)) ax = Ok (map Z.of_nat al);
  oa_in : forall a, In a al -> (a < ndim x)%nat;
  oa_distinct : NoDup al }.

Lemma expand_length {A} n (s : nds A) l : expand n s = Some l -> length l = n.
Proof.
  destruct s as [a|l']; simpl; intros H; [inv H; apply repeat_length|].
  destruct (Nat.eqb_spec (length l') n); inv H; auto.
Qed.
Lemma expand_get {A} n (s : nds A) l r d : expand n s = Some l -> (r < n)%nat ->
  nds_get s (Z.of_nat r) = Ok (nth r l d).
Proof.
  destruct s as [a|l']; simpl; intros H Hr.
  - inv H. rewrite nth_indep with (d' := a) by (now rewrite repeat_length). now rewrite nth_repeat.
  - destruct (Nat.eqb_spec (length l') n); inv H. rewrite pyidx_nonneg with (d := d) by lia. now rewrite Nat2Z.id.
Qed.
Lemma expand_ishape {A} n (s : nds A) l : expand n s = Some l ->
  nds_ishape s = None \/ nds_ishape s = Some (Z.of_nat n).
Proof.
  destruct s as [a|l']; simpl; intros H; auto. destruct (Nat.eqb_spec (length l') n); inv H; auto.
Qed.
Lemma expand_map {A B} (f : A -> B) n s : 
  expand n (match s with NItem a => NItem (f a) | NList l => NList (map f l) end) =
  option_map (map f) (expand n s).
Proof.
  destruct s as [a|l]; simpl.
  - f_equal. induction n; simpl; congruence.
  - rewrite map_length. destruct (Nat.eqb (length l) n); auto.
Qed.

Lemma agg_all_same n (l : list (option Z)) : (forall o, In o l -> o = None \/ o = Some n) ->
  agg_shapes l = [] /\ (forall o, In o l -> o = None) \/ agg_shapes l = [n] /\ In (Some n) l.
Proof.
  induction l as [|o l IH]; intros H; [left; split; auto; intros ? []|].
  destruct IH as [[E1 E2]|[E1 E2]]; [intros o' Ho'; apply H; now right| |].
  - destruct (H o (or_introl eq_refl)) as [->| ->]; simpl; rewrite E1.
    + left. split; auto. intros o' [<-|Ho']; auto.
    + right. simpl. auto.
  - destruct (H o (or_introl eq_refl)) as [->| ->]; simpl; rewrite E1.
    + right. auto.
    + right. simpl. rewrite Z.eqb_refl. auto.
Qed.

Section PF.
Variable F : ofield.
Add Field Fpf : (f_field F).
Notation T := (tensor F).

Lemma mapM_pure {A B} (f : A -> B) l : mapM (fun a => Ok (f a)) l = Ok (map f l).
Proof. apply mapM_ok. auto. Qed.

Lemma nds_apply2_expand {A B D} (f : A -> B -> D) n (a : nds A) (b : nds B) la lb (da : A) (db : B) :
  expand n a = Some la -> expand n b = Some lb ->
  exists c, nds_apply2 (fun x y => Ok (f x y)) a b = Ok c /\ expand n c = Some (map2 f la lb) /\
    (nds_ishape a = None /\ nds_ishape b = None /\ nds_ishape c = None \/ nds_ishape c = Some (Z.of_nat n)).
Proof.
  intros Ha Hb. unfold nds_apply2, agg_index_shape.
  destruct (agg_all_same (Z.of_nat n) [nds_ishape a; nds_ishape b]) as [[E1 E2]|[E1 E2]].
  { intros o [<-|[<-|[]]]; eapply expand_ishape; eauto. }
  - rewrite E1. cbn [bind]. destruct a as [xa|]; [|exfalso; specialize (E2 _ (or_introl eq_refl)); discriminate].
    destruct b as [xb|]; [|exfalso; specialize (E2 _ (or_intror (or_introl eq_refl))); discriminate].
    cbn [nds_get bind]. exists (NItem (f xa xb)). split; auto. simpl in Ha, Hb. inv Ha. inv Hb. split; [|left; auto].
    simpl. f_equal. clear. induction n; simpl; congruence.
  - rewrite E1. cbn [bind].
    rewrite mapM_ok with (g := fun i => f (nth (Z.to_nat i) la da) (nth (Z.to_nat i) lb db)).
    + cbn [bind]. eexists. split; [reflexivity|]. cbn [expand nds_ishape]. rewrite map_length, zrange_length, Nat2Z.id, Nat.eqb_refl.
      split; auto. f_equal. apply list_ext with (d := f da db).
      * rewrite map_length, zrange_length, Nat2Z.id, map2_length, (expand_length _ _ _ Ha), (expand_length _ _ _ Hb). lia.
      * rewrite map_length, zrange_length, Nat2Z.id. intros r Hr.
        rewrite nth_indep with (d' := (fun i => f (nth (Z.to_nat i) la da) (nth (Z.to_nat i) lb db)) 0)
          by (rewrite map_length, zrange_length; lia).
        rewrite (map_nth (fun i => f (nth (Z.to_nat i) la da) (nth (Z.to_nat i) lb db))), nth_zrange, Nat2Z.id by lia.
        rewrite nth_map2 with (da := da) (db := db); auto;
        [rewrite (expand_length _ _ _ Ha)|rewrite (expand_length _ _ _ Hb)]; lia.
    + intros i Hi. apply In_zrange in Hi. rewrite <- (Z2Nat.id i) by lia.
      rewrite (expand_get n a la _ da Ha) by lia. cbn [bind]. rewrite (expand_get n b lb _ db Hb) by lia. cbn [bind].
      now rewrite Nat2Z.id.
Qed.

(** *** construction *)
Theorem sep_init_ok n (kernel : nds (list F)) stride pd kers sts :
  expand n kernel = Some kers -> expand n stride = Some sts ->
  (forall s, In (Some s) sts -> 1 <= s) ->
  (forall s, stride = NItem (Some s) -> 1 <= s) ->
  exists m, sep_init kernel stride pd = Ok m /\ pl_kernel m = kernel /\ pl_size m = len_spec kernel /\
    pl_padder m = pd /\ expand n (pl_stride m) = Some (map2 real_stride kers sts) /\
    (pl_ndim m = 0 \/ pl_ndim m = Z.of_nat n).
Proof.
  intros Hk Hs Hpos Hpos1. unfold sep_init, read_stride.
  assert (E1 : nds_map check_stride stride = Ok stride).
  { destruct stride as [s|l]; simpl.
    - destruct s as [s|]; simpl; auto. specialize (Hpos1 s eq_refl). destruct (Z.ltb_spec s 1); [lia|]. auto.
    - rewrite mapM_ok with (g := fun a => a); [now rewrite map_id|]. intros [s|] Hin; auto. simpl in Hs.
      destruct (Nat.eqb (length l) n); inv Hs. specialize (Hpos s Hin). simpl. destruct (Z.ltb_spec s 1); [lia|]. auto. }
  rewrite E1. cbn [bind].
  assert (Hlen : expand n (len_spec kernel) = Some (map klen kers)).
  { pose proof (expand_map (@klen F) n kernel) as E. rewrite Hk in E. exact E. }
  destruct (nds_apply2_expand (fun s ks => match s with None => ks | Some s => s end) n stride (len_spec kernel) sts (map klen kers)
     None 0 Hs Hlen) as [c [Ec [Hc Hi]]].
  assert (Ef : nds_apply2 (fun s ks => Ok match s with None => ks | Some s0 => s0 end) stride (len_spec kernel) = Ok c) by exact Ec.
  rewrite Ef. cbn [bind]. unfold pool_align, agg_index_len, agg_index_shape.
  assert (Hc2 : expand n c = Some (map2 real_stride kers sts)).
  { rewrite Hc. f_equal. clear. revert sts. induction kers as [|k kers IH]; intros [|s sts]; simpl; auto. now rewrite IH. }
  destruct (agg_all_same (Z.of_nat n) [nds_ishape kernel; nds_ishape c]) as [[A1 A2]|[A1 A2]].
  { intros o [<-|[<-|[]]]; eapply expand_ishape; eauto. }
  - rewrite A1. cbn [bind]. eexists. split; [reflexivity|]. cbn. repeat split; auto.
  - rewrite A1. cbn [bind]. eexists. split; [reflexivity|]. cbn. repeat split; auto.
Qed.

(** *** forward without padder *)
Lemma check_axes_seq_nat nd al : (forall a, In a al -> (a < nd)%nat) ->
  check_axes (Z.of_nat nd) (AxSeq (map Z.of_nat al)) = Ok (map Z.of_nat al).
Proof.
  intros H. unfold check_axes.
  assert (E : map (fun a => if 0 <=? a then a else Z.of_nat nd + a) (map Z.of_nat al) = map Z.of_nat al).
  { rewrite map_map. apply map_ext. intros a. destruct (Z.leb_spec 0 (Z.of_nat a)); lia. }
  rewrite E. rewrite (proj2 (forallb_forall _ _)); auto. intros z Hz. apply in_map_iff in Hz. destruct Hz as [a [<- Ha]].
  specialize (H a Ha). apply andb_true_iff. split; apply Z.leb_le; lia.
Qed.

Definition pool_par (m : pool F) (n : nat) (kers : list (list F)) (sts : list Z) : Prop :=
  length kers = n /\ length sts = n /\ (pl_ndim m = 0 \/ pl_ndim m = Z.of_nat n) /\
  forall r, (r < n)%nat -> nds_get (pl_size m) (Z.of_nat r) = Ok (klen (nth r kers [])) /\
     nds_get (pl_kernel m) (Z.of_nat r) = Ok (nth r kers []) /\ nds_get (pl_stride m) (Z.of_nat r) = Ok (nth r sts 1) /\
     (nth r kers [] <> [] -> 1 <= nth r sts 1).

Lemma sep_init_par n (kernel : nds (list F)) stride pd kers sts m :
  expand n kernel = Some kers -> expand n stride = Some sts ->
  sep_init kernel stride pd = Ok m -> pool_par m n kers (map2 real_stride kers sts) /\ pl_padder m = pd /\
   expand n (pl_size m) = Some (map klen kers) /\ expand n (pl_stride m) = Some (map2 real_stride kers sts) /\
   (forall s, In (Some s) sts -> 1 <= s).
Proof.
  intros Hk Hs Hm.
  assert (Hp : (forall s, In (Some s) sts -> 1 <= s) /\ (forall s, stride = NItem (Some s) -> 1 <= s)).
  { unfold sep_init, read_stride in Hm. destruct (nds_map check_stride stride) as [st'|] eqn:E; [|discriminate].
    clear Hm. destruct stride as [o|l]; simpl in E, Hs.
    - inv Hs. assert (P : forall s, o = Some s -> 1 <= s).
      { intros s ->. simpl in E. destruct (Z.ltb_spec s 1); [discriminate|]. lia. }
      split; intros s H; [apply repeat_spec in H; auto|injection H as H; auto].
    - split; [|discriminate]. intros s Hin. destruct (Nat.eqb (length l) n); inv Hs.
      destruct (mapM check_stride sts) as [q|] eqn:E2; [|discriminate].
      apply In_nth with (d := None) in Hin. destruct Hin as [r [Hr Er]].
      pose proof (mapM_nth _ _ _ r None None E2 Hr) as E3. rewrite Er in E3. simpl in E3.
      destruct (Z.ltb_spec s 1); [discriminate|]. lia. }
  destruct Hp as [Hp Hp1].
  destruct (sep_init_ok n kernel stride pd kers sts) as [m' [E [M1 [M2 [M3 [M4 M5]]]]]]; auto.
  rewrite E in Hm. inv Hm.
  assert (Hlen : expand n (len_spec (pl_kernel m)) = Some (map klen kers)).
  { pose proof (expand_map (@klen F) n (pl_kernel m)) as Q. rewrite Hk in Q. exact Q. }
  rewrite M2. split; [|repeat split; auto].
  pose proof (expand_length _ _ _ Hk) as Lk. pose proof (expand_length _ _ _ Hs) as Ls.
  split; auto. split; [now rewrite map2_length, Lk, Ls, Nat.min_id|]. split; auto. intros r Hr.
  split; [|split; [|split]].
  - rewrite M2. rewrite (expand_get n _ _ r (klen (@nil F)) Hlen) by auto. now rewrite map_nth.
  - apply expand_get with (n := n); auto.
  - apply expand_get with (n := n); auto.
  - intros Hne. rewrite nth_map2 with (da := []) (db := None) by lia.
    unfold real_stride. destruct (nth r sts None) as [s|] eqn:E2.
    + apply Hp. rewrite <- E2. apply nth_In. lia.
    + unfold klen. destruct (nth r kers []); [congruence|]. simpl length. lia.
Qed.

Theorem sep_forward_valid fuel junk (m : pool F) (x : T) ax al kers sts : on_axes x ax al ->
  pool_par m (length al) kers sts -> pl_padder m = None ->
  (forall r, (r < length al)%nat -> klen (nth r kers []) <= nth (nth r al 0%nat) (shp x) 0) ->
  exists y, sep_forward fuel junk m x ax = (m, Ok y) /\
    teq y (correlate al (map eff_kernel kers) (map2 eff_stride kers sts) x).
Proof.
  intros [A1 A2 A3] [P1 [P2 [P3 P4]]] Hp Hw. unfold sep_forward. rewrite A1. cbn match.
  rewrite map_length.
  assert (E : (pl_ndim m =? 0) || (pl_ndim m =? Z.of_nat (length al)) = true).
  { apply orb_true_iff. destruct P3 as [->| ->]; [left|right]; apply Z.eqb_refl. }
  rewrite E. unfold pool_pad. rewrite check_axes_seq_nat by auto. rewrite Hp. cbn [bind].
  destruct (pool_loop_ok F m al 0 x kers sts) as [y [Y1 Y2]]; auto.
  { intros r Hr. destruct (P4 r Hr) as [Q1 [Q2 [Q3 Q4]]]. split; auto. split; auto. }
  exists y. rewrite Y1. auto.
Qed.

(** A window larger than the axis raises RuntimeError (torch.unfold). *)
Lemma pool_loop_too_large (m : pool F) : forall al i (x : T) kers sts, NoDup al ->
  (forall a, In a al -> (a < ndim x)%nat) -> length kers = length al -> length sts = length al ->
  (forall r, (r < length al)%nat -> step_ok F m (i + Z.of_nat r) (nth r kers []) (nth r sts 1)) ->
  (exists r, (r < length al)%nat /\ nth r kers [] <> [] /\ nth (nth r al 0%nat) (shp x) 0 < klen (nth r kers [])) ->
  pool_loop m x i (map Z.of_nat al) = Err RuntimeError.
Proof.
  induction al as [|a al IH]; intros i x kers sts Hn Hl Hk Hs H [r [Hr [Hne Hlt]]]; [simpl in Hr; lia|].
  destruct kers as [|k kers]; [discriminate|]. destruct sts as [|s sts]; [discriminate|].
  simpl in Hk, Hs. inv Hn. destruct (H 0%nat ltac:(simpl; lia)) as [G1 G2]. simpl nth in G1, G2.
  replace (i + Z.of_nat 0) with i in * by lia.
  assert (Hrec : forall r, (r < length al)%nat -> step_ok F m (i + 1 + Z.of_nat r) (nth r kers []) (nth r sts 1)).
  { intros q Hq. pose proof (H (S q) ltac:(simpl; lia)) as Q1. simpl nth in Q1.
    replace (i + Z.of_nat (S q)) with (i + 1 + Z.of_nat q) in Q1 by lia. auto. }
  cbn [map pool_loop]. rewrite G1. cbn [bind].
  destruct (Z.eqb_spec (klen k) 0) as [E0|E0].
  - assert (k = []) by (unfold klen in E0; destruct k; auto; simpl in E0; lia). subst k.
    destruct r as [|r]; [simpl in Hne; congruence|].
    apply (IH (i + 1) x kers sts); auto; try lia. { intros b Hb. apply Hl; now right. }
    exists r. simpl in Hr, Hne, Hlt. split; [lia|]. auto.
  - assert (Hk0 : k <> []) by (intros ->; apply E0; reflexivity).
    destruct (G2 Hk0) as [K1 [K2 K3]]. rewrite K2. cbn [bind]. rewrite axis_nat_ok by (apply Hl; now left). cbn [bind].
    destruct (Z_lt_le_dec (nth a (shp x) 0) (klen k)) as [L|L].
    + unfold tunfold, dimlen. destruct (Z.leb_spec (klen k) (nth a (shp x) 0)); [lia|].
      rewrite andb_false_r. reflexivity.
    + destruct (tunfold_matvec F x a k s) as [u [x' [U1 [U2 [U3 U4]]]]]; auto; [apply Hl; now left|].
      rewrite U1. cbn [bind]. rewrite K1. cbn [bind]. rewrite U2. cbn [bind].
      destruct r as [|r]; [simpl in Hlt; lia|]. simpl in Hr, Hne, Hlt.
      assert (Nx : ndim x' = ndim x) by (unfold ndim; rewrite U3; apply upd_length).
      apply (IH (i + 1) x' kers sts); auto; try lia. { intros b Hb. rewrite Nx. apply Hl; now right. }
      exists r. split; [lia|]. split; auto. rewrite U3. rewrite nth_upd_ne; auto. intros ->. apply H2. apply nth_In. lia.
Qed.
Theorem sep_forward_too_large fuel junk (m : pool F) (x : T) ax al kers sts : on_axes x ax al ->
  pool_par m (length al) kers sts -> pl_padder m = None ->
  (exists r, (r < length al)%nat /\ nth r kers [] <> [] /\ nth (nth r al 0%nat) (shp x) 0 < klen (nth r kers [])) ->
  sep_forward fuel junk m x ax = (m, Err RuntimeError).
Proof.
  intros [A1 A2 A3] [P1 [P2 [P3 P4]]] Hp Hw. unfold sep_forward. rewrite A1. cbn match.
  rewrite map_length.
  assert (E : (pl_ndim m =? 0) || (pl_ndim m =? Z.of_nat (length al)) = true).
  { apply orb_true_iff. destruct P3 as [->| ->]; [left|right]; apply Z.eqb_refl. }
  rewrite E. unfold pool_pad. rewrite check_axes_seq_nat by auto. rewrite Hp. cbn [bind].
  rewrite (pool_loop_too_large m al 0 x kers sts); auto.
  intros r Hr. destruct (P4 r Hr) as [Q1 [Q2 [Q3 Q4]]]. split; auto.
Qed.
End PF.
