(** any_conv_1d is a strided, dilated correlation along one axis (C43). *)
From Verif Require Export EdgeModel OuterProofs PoolProofs.
From Verif Require Import IndexLemmas.
Open Scope Z_scope.

Lemma zprod_cons a l : zprod (a :: l) = a * zprod l. Proof. reflexivity. Qed.
Lemma zprod_nil : zprod [] = 1. Proof. reflexivity. Qed.
Ltac zp := cbn [ravel]; rewrite ?zprod_cons, ?zprod_nil.
Lemma ravel_app s : forall i t j, length i = length s -> ravel (s ++ t) (i ++ j) = ravel s i * zprod t + ravel t j.
Proof.
  induction s as [|n s IH]; intros [|k i] t j H; try discriminate; simpl; [lia|].
  rewrite IH by (simpl in H; lia). rewrite zprod_app. ring.
Qed.
Lemma treshape_ravel {A} (t : tensor A) s s' : infer_shape (zprod (shp t)) s = Ok s' ->
  exists u, treshape t s = Ok u /\ shp u = s' /\
    forall i' i, valid (shp t) i -> ravel s' i' = ravel (shp t) i -> at_ u i' = at_ t i.
Proof.
  intros H. unfold treshape. rewrite H. cbn [bind]. eexists. split; [reflexivity|]. split; [reflexivity|].
  intros i' i Hv E. cbn [at_]. rewrite E, unravel_ravel; auto.
Qed.
Lemma filter_pos l : (forall n, In n l -> 1 <= n) -> filter (fun n => negb (n =? -1)) l = l /\ filter (fun n => n =? -1) l = [] /\
  forallb (fun n => -1 <=? n) l = true /\ 0 < zprod l.
Proof.
  induction l as [|n l IH]; intros H; [simpl; repeat split; lia|].
  destruct IH as [A [B [C D]]]; [intros; apply H; now right|]. assert (1 <= n) by (apply H; now left).
  simpl. destruct (Z.eqb_spec n (-1)); [lia|]. simpl. rewrite A, B, C. repeat split.
  - destruct (Z.leb_spec (-1) n); auto; lia.
  - nia.
Qed.
Lemma infer_one a b m : (forall n, In n a -> 1 <= n) -> (forall n, In n b -> 1 <= n) -> 
  infer_shape (zprod a * m * zprod b) (a ++ -1 :: b) = Ok (a ++ m :: b).
Proof.
  intros Ha Hb. destruct (filter_pos a Ha) as [A1 [A2 [A3 A4]]]. destruct (filter_pos b Hb) as [B1 [B2 [B3 B4]]].
  unfold infer_shape. rewrite forallb_app. cbn [forallb]. rewrite A3, B3. change (-1 <=? -1) with true. cbn [negb andb].
  rewrite !filter_app. cbn [filter]. change (-1 =? -1) with true. cbn [negb]. rewrite A1, A2, B1, B2. cbn [app].
  rewrite zprod_app. destruct (Z.eqb_spec (zprod a * zprod b) 0); [nia|].
  replace (zprod a * m * zprod b) with (m * (zprod a * zprod b)) by ring.
  rewrite Z_mod_mult, Z_div_mult_full by lia. change (0 =? 0) with true. f_equal. rewrite map_app. cbn [map]. change (-1 =? -1) with true.
  assert (E : forall l, (forall n, In n l -> 1 <= n) -> map (fun n => if n =? -1 then m else n) l = l).
  { intros l Hl. rewrite <- (map_id l) at 2. apply map_ext_in. intros k Hk. specialize (Hl k Hk). destruct (Z.eqb_spec k (-1)); lia. }
  rewrite (E a Ha), (E b Hb). reflexivity.
Qed.

Definition ok_or_runtime {A} (r : res A) : Prop := (exists a, r = Ok a) \/ r = Err RuntimeError.
Lemma infer_cases n s : ok_or_runtime (infer_shape n s).
Proof.
  unfold infer_shape, ok_or_runtime. destruct (negb _); auto. destruct (filter _ s) as [|? [|? ?]]; auto.
  - destruct (_ =? _); eauto.
  - destruct (_ =? _); auto. destruct (_ =? _); eauto.
Qed.
Lemma treshape_cases {A} (t : tensor A) s : ok_or_runtime (treshape t s).
Proof. unfold treshape. destruct (infer_cases (zprod (shp t)) s) as [[s' ->]| ->]; cbn [bind]; [left; eauto|now right]. Qed.

Section C.
Variable F : ofield.
Notation T := (tensor F).

Lemma conv_fits_iff n k s d : conv_fits n k s d = true <-> 1 <= s /\ 1 <= d /\ 1 <= k /\ d * (k - 1) + 1 <= n.
Proof. unfold conv_fits. rewrite !andb_true_iff, !Z.leb_le. tauto. Qed.
Lemma conv_pos n k s d j q : 1 <= s -> 1 <= d -> 1 <= k -> d * (k - 1) + 1 <= n -> 0 <= q < k ->
  0 <= j < conv_len n k s d -> 0 <= j * s + q * d < n.
Proof.
  unfold conv_len. intros Hs Hd Hk Hn Hq Hj.
  assert (j <= (n - d * (k - 1) - 1) / s) by lia.
  assert (j * s <= n - d * (k - 1) - 1) by (pose proof (Z.mul_div_le (n - d * (k - 1) - 1) s ltac:(lia)); nia). nia.
Qed.
Lemma conv_len_pos n k s d : 1 <= s -> d * (k - 1) + 1 <= n -> 1 <= conv_len n k s d.
Proof. unfold conv_len. intros. pose proof (Z.div_pos (n - d * (k - 1) - 1) s). lia. Qed.

Definition axis_arg (nd : nat) (dim : Z) (a : nat) : Prop :=
  (a < nd)%nat /\ (dim = Z.of_nat a \/ dim = Z.of_nat a - Z.of_nat nd).
Lemma axis_arg_nat nd dim a : axis_arg nd dim a -> axis_nat nd dim = Ok a.
Proof.
  intros [H1 H2]. unfold axis_nat. destruct (Z.ltb_spec dim 0).
  - replace (dim + Z.of_nat nd) with (Z.of_nat a) by lia.
    destruct (Z.leb_spec 0 (Z.of_nat a)); [|lia]. destruct (Z.ltb_spec (Z.of_nat a) (Z.of_nat nd)); [|lia]. cbn. now rewrite Nat2Z.id.
  - replace dim with (Z.of_nat a) by lia.
    destruct (Z.leb_spec 0 (Z.of_nat a)); [|lia]. destruct (Z.ltb_spec (Z.of_nat a) (Z.of_nat nd)); [|lia]. cbn. now rewrite Nat2Z.id.
Qed.
Lemma axis_arg_idx {A} (l : list A) dim a d : axis_arg (length l) dim a -> pyidx l dim = Ok (nth a l d).
Proof.
  intros [H1 H2]. destruct (Z_lt_le_dec dim 0).
  - rewrite (pyidx_neg l dim d) by lia. do 2 f_equal. lia.
  - rewrite (pyidx_nonneg l dim d) by lia. do 2 f_equal. lia.
Qed.
Lemma axis_arg_clamp nd dim a : axis_arg nd dim a -> Z.to_nat (clampi (Z.of_nat nd) dim) = a.
Proof. intros [H1 H2]. unfold clampi. destruct (Z.ltb_spec dim 0); lia. Qed.

(** Split of a shape at an axis. *)
Lemma split_at (l : list Z) a : (a < length l)%nat -> l = firstn a l ++ nth a l 0 :: skipn (S a) l.
Proof.
  revert a. induction l as [|x l IH]; intros [|a] H; simpl in *; try lia; auto. f_equal. apply IH. lia.
Qed.
Lemma upd_split (l : list Z) a v : (a < length l)%nat -> upd a v l = firstn a l ++ v :: skipn (S a) l.
Proof.
  revert a. induction l as [|x l IH]; intros [|a] H; simpl in *; try lia; auto. f_equal. apply IH. lia.
Qed.

(** The same, with the two reshapes and the kernel made explicit. *)
Lemma any_conv_eq (x w : T) dim a stride dilation k : axis_arg (ndim x) dim a -> (forall n, In n (shp x) -> 1 <= n) ->
  shp w = [k] -> 1 <= k ->
  exists x' w',
    any_conv_1d x w dim stride dilation =
      (y <- (if Nat.eqb (S a) (ndim x) then conv1d_one x' w' stride dilation else conv2d_one x' w' stride dilation) ;;
       treshape y (upd a (-1) (shp x))) /\
    (S a = ndim x -> shp x' = [zprod (firstn a (shp x)); 1; nth a (shp x) 0] /\ shp w' = [1; 1; k] /\
       (forall q, 0 <= q < k -> at_ w' [0; 0; q] = at_ w [q]) /\
       forall i c, valid (firstn a (shp x)) i -> 0 <= c < nth a (shp x) 0 ->
         at_ x' [ravel (firstn a (shp x)) i; 0; c] = at_ x (i ++ [c])) /\
    (S a <> ndim x -> shp x' = [zprod (firstn a (shp x)); 1; nth a (shp x) 0; zprod (skipn (S a) (shp x))] /\ shp w' = [1; 1; k; 1] /\
       (forall q, 0 <= q < k -> at_ w' [0; 0; q; 0] = at_ w [q]) /\
       forall i c p, valid (firstn a (shp x)) i -> 0 <= c < nth a (shp x) 0 -> valid (skipn (S a) (shp x)) p ->
         at_ x' [ravel (firstn a (shp x)) i; 0; c; ravel (skipn (S a) (shp x)) p] = at_ x (i ++ c :: p)).
Proof.
  intros Ha Hpos Hw Hk. pose proof (split_at (shp x) a (proj1 Ha)) as Hs. unfold any_conv_1d.
  rewrite (axis_arg_nat _ _ _ Ha). cbn [bind].
  set (P := zprod (firstn a (shp x))) in *. set (n := nth a (shp x) 0) in *.
  set (pre := firstn a (shp x)) in *. set (post := skipn (S a) (shp x)) in *.
  assert (Lpre : length pre = a) by (unfold pre; rewrite firstn_length; destruct Ha; unfold ndim in *; lia).
  assert (Hpre : forall m, In m pre -> 1 <= m) by (intros m Hm; apply Hpos; rewrite Hs; apply in_or_app; auto).
  assert (Hn : 1 <= n) by (apply Hpos; rewrite Hs; apply in_or_app; right; now left).
  assert (Hpost : forall m, In m post -> 1 <= m) by (intros m Hm; apply Hpos; rewrite Hs; apply in_or_app; right; now right).
  assert (HP : 0 < P) by apply (filter_pos pre Hpre). assert (HM : 0 < zprod post) by apply (filter_pos post Hpost).
  assert (Hone : forall m, In m [1] -> 1 <= m) by (intros m [<-|[]]; lia).
  assert (Enum : zprod (shp x) = P * n * zprod post).
  { rewrite Hs at 1. rewrite zprod_app. zp. fold P. lia. }
  assert (Etest : (dim =? -1) || (dim =? Z.of_nat (ndim x) - 1) = Nat.eqb (S a) (ndim x)).
  { destruct Ha as [Ha1 Ha2]. destruct (Nat.eqb_spec (S a) (ndim x)).
    - apply orb_true_iff. rewrite !Z.eqb_eq. lia.
    - apply orb_false_iff. rewrite !Z.eqb_neq. lia. }
  rewrite Etest. destruct (Nat.eqb_spec (S a) (ndim x)) as [E|E].
  - assert (Ep : post = []) by (unfold post; rewrite E; apply skipn_all). 
    assert (Ei : pyidx (shp x) (-1) = Ok n).
    { apply axis_arg_idx with (d := 0). split; [destruct Ha; auto|]. unfold ndim in E. lia. }
    rewrite Ei. cbn [bind].
    destruct (treshape_ravel x [-1; 1; n] [P; 1; n]) as [x' [Ex [Sx Vx]]].
    { rewrite Enum, Ep. pose proof (infer_one [] [1; n] P ltac:(intros ? []) ltac:(intros m [<-|[<-|[]]]; lia)) as I.
      cbn [app] in I. rewrite <- I. f_equal. zp; ring. }
    destruct (treshape_ravel w [1; 1; -1] [1; 1; k]) as [w' [Ew [Sw Vw]]].
    { rewrite Hw. pose proof (infer_one [1; 1] [] k ltac:(intros m [<-|[<-|[]]]; lia) ltac:(intros ? [])) as I.
      cbn [app] in I. rewrite <- I. f_equal. zp; ring. }
    exists x', w'. rewrite Ex. cbn [bind]. rewrite Ew. cbn [bind]. split; [reflexivity|]. split; [|intros; lia]. intros _.
    split; [auto|]. split; [auto|]. split.
    + intros q Hq. apply Vw; [rewrite Hw; repeat constructor; lia|]. rewrite Hw. zp; ring.
    + intros i c Hi Hc. apply Vx; [rewrite Hs, Ep; apply valid_app; auto; repeat constructor; lia|].
      rewrite Hs, Ep, ravel_app by (rewrite (valid_length _ _ Hi); auto). zp; ring.
  - rewrite (axis_arg_idx _ _ _ 0 Ha). cbn [bind]. rewrite (axis_arg_clamp _ _ _ Ha). fold pre P n.
    destruct (treshape_ravel x [P; 1; n; -1] [P; 1; n; zprod post]) as [x' [Ex [Sx Vx]]].
    { rewrite Enum. pose proof (infer_one [P; 1; n] [] (zprod post) ltac:(intros m [<-|[<-|[<-|[]]]]; lia) ltac:(intros ? [])) as I.
      cbn [app] in I. rewrite <- I. f_equal. zp; ring. }
    destruct (treshape_ravel w [1; 1; -1; 1] [1; 1; k; 1]) as [w' [Ew [Sw Vw]]].
    { rewrite Hw. pose proof (infer_one [1; 1] [1] k ltac:(intros m [<-|[<-|[]]]; lia) Hone) as I.
      cbn [app] in I. rewrite <- I. f_equal. zp; ring. }
    exists x', w'. rewrite Ex. cbn [bind]. rewrite Ew. cbn [bind]. split; [reflexivity|]. split; [intros; lia|]. intros _.
    split; [auto|]. split; [auto|]. split.
    + intros q Hq. apply Vw; [rewrite Hw; repeat constructor; lia|]. rewrite Hw. zp; ring.
    + intros i c p Hi Hc Hp. apply Vx; [rewrite Hs; apply valid_app; auto; constructor; [lia|auto]|].
      rewrite Hs, ravel_app by (rewrite (valid_length _ _ Hi); auto). zp; ring.
Qed.

Lemma conv1d_ok (x w : T) b n k s d : shp x = [b; 1; n] -> shp w = [1; 1; k] ->
  conv1d_one x w s d = if conv_fits n k s d then
      Ok (mkT [b; 1; conv_len n k s d]
            (fun i => fsum k (fun q => fmul (at_ w [0; 0; q]) (at_ x [nth 0 i 0; 0; nth 2 i 0 * s + q * d]))))
    else Err RuntimeError.
Proof. intros E1 E2. unfold conv1d_one. rewrite E1, E2. reflexivity. Qed.
Lemma conv2d_ok (x w : T) b n m k s d : shp x = [b; 1; n; m] -> shp w = [1; 1; k; 1] ->
  conv2d_one x w s d = if conv_fits n k s d && (1 <=? m) then
      Ok (mkT [b; 1; conv_len n k s d; m]
            (fun i => fsum k (fun q =>
               fmul (at_ w [0; 0; q; 0]) (at_ x [nth 0 i 0; 0; nth 2 i 0 * s + q * d; nth 3 i 0]))))
    else Err RuntimeError.
Proof. intros E1 E2. unfold conv2d_one. rewrite E1, E2. reflexivity. Qed.

Theorem any_conv_correlates (x w : T) dim a stride dilation k : axis_arg (ndim x) dim a ->
  (forall n, In n (shp x) -> 1 <= n) -> shp w = [k] -> 1 <= k -> 1 <= stride -> 1 <= dilation ->
  dilation * (k - 1) + 1 <= nth a (shp x) 0 ->
  exists y, any_conv_1d x w dim stride dilation = Ok y /\
    shp y = upd a ((nth a (shp x) 0 - dilation * (k - 1) - 1) / stride + 1) (shp x) /\
    forall j, valid (shp y) j ->
      at_ y j = fsum k (fun q => fmul (at_ w [q]) (at_ x (upd a (nth a j 0 * stride + q * dilation) j))).
Proof.
  intros Ha Hpos Hw Hk Hs Hd Hfit.
  destruct (any_conv_eq x w dim a stride dilation k Ha Hpos Hw Hk) as [x' [w' [E [E1 E2]]]]. rewrite E. clear E.
  pose proof (proj1 Ha) as Hlt.
  rewrite (upd_split (shp x) a (-1)) by exact Hlt. 
  fold (conv_len (nth a (shp x) 0) k stride dilation).
  set (L := conv_len (nth a (shp x) 0) k stride dilation).
  rewrite (upd_split (shp x) a L) by exact Hlt.
  pose proof (split_at (shp x) a Hlt) as Hsp.
  set (pre := firstn a (shp x)) in *. set (post := skipn (S a) (shp x)) in *. set (n := nth a (shp x) 0) in *.
  assert (Lpre : length pre = a) by (unfold pre; rewrite firstn_length; unfold ndim in *; lia).
  assert (Hpre : forall m, In m pre -> 1 <= m) by (intros m Hm; apply Hpos; rewrite Hsp; apply in_or_app; auto).
  assert (Hpost : forall m, In m post -> 1 <= m) by (intros m Hm; apply Hpos; rewrite Hsp; apply in_or_app; right; now right).
  assert (HP : 0 < zprod pre) by apply (filter_pos pre Hpre). assert (HM : 0 < zprod post) by apply (filter_pos post Hpost).
  assert (HL : 1 <= L) by (apply conv_len_pos; auto).
  assert (Fit : conv_fits n k stride dilation = true) by (apply conv_fits_iff; auto).
  assert (Done : forall u : T, zprod (shp u) = zprod pre * L * zprod post ->
     (forall i c p, valid pre i -> 0 <= c < L -> valid post p ->
        exists v, valid (shp u) v /\ ravel (shp u) v = ravel (pre ++ L :: post) (i ++ c :: p) /\
          at_ u v = fsum k (fun q => fmul (at_ w [q]) (at_ x (i ++ (c * stride + q * dilation) :: p)))) ->
     exists y, treshape u (pre ++ -1 :: post) = Ok y /\ shp y = pre ++ L :: post /\
       forall j, valid (shp y) j ->
         at_ y j = fsum k (fun q => fmul (at_ w [q]) (at_ x (upd a (nth a j 0 * stride + q * dilation) j)))).
  { intros u Hu Hv. destruct (treshape_ravel u (pre ++ -1 :: post) (pre ++ L :: post)) as [y [Ey [Sy Vy]]].
    { rewrite Hu. apply infer_one; auto. }
    exists y. split; [auto|]. split; [auto|]. intros j Hj. rewrite Sy in Hj.
    destruct (valid_app_inv _ _ _ Hj) as [i [r [-> [Hi Hr]]]].
    destruct r as [|c p]; [inversion Hr|]. apply valid_cons in Hr. destruct Hr as [Hc Hp]. destruct (Hv i c p Hi Hc Hp) as [v [V1 [V2 V3]]].
    rewrite (Vy _ v V1 (eq_sym V2)), V3. apply fsum_ext. intros q Hq. f_equal. f_equal.
    assert (Li : length i = a) by (rewrite (valid_length _ _ Hi); auto).
    rewrite app_nth2 by lia. replace (a - length i)%nat with 0%nat by lia. cbn [nth].
    rewrite <- Li. rewrite <- (Nat.add_0_r (length i)), upd_app_r. reflexivity. }
  destruct (Nat.eqb_spec (S a) (ndim x)) as [En|En].
  - destruct (E1 En) as [S1 [S2 [V1 V2]]].
    assert (Ep : post = []) by (unfold post; rewrite En; apply skipn_all).
    rewrite (conv1d_ok x' w' _ _ _ stride dilation S1 S2), Fit. cbn [bind]. apply Done.
    + cbn [shp]. rewrite Ep. fold L. zp. ring.
    + intros i c p Hi Hc Hp. rewrite Ep in *. destruct p; [|inversion Hp]. cbn [shp]. fold L.
      exists [ravel pre i; 0; c]. split; [|split].
      * pose proof (ravel_range _ _ Hi). repeat (apply Forall2_cons; [lia|]). constructor.
      * rewrite ravel_app by (rewrite (valid_length _ _ Hi); auto). zp; ring.
      * cbn [at_ nth]. apply fsum_ext. intros q Hq. rewrite V1 by auto. rewrite V2; auto. apply conv_pos with (k := k); auto.
  - destruct (E2 En) as [S1 [S2 [V1 V2]]].
    rewrite (conv2d_ok x' w' _ _ _ _ stride dilation S1 S2), Fit. destruct (Z.leb_spec 1 (zprod post)); [|lia]. cbn [bind andb]. apply Done.
    + cbn [shp]. fold L. zp. ring.
    + intros i c p Hi Hc Hp. cbn [shp]. fold L.
      exists [ravel pre i; 0; c; ravel post p]. split; [|split].
      * pose proof (ravel_range _ _ Hi). pose proof (ravel_range _ _ Hp). repeat (apply Forall2_cons; [lia|]). constructor.
      * rewrite ravel_app by (rewrite (valid_length _ _ Hi); auto). zp; ring.
      * cbn [at_ nth]. apply fsum_ext. intros q Hq. rewrite V1 by auto. rewrite V2; auto. apply conv_pos with (k := k); auto.
Qed.

(** A kernel that does not fit is an error. *)
Theorem any_conv_too_large (x w : T) dim a stride dilation k : axis_arg (ndim x) dim a ->
  (forall n, In n (shp x) -> 1 <= n) -> shp w = [k] -> 1 <= k ->
  stride < 1 \/ dilation < 1 \/ nth a (shp x) 0 < dilation * (k - 1) + 1 ->
  any_conv_1d x w dim stride dilation = Err RuntimeError.
Proof.
  intros Ha Hpos Hw Hk Hbad.
  destruct (any_conv_eq x w dim a stride dilation k Ha Hpos Hw Hk) as [x' [w' [E [E1 E2]]]]. rewrite E. clear E.
  assert (Fit : conv_fits (nth a (shp x) 0) k stride dilation = false).
  { destruct (conv_fits _ _ _ _) eqn:E; auto. apply conv_fits_iff in E. lia. }
  destruct (Nat.eqb_spec (S a) (ndim x)) as [En|En].
  - destruct (E1 En) as [S1 [S2 _]]. rewrite (conv1d_ok x' w' _ _ _ stride dilation S1 S2), Fit. reflexivity.
  - destruct (E2 En) as [S1 [S2 _]]. rewrite (conv2d_ok x' w' _ _ _ _ stride dilation S1 S2), Fit. reflexivity.
Qed.

(** With dilation 1 it agrees with [x.unfold(dim, k, stride) @ w], the commented-out alternative in
    SeparablePoolNd.forward. *)
Theorem any_conv_unfold (x : T) (ker : list F) dim a stride : axis_arg (ndim x) dim a ->
  (forall n, In n (shp x) -> 1 <= n) -> ker <> [] -> 1 <= stride ->
  klen ker <= nth a (shp x) 0 ->
  exists y u z, any_conv_1d x (mkT [klen ker] (fun i => nth (Z.to_nat (nth 0 i 0)) ker f0)) dim stride 1 = Ok y /\
    tunfold a (klen ker) stride x = Ok u /\ tmatvec u ker = Ok z /\ teq y z.
Proof.
  intros Ha Hpos Hker Hs Hn. assert (1 <= klen ker) by (unfold klen; destruct ker; [congruence|simpl; lia]).
  destruct (any_conv_correlates x (mkT [klen ker] (fun i => nth (Z.to_nat (nth 0 i 0)) ker f0)) dim a stride 1 (klen ker)) as [y [E1 [E2 E3]]]; auto; try lia.
  destruct (tunfold_matvec F x a ker stride (proj1 Ha) Hker Hs Hn) as [u [z [U1 [U2 [U3 U4]]]]].
  exists y, u, z. split; [auto|]. split; [auto|]. split; [auto|].
  replace (nth a (shp x) 0 - 1 * (klen ker - 1) - 1) with (nth a (shp x) 0 - klen ker) in E2 by lia.
  split; [congruence|]. intros j Hj. rewrite E3 by auto.
  rewrite U4 by (rewrite (valid_length _ _ Hj), E2, upd_length; reflexivity).
  apply fsum_ext. intros q Hq. cbn [at_ nth]. do 2 f_equal. f_equal. lia.
Qed.

(** An empty axis elsewhere: the final view cannot infer the length. *)
Theorem any_conv_empty (x w : T) dim a stride dilation k : axis_arg (ndim x) dim a -> shp w = [k] ->
  (forall n, In n (shp x) -> 0 <= n) -> (exists d, (d < ndim x)%nat /\ d <> a /\ nth d (shp x) 0 = 0) ->
  any_conv_1d x w dim stride dilation = Err RuntimeError.
Proof.
  intros Ha Hw Hpos [d [Hd [Hda Hz]]].
  assert (Final : forall y : T, treshape y (upd a (-1) (shp x)) = Err RuntimeError).
  { intros y. unfold treshape. assert (E : infer_shape (zprod (shp y)) (upd a (-1) (shp x)) = Err RuntimeError); [|now rewrite E].
    pose proof (proj1 Ha) as Hlt. unfold ndim in *.
    rewrite (upd_split (shp x) a (-1)) by exact Hlt.
    assert (Hin : In 0 (firstn a (shp x) ++ skipn (S a) (shp x))).
    { apply in_or_app. destruct (Nat.lt_ge_cases d a).
      - left. assert (E : nth d (firstn a (shp x)) 0 = 0).
        { etransitivity; [|exact Hz]. rewrite <- (firstn_skipn a (shp x)) at 2. rewrite app_nth1 by (rewrite firstn_length; lia). reflexivity. }
        rewrite <- E at 1. apply nth_In. rewrite firstn_length; lia.
      - right. assert (E : nth (d - S a) (skipn (S a) (shp x)) 0 = 0).
        { etransitivity; [|exact Hz]. rewrite <- (firstn_skipn (S a) (shp x)) at 2. rewrite app_nth2 by (rewrite firstn_length; lia).
          f_equal. rewrite firstn_length. lia. }
        rewrite <- E at 1. apply nth_In. rewrite skipn_length; lia. }
    assert (Hz0 : forall l, In 0 l -> zprod l = 0) by (induction l as [|b l IH]; [intros []|]; intros [->|H']; simpl; [lia|]; rewrite IH; auto; lia).
    assert (NF : forall l, (forall n, In n l -> 0 <= n) -> filter (fun n => negb (n =? -1)) l = l /\ filter (fun n => n =? -1) l = []).
    { induction l as [|b l IH]; intros H; [split; reflexivity|]. destruct IH as [A B]; [intros; apply H; now right|].
      assert (0 <= b) by (apply H; now left). simpl. destruct (Z.eqb_spec b (-1)); [lia|]. simpl. rewrite A, B. auto. }
    assert (P1 : forall n, In n (firstn a (shp x)) -> 0 <= n) by (intros m Hm; apply Hpos; rewrite <- (firstn_skipn a (shp x)); apply in_or_app; auto).
    assert (P2 : forall n, In n (skipn (S a) (shp x)) -> 0 <= n) by (intros m Hm; apply Hpos; rewrite <- (firstn_skipn (S a) (shp x)); apply in_or_app; auto).
    destruct (NF _ P1) as [A1 A2]. destruct (NF _ P2) as [B1 B2].
    unfold infer_shape. destruct (negb _); auto. rewrite !filter_app. cbn [filter]. change (-1 =? -1) with true. cbn [negb].
    rewrite A1, A2, B1, B2. cbn [app]. rewrite (Hz0 _ Hin). reflexivity. }
  unfold any_conv_1d. rewrite (axis_arg_nat _ _ _ Ha). cbn [bind].
  match goal with |- (y <- ?e ;; _) = _ => assert (G : (exists y, e = Ok y) \/ e = Err RuntimeError) end.
  { assert (B : forall (e f : res T) (g : T -> T -> res T), ok_or_runtime e -> ok_or_runtime f -> (forall u v, ok_or_runtime (g u v)) ->
        ok_or_runtime (u <- e ;; v <- f ;; g u v)).
    { intros e f g [[u ->]| ->] [[v ->]| ->] Hg; cbn [bind]; auto; now right. }
    destruct (_ || _).
    - rewrite (pyidx_neg _ _ 0) by (destruct Ha; unfold ndim in *; lia). cbn [bind].
      apply B; try apply treshape_cases. intros u v. unfold conv1d_one, ok_or_runtime.
      destruct (shp u) as [|? [|[|[]|] [|? []]]]; auto; destruct (shp v) as [|[|[]|] [|[|[]|] [|? []]]]; auto; destruct (conv_fits _ _ _ _); eauto.
    - rewrite (axis_arg_idx _ _ _ 0 Ha). cbn [bind].
      apply B; try apply treshape_cases. intros u v. unfold conv2d_one, ok_or_runtime.
      destruct (shp u) as [|? [|[|[]|] [|? [|? []]]]]; auto; destruct (shp v) as [|[|[]|] [|[|[]|] [|? [|[|[]|] []]]]]; auto; destruct (_ && _); eauto. }
  destruct G as [[y Ey]|Ey]; rewrite Ey; cbn [bind]; auto.
Qed.
End C.
